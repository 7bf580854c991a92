(** Model of `@keyframes`: crates/bevy_flair_css_parser/src/parser/keyframes.rs:45-126 (selectors and blocks),
    crates/bevy_flair_css_parser/src/internal_loader.rs:198-290 (blocks handed to the builder),
    crates/bevy_flair_style/src/animations/keyframes.rs:86-112 and 119-523 (builder and resolver),
    crates/bevy_flair_style/src/animations/reflect.rs:147-175 and curves.rs:150-214 (the curve of a resolved track).
    Times are rationals plus infinities and NaN; f32 rounding is not modelled. Names of properties and of animations,
    error reports and warnings are not modelled; properties are given by their registered ids. *)
From Coq Require Import QArith.
From Verif Require Import Base Inherit.
Open Scope nat_scope.

(** f32 *)
Inductive ftime := Fin (q : Q) | PosInf | NegInf | NotANumber.

Section K.
  (** V: ReflectValue. E: EasingFunction. D: an unresolved declaration with var() (css name, parser, tokens).
      T: AnimationValues of `animation-timing-function`, still to be resolved. *)
  Context {V E D T : Type}.

  (** style_sheet.rs:41-58 RulesetProperty / StyleBuilderProperty *)
  Inductive rprop := Specific (p : nat) (v : pvalue V) | Dynamic (d : D).

  (** keyframes.rs:372-380 InnerAnimationKeyframeBuilder *)
  Record kbuilder := mk_kb { kb_time : ftime; kb_props : list rprop; kb_timing : option T }.
  Definition new_kb (t : ftime) : kbuilder := mk_kb t [] None.

  (** keyframes.rs:445-454 AnimationKeyframesBuilder::new *)
  Definition new_builder : list kbuilder := [new_kb (Fin 0); new_kb (Fin 1)].
  (** keyframes.rs:457-464 TIME_EPSILON, is_time_equals *)
  Definition epsilon : Q := 1 # 1000.
  Definition is_time_equals (a b : ftime) : bool :=
    match a, b with
    | Fin a, Fin b => Qle_bool (a - epsilon) b && Qle_bool b (a + epsilon)
    | PosInf, PosInf | NegInf, NegInf => true
    | _, _ => false
    end.
  (** keyframes.rs:456-483 add_keyframe, followed by a change [f] through the AnimationKeyframeBuilder it returns *)
  Fixpoint add_keyframe (time : ftime) (f : kbuilder -> kbuilder) (l : list kbuilder) : list kbuilder :=
    match l with
    | [] => [f (new_kb time)]
    | k :: r => if is_time_equals (kb_time k) time then f k :: r else k :: add_keyframe time f r
    end.
  (** keyframes.rs:398-408 add_properties, 423-429 set_animation_timing_function *)
  Definition add_properties (ps : list rprop) (k : kbuilder) : kbuilder := mk_kb (kb_time k) (kb_props k ++ ps) (kb_timing k).
  Definition set_timing (t : T) (k : kbuilder) : kbuilder := mk_kb (kb_time k) (kb_props k) (Some t).

  (** keyframes.rs:88-95 AnimationKeyframe *)
  Record keyframe := mk_kf { kf_time : Q; kf_props : list rprop; kf_timing : option T }.
  (** keyframes.rs:491 the keyframes retained *)
  Definition retained (k : kbuilder) : list keyframe :=
    match kb_time k with
    | Fin q => if Qle_bool 0 q && Qle_bool q 1 then [mk_kf q (kb_props k) (kb_timing k)] else []
    | _ => []
    end.
  (** slice::sort_by, stable *)
  Fixpoint insert_kf (k : keyframe) (l : list keyframe) : list keyframe :=
    match l with
    | [] => [k]
    | x :: r => if Qle_bool (kf_time k) (kf_time x) then k :: x :: r else x :: insert_kf k r
    end.
  Definition sort_kfs (l : list keyframe) : list keyframe := fold_right insert_kf [] l.
  (** keyframes.rs:486-519 build (the properties are registered, so resolving them does not fail) *)
  Definition build (l : list kbuilder) : list keyframe := sort_kfs (flat_map retained l).

  (** parser/keyframes.rs:45-63 parse_keyframe, on the tokens that matter *)
  Inductive kf_token := KFrom | KTo | KPercent (q : Q) | KNumber (q : Q) | KOther.
  Definition parse_keyframe (t : kf_token) : option Q :=
    let unit q := if Qle_bool 0 q && Qle_bool q 1 then Some q else None in
    match t with
    | KFrom => Some 0%Q | KTo => Some 1%Q
    | KPercent q => unit (q / 100)%Q
    | KNumber q => unit q
    | KOther => None
    end.
  (** What a declaration of a block is parsed to: CssRulesetProperty (SingleProperty, MultipleProperties and
      DynamicProperty become lists of properties; `!important` is dropped by the loader) *)
  Inductive kf_decl := KProps (l : list rprop) | KTiming (t : T) | KError.
  (** parser/keyframes.rs:75-105: a block whose selector list has an invalid member is an error as a whole *)
  Fixpoint parse_prelude (l : list kf_token) : option (list Q) :=
    match l with
    | [] => Some []
    | t :: r => match parse_keyframe t, parse_prelude r with Some q, Some qs => Some (q :: qs) | _, _ => None end
    end.
  Definition block := (list kf_token * list kf_decl)%type.
  (** internal_loader.rs:201-283 *)
  Definition load_decl (times : list Q) (b : list kbuilder) (d : kf_decl) : list kbuilder :=
    match d with
    | KProps ps => fold_left (fun b t => add_keyframe (Fin t) (add_properties ps) b) times b
    | KTiming tf => fold_left (fun b t => add_keyframe (Fin t) (set_timing tf) b) times b
    | KError => b
    end.
  Definition load_block (b : list kbuilder) (x : block) : list kbuilder :=
    match parse_prelude (fst x) with
    | Some times => fold_left (load_decl times) (snd x) b
    | None => b
    end.
  Definition load (l : list block) : list keyframe := build (fold_left load_block l new_builder).

  (** The environment of the resolver, keyframes.rs:186-195 *)
  Variable dyn : D -> list (nat * pvalue V).          (* a declaration with var(), resolved and parsed; [] on an error *)
  Variable unset : nat -> pvalue V.                   (* StaticPropertyMaps *)
  Variable initial : nat -> V.
  Variables pending computed : nat -> cvalue V.       (* pending_computed_values, computed_values of the node *)
  Variable resolve_timing : T -> option E.            (* AnimationValues::resolve, then as_timing_function of the first value *)
  Variable animatable : V -> bool.                    (* the value's type has ReflectAnimatable data *)
  Variable interp : V -> V -> Q -> V.                 (* InterpolateValue::interpolate of that type *)
  Variable ease : E -> Q -> Q.                        (* the easing curve of an easing function *)
  Variable default_easing : E.                        (* the animation's own timing function *)

  (** style_sheet.rs:61-101 RulesetProperty::resolve *)
  Definition expand (r : rprop) : list (nat * pvalue V) := match r with Specific p v => [(p, v)] | Dynamic d => dyn d end.
  (** keyframes.rs:98-110 resolve_properties: a hash map, the last insertion wins *)
  Definition insert_prop {X} (m : nat -> option X) (p : nat) (v : X) : nat -> option X := fun q => if Nat.eqb q p then Some v else m q.
  Definition resolve_properties (k : keyframe) : nat -> option (pvalue V) :=
    fold_left (fun m pv => insert_prop m (fst pv) (snd pv)) (flat_map expand (kf_props k)) (fun _ => None).
  (** keyframes.rs:228-231 compute_as_root ([None] is its `unreachable!`: no property has `unset` as its unset value) *)
  Definition compute (p : nat) (v : pvalue V) : cvalue V :=
    match compute_as_root v (unset p) (initial p) with Some c => c | None => CNone end.
  (** keyframes.rs:235-248 *)
  Definition resolve_easing (o : option T) : E :=
    match o with
    | None => default_easing
    | Some t => match resolve_timing t with Some e => e | None => default_easing end
    end.
  (** keyframes.rs:218-256: an element of tmp_resolved_keyframes *)
  Record entry := mk_entry { e_time : Q; e_props : nat -> option (cvalue V); e_easing : E }.
  Definition resolve_entry (k : keyframe) : entry :=
    mk_entry (kf_time k) (fun p => option_map (compute p) (resolve_properties k p)) (resolve_easing (kf_timing k)).
  Definition set_prop (e : entry) (p : nat) (v : cvalue V) : entry := mk_entry (e_time e) (insert_prop (e_props e) p v) (e_easing e).

  (** property_value.rs:136-142 ComputedValue::or; keyframes.rs:277-279 *)
  Definition c_or (a b : cvalue V) : cvalue V := match a with CNone => b | _ => a end.
  Definition current_value (p : nat) : cvalue V := c_or (pending p) (computed p).
  (** keyframes.rs:274-285: the first and the last keyframe get the current value *)
  Definition ensure (p : nat) (e : entry) : entry :=
    match e_props e p with Some _ => e | None => set_prop e p (current_value p) end.
  Definition fill_first (p : nat) (l : list entry) : list entry := match l with [] => [] | e :: r => ensure p e :: r end.
  Fixpoint fill_last (p : nat) (l : list entry) : list entry :=
    match l with [] => [] | [e] => [ensure p e] | e :: r => e :: fill_last p r end.
  (** keyframes.rs:137-173 interpolate_value; `sample` yields nothing outside the unit interval *)
  Definition interpolate_value (ta : Q) (va : cvalue V) (tb : Q) (vb : cvalue V) (v : Q) : cvalue V :=
    let t := ((v - ta) / (tb - ta))%Q in
    match va, vb with
    | CVal a, CVal b => if animatable a then (if Qle_bool 0 t && Qle_bool t 1 then CVal (interp a b t) else CNone) else CNone
    | _, _ => CNone
    end.
  (** keyframes.rs:297-304: the next keyframe with a value *)
  Fixpoint next_defined (p : nat) (l : list entry) : option (Q * cvalue V) :=
    match l with
    | [] => None
    | e :: r => match e_props e p with Some v => Some (e_time e, v) | None => next_defined p r end
    end.
  (** keyframes.rs:287-327: the keyframes in between, from left to right. [ta], [va] are those of the previous keyframe,
      which has a value already. [None] = the `expect` panics. The last keyframe has a value, so going on to the end of the
      list is the same as stopping before it. *)
  Fixpoint fill_rest (p : nat) (ta : Q) (va : cvalue V) (l : list entry) : option (list entry) :=
    match l with
    | [] => Some []
    | e :: r =>
        match e_props e p with
        | Some v => option_map (cons e) (fill_rest p (e_time e) v r)
        | None =>
            match next_defined p r with
            | None => None
            | Some (tb, vb) =>
                let v := interpolate_value ta va tb vb (e_time e) in
                option_map (cons (set_prop e p v)) (fill_rest p (e_time e) v r)
            end
        end
    end.
  (** keyframes.rs:258-327, for one property *)
  Definition fill_property (l : list entry) (p : nat) : option (list entry) :=
    match fill_last p (fill_first p l) with
    | [] => None
    | e :: r => match e_props e p with Some v => option_map (cons e) (fill_rest p (e_time e) v r) | None => None end
    end.
  Fixpoint fill_all (ps : list nat) (l : list entry) : option (list entry) :=
    match ps with [] => Some l | p :: r => match fill_property l p with Some l' => fill_all r l' | None => None end end.
  (** keyframes.rs:38-47 AnimationPropertyKeyframe *)
  Record pkeyframe := mk_pk { pk_time : Q; pk_value : V; pk_easing : E }.
  (** keyframes.rs:329-372: properties without a value somewhere are removed, the others become tracks *)
  Definition has_value (p : nat) (e : entry) : bool := match e_props e p with Some (CVal _) => true | _ => false end.
  Definition track_of (p : nat) (l : list entry) : list pkeyframe :=
    flat_map (fun e => match e_props e p with Some (CVal v) => [mk_pk (e_time e) v (e_easing e)] | _ => [] end) l.
  (** keyframes.rs:198-375 resolve. [order] is the order in which the hash set `all_properties` happens to be visited.
      [None] = panic. *)
  Definition resolve (order : list nat) (ks : list keyframe) : option (nat -> option (list pkeyframe)) :=
    option_map (fun l =>
      fold_left (fun m p => insert_prop m p (track_of p l)) (filter (fun p => forallb (has_value p) l) order) (fun _ => None))
      (fill_all order (map resolve_entry ks)).

  (** bevy_math UnevenCore::new: sorts the samples by time and drops the later ones of equal time *)
  Fixpoint insert_pk (k : pkeyframe) (l : list pkeyframe) : list pkeyframe :=
    match l with [] => [k] | x :: r => if Qle_bool (pk_time k) (pk_time x) then k :: x :: r else x :: insert_pk k r end.
  Fixpoint dedup (k : pkeyframe) (l : list pkeyframe) : list pkeyframe :=
    match l with [] => [k] | x :: r => if Qeq_bool (pk_time k) (pk_time x) then dedup k r else k :: dedup x r end.
  Definition uneven_new (l : list pkeyframe) : option (list pkeyframe) :=
    match fold_right insert_pk [] l with
    | [] => None
    | k :: r => let d := dedup k r in if Nat.ltb (length d) 2 then None else Some d
    end.
  (** bevy_math uneven_interp on sorted times (its binary search gives what this linear one gives), with
      curves.rs:198-213 sample_unchecked *)
  Fixpoint sample_from (k : pkeyframe) (l : list pkeyframe) (x : Q) : V :=
    if Qeq_bool x (pk_time k) then pk_value k
    else match l with
         | [] => pk_value k
         | k' :: r =>
             if Qle_bool (pk_time k') x then sample_from k' r x
             else interp (pk_value k) (pk_value k') (ease (pk_easing k) ((x - pk_time k) / (pk_time k' - pk_time k))%Q)
         end.
  Definition sample_track (l : list pkeyframe) (x : Q) : option V :=
    match l with
    | [] => None
    | k :: r => Some (if Qle_bool (pk_time k) x then sample_from k r x else pk_value k)
    end.
  (** reflect.rs:147-175 create_keyframe_animation_with and sampling the curve; [None] = its `expect` panics *)
  Definition sample_keyframes (l : list pkeyframe) (x : Q) : option V :=
    match uneven_new l with Some d => sample_track d x | None => None end.
End K.
Arguments rprop : clear implicits. Arguments kbuilder : clear implicits. Arguments keyframe : clear implicits.
Arguments kf_decl : clear implicits. Arguments block : clear implicits. Arguments entry : clear implicits. Arguments pkeyframe : clear implicits.

(** Specification vocabulary for the cascade. *)
From Coq Require Import Ascii String NArith Sorted.
From Verif Require Import Base Layers LayersSpec Cascade.
Local Open Scope list_scope.

Section Spec.
  Context {Sel Med VN VT CN Value Dyn TP AP KN KF FF : Type}.
  Variable specificity : Sel -> N.

  (** [cascade_before h css i j]: the [i]-th selector (in source order) ranks below the [j]-th:
      lower layer priority, or same layer and lower specificity, or same and earlier in the source. *)
  Definition cascade_before (h : list (list ascii)) (css : list (css_selector Sel Med * nat)) (i j : nat) : Prop :=
    exists si idi sj idj pi pj,
      nth_error css i = Some (si, idi) /\ nth_error css j = Some (sj, idj) /\
      get_layer_priority h (layer si) = Some pi /\ get_layer_priority h (layer sj) = Some pj /\
      (pi < pj \/ (pi = pj /\ ((specificity (selector si) < specificity (selector sj))%N \/
                               (specificity (selector si) = specificity (selector sj) /\ i < j)))).

  (** [last_declaration ds p v]: [v] is the value of the last declaration of property [p] in [ds]. *)
  Definition last_declaration (ds : list (nat * Value)) (p : nat) (v : Value) : Prop :=
    exists l1 l2, ds = l1 ++ (p, v) :: l2 /\ forall v', ~ In (p, v') l2.

  (** The last occurrences of each id, in order. *)
  Fixpoint keep_last (ids : list nat) : list nat :=
    match ids with
    | [] => []
    | i :: r => if in_dec Nat.eq_dec i r then keep_last r else i :: keep_last r
    end.

  (** What a selector entry denotes: the selector with the content of its ruleset. *)
  Definition rules {P} (rs : list (ruleset_of VN VT TP AP P)) (css : list (css_selector Sel Med * nat))
    : list (css_selector Sel Med * option (ruleset_of VN VT TP AP P)) :=
    map (fun e => (fst e, nth_error rs (snd e))) css.

  Definition no_content {P} (r : ruleset_of VN VT TP AP P) : Prop :=
    vars r = [] /\ properties r = [] /\ transition_properties r = [] /\ animation_properties r = [].

  (** A layer as written in a rule: none, or a legal dotted name. *)
  Definition legal_layer (n : list ascii) : Prop := n = [] \/ exists p, legal p /\ n = dotted p.

  (** The declarations one ruleset entry stands for: itself, or, for a value with var(), what its
      evaluation yields (nothing when it fails). *)
  Definition stands_for (eval : Dyn -> option (list (nat * Value))) (p : ruleset_property Value Dyn) : list (nat * Value) :=
    match p with
    | RSpecific id v => [(id, v)]
    | RDynamic d => match eval d with Some vs => vs | None => [] end
    end.

  (** The same property as accepted by a builder: an already resolved id, or the same dynamic value. *)
  Definition as_declared (p : ruleset_property Value Dyn) : builder_property CN Value Dyn :=
    match p with RSpecific id v => BSpecific (RefId id) v | RDynamic d => BDynamic d end.

  (** The selector, moved into layer [p] of the importing sheet: layer [l] becomes [p.l], no layer
      becomes [p]; without import layer nothing changes. *)
  Definition imported_into (p : option (list ascii)) (s : css_selector Sel Med) : css_selector Sel Med :=
    {| layer := match p, layer s with
                | None, l => l
                | Some p, [] => p
                | Some p, l => p ++ ["."%char] ++ l
                end;
       media := media s; selector := selector s |}.

  (** [e1] may precede [e2] under hierarchy [h]: lower layer, then specificity, then ruleset. *)
  Definition may_precede (h : list (list ascii)) (e1 e2 : css_selector Sel Med * nat) : Prop :=
    exists p1 p2, get_layer_priority h (layer (fst e1)) = Some p1 /\ get_layer_priority h (layer (fst e2)) = Some p2 /\
      (p1 < p2 \/ (p1 = p2 /\ ((specificity (selector (fst e1)) < specificity (selector (fst e2)))%N \/
         (specificity (selector (fst e1)) = specificity (selector (fst e2)) /\ snd e1 <= snd e2)))).
End Spec.

(** Builders obtainable through the public API, including embedding of sheets that were built. *)
Section Reachable.
  Context {Sel Med VN VT CN Value Dyn TP AP KN KF FF : Type}.
  Variables (specificity : Sel -> N) (resolve_name : CN -> option nat) (type_ok : nat -> Value -> bool)
            (path_ok : FF -> bool) (placeholder : Value -> Value).
  Notation builderT := (builder Sel Med VN VT CN Value Dyn TP AP KN KF FF).

  Inductive reachable : builderT -> Prop :=
  | r_new : reachable new_builder
  | r_layers : forall b ls b', reachable b -> Forall legal_layer ls -> b_define_layers b ls = Some b' -> reachable b'
  | r_font : forall b f, reachable b -> reachable (register_font_face b f)
  | r_keyframes : forall b k, reachable b -> reachable (add_animation_keyframes b k)
  | r_new_ruleset : forall b, reachable b -> reachable (snd (new_ruleset b))
  | r_content : forall b id f, reachable b -> id < length (rulesets b) -> reachable (modify_content b id f)
  | r_selector : forall b id s b', reachable b -> id < length (rulesets b) -> legal_layer (layer s) ->
      add_css_selector b id s = Some b' -> reachable b'
  | r_remove_empty : forall b b', reachable b -> remove_all_empty_rulesets b = Some b' -> reachable b'
  | r_embed : forall b b0 other p b', reachable b -> reachable b0 ->
      build specificity resolve_name type_ok path_ok placeholder b0 = Built other ->
      (forall n, p = Some n -> n <> [] /\ legal_layer n) ->
      embed_style_sheet b other p = Some b' -> reachable b'.
End Reachable.

(** Model of crates/bevy_flair_style/src/builder.rs and style_sheet.rs: building a style sheet,
    embedding one in another, removing empty rulesets, selecting the matching rulesets of an element
    and computing its property values.

    Abstract (section parameters): the [selectors] crate's parsed selector with its specificity, the
    media query, variable names/tokens, property values, animation/transition declarations, keyframes
    bodies, font faces.  Oracles: does the selector / the media query match (element.rs and
    media_selector.rs, the latter modelled in Media.v), is a value of the property's type, is a font
    path valid, placeholder resolution, parsing of dynamic (var()) properties.
    Hash maps are association lists in insertion order where the last entry for a key wins. *)
From Coq Require Import Ascii String NArith.
From Verif Require Import Base Layers.
Local Open Scope list_scope.

Section Cascade.
  Context {Sel Med VN VT CN Value Dyn TP AP KN KF FF : Type}.

  (** css_selector/mod.rs:281-286 struct CssSelector *)
  Record css_selector := { layer : list ascii; media : Med; selector : Sel }.

  (** core: ComponentPropertyRef; builder.rs:78-95 StyleBuilderProperty *)
  Inductive property_ref := RefId (id : nat) | RefName (c : CN).
  Inductive builder_property := BSpecific (r : property_ref) (v : Value) | BDynamic (d : Dyn).

  (** style_sheet.rs:47-58 RulesetProperty *)
  Inductive ruleset_property := RSpecific (id : nat) (v : Value) | RDynamic (d : Dyn).

  (** style_sheet.rs:114-119 Ruleset, and builder.rs:344-350 InternalStyleSheetBuilderRuleset *)
  Record ruleset_of (P : Type) := mk_ruleset {
    vars : list (VN * VT); properties : list P;
    transition_properties : list TP; animation_properties : list AP }.
  Arguments mk_ruleset {P}. Arguments vars {P}. Arguments properties {P}.
  Arguments transition_properties {P}. Arguments animation_properties {P}.
  Local Notation builder_ruleset := (ruleset_of builder_property).
  Local Notation ruleset := (ruleset_of ruleset_property).

  Definition empty_ruleset : builder_ruleset := mk_ruleset [] [] [] [].

  (** builder.rs:353-358 *)
  Definition is_nil {A} (l : list A) : bool := match l with [] => true | _ => false end.
  Definition is_empty (r : builder_ruleset) : bool :=
    is_nil (vars r) && is_nil (properties r) && is_nil (transition_properties r) && is_nil (animation_properties r).

  (** style_sheet.rs:162-169 StyleSheet (resolved font handles are not modelled) *)
  Record style_sheet := mk_sheet {
    s_font_faces : list FF; s_rulesets : list ruleset; s_keyframes : list (KN * KF);
    s_css : list (css_selector * nat) }.

  (** builder.rs:388-394 StyleSheetBuilder *)
  Record builder := mk_builder {
    layers_hierarchy : list (list ascii); font_faces : list FF;
    rulesets : list builder_ruleset; animation_keyframes : list (KN * KF);
    css_selectors_to_rulesets : list (css_selector * nat) }.

  (** builder.rs:398-400 new *)
  Definition new_builder : builder := mk_builder [] [] [] [] [].

  (** builder.rs:403-408 register_font_face *)
  Definition register_font_face (b : builder) (f : FF) : builder :=
    mk_builder (layers_hierarchy b) (font_faces b ++ [f]) (rulesets b) (animation_keyframes b) (css_selectors_to_rulesets b).

  (** builder.rs:529-531 add_animation_keyframes *)
  Definition add_animation_keyframes (b : builder) (k : KN * KF) : builder :=
    mk_builder (layers_hierarchy b) (font_faces b) (rulesets b) (animation_keyframes b ++ [k]) (css_selectors_to_rulesets b).

  (** builder.rs:411-415 define_layers ([None] = panic) *)
  Definition b_define_layers (b : builder) (ls : list (list ascii)) : option builder :=
    match define_layers ls (layers_hierarchy b) with
    | None => None
    | Some h => Some (mk_builder h (font_faces b) (rulesets b) (animation_keyframes b) (css_selectors_to_rulesets b))
    end.

  (** builder.rs:534-545 new_ruleset: the id is the previous number of rulesets *)
  Definition new_ruleset (b : builder) : nat * builder :=
    (length (rulesets b),
     mk_builder (layers_hierarchy b) (font_faces b) (rulesets b ++ [empty_ruleset]) (animation_keyframes b) (css_selectors_to_rulesets b)).

  (** builder.rs:326-331 add_css_selector *)
  Definition add_css_selector (b : builder) (id : nat) (s : css_selector) : option builder :=
    match define_layer (layers_hierarchy b) (layer s) with
    | None => None
    | Some h => Some (mk_builder h (font_faces b) (rulesets b) (animation_keyframes b) (css_selectors_to_rulesets b ++ [(s, id)]))
    end.

  (** builder.rs:548-558 modify_ruleset: changing the ruleset with index [id] (panics if absent; the
      model leaves the list unchanged then, and callers only use valid ids) *)
  Fixpoint update_nth {A} (n : nat) (f : A -> A) (l : list A) : list A :=
    match l, n with
    | [], _ => []
    | x :: r, 0 => f x :: r
    | x :: r, S n => x :: update_nth n f r
    end.
  Definition modify_content (b : builder) (id : nat) (f : builder_ruleset -> builder_ruleset) : builder :=
    mk_builder (layers_hierarchy b) (font_faces b) (update_nth id f (rulesets b)) (animation_keyframes b) (css_selectors_to_rulesets b).

  (** builder.rs:241-261 add_property / add_var / add_transition_property / add_animation_property *)
  Definition push_property (p : builder_property) (r : builder_ruleset) : builder_ruleset :=
    mk_ruleset (vars r) (properties r ++ [p]) (transition_properties r) (animation_properties r).
  Definition push_var (v : VN * VT) (r : builder_ruleset) : builder_ruleset :=
    mk_ruleset (vars r ++ [v]) (properties r) (transition_properties r) (animation_properties r).
  Definition push_transition (t : TP) (r : builder_ruleset) : builder_ruleset :=
    mk_ruleset (vars r) (properties r) (transition_properties r ++ [t]) (animation_properties r).
  Definition push_animation (t : AP) (r : builder_ruleset) : builder_ruleset :=
    mk_ruleset (vars r) (properties r) (transition_properties r) (animation_properties r ++ [t]).

  (** builder.rs:135-153 From<RulesetProperty> for StyleBuilderProperty *)
  Definition into_builder_property (p : ruleset_property) : builder_property :=
    match p with
    | RSpecific id v => BSpecific (RefId id) v
    | RDynamic d => BDynamic d
    end.

  (** builder.rs:311-323 add_values_from_ruleset *)
  Definition add_values_from_ruleset (other : ruleset) (r : builder_ruleset) : builder_ruleset :=
    mk_ruleset (vars r ++ vars other)
               (properties r ++ map into_builder_property (properties other))
               (transition_properties r ++ transition_properties other)
               (animation_properties r ++ animation_properties other).

  (** css_selector/mod.rs:390-406 with_layer_prefixed *)
  Definition with_layer_prefixed (s : css_selector) (p : option (list ascii)) : css_selector :=
    match p with
    | None => s
    | Some p =>
        {| layer := match layer s with [] => p | l => p ++ "."%char :: l end;
           media := media s; selector := selector s |}
    end.

  (** builder.rs:426-433: the selectors of one embedded ruleset, in the sheet's order *)
  Fixpoint add_css_selectors (b : builder) (id : nat) (ss : list css_selector) : option builder :=
    match ss with
    | [] => Some b
    | s :: r => match add_css_selector b id s with None => None | Some b' => add_css_selectors b' id r end
    end.

  Definition selectors_of (css : list (css_selector * nat)) (id : nat) : list css_selector :=
    map fst (filter (fun e => Nat.eqb (snd e) id) css).

  (** builder.rs:419-434: loop over the other sheet's rulesets with their index *)
  Fixpoint embed_rulesets (b : builder) (css : list (css_selector * nat)) (p : option (list ascii))
           (id : nat) (rs : list ruleset) : option builder :=
    match rs with
    | [] => Some b
    | r :: rest =>
        let (new_id, b1) := new_ruleset b in
        let b2 := modify_content b1 new_id (add_values_from_ruleset r) in
        match add_css_selectors b2 new_id (map (fun s => with_layer_prefixed s p) (selectors_of css id)) with
        | None => None
        | Some b3 => embed_rulesets b3 css p (S id) rest
        end
    end.

  (** builder.rs:418-440 embed_style_sheet *)
  Definition embed_style_sheet (b : builder) (other : style_sheet) (p : option (list ascii)) : option builder :=
    match embed_rulesets b (s_css other) p 0 (s_rulesets other) with
    | None => None
    | Some b' => Some (mk_builder (layers_hierarchy b') (font_faces b' ++ s_font_faces other) (rulesets b')
                                  (animation_keyframes b' ++ s_keyframes other) (css_selectors_to_rulesets b'))
    end.

  (** builder.rs:560-576 remove_id ([assert!] failure = [None]) *)
  Fixpoint remove_nth {A} (n : nat) (l : list A) : list A :=
    match l, n with
    | [], _ => []
    | _ :: r, 0 => r
    | x :: r, S n => x :: remove_nth n r
    end.
  Definition remove_id (b : builder) (id : nat) : option builder :=
    if Nat.ltb id (length (rulesets b)) then
      Some (mk_builder (layers_hierarchy b) (font_faces b) (remove_nth id (rulesets b)) (animation_keyframes b)
        (map (fun e => (fst e, if Nat.ltb id (snd e) then snd e - 1 else snd e))
             (filter (fun e => negb (Nat.eqb (snd e) id)) (css_selectors_to_rulesets b))))
    else None.

  (** builder.rs:579-588 remove_all_empty_rulesets: [while i < len]; every iteration removes a
      ruleset or advances [i], so [length] iterations suffice ([None] = out of fuel or assert) *)
  Fixpoint remove_empty_loop (fuel i : nat) (b : builder) : option builder :=
    match nth_error (rulesets b) i with
    | None => Some b
    | Some r =>
        match fuel with
        | 0 => None
        | S fuel =>
            if is_empty r
            then match remove_id b i with None => None | Some b' => remove_empty_loop fuel i b' end
            else remove_empty_loop fuel (S i) b
        end
    end.
  Definition remove_all_empty_rulesets (b : builder) : option builder :=
    remove_empty_loop (length (rulesets b)) 0 b.

  (** ** build *)
  Variable specificity : Sel -> N.             (* css_selector/mod.rs specificity() *)
  Variable resolve_name : CN -> option nat.    (* PropertyRegistry::resolve on a canonical name *)
  Variable type_ok : nat -> Value -> bool.     (* builder.rs:453-483 validate_property_value *)
  Variable path_ok : FF -> bool.               (* builder.rs:642 AssetPath::try_parse *)
  Variable placeholder : Value -> Value.       (* builder.rs:590-628 resolve_placeholders, per value *)

  Inductive build_error := PropertyNotRegistered | InvalidProperty | OrphanRuleset (id : nat) | InvalidAssetPath
                         | LayerPanic.
  Inductive build_result := Built (s : style_sheet) | BuildError (e : build_error).

  (** builder.rs:110-132 StyleBuilderProperty::resolve, after the placeholder pass *)
  Definition resolve_property (p : builder_property) : option ruleset_property :=
    match p with
    | BSpecific (RefId id) v => Some (RSpecific id (placeholder v))
    | BSpecific (RefName c) v => option_map (fun id => RSpecific id (placeholder v)) (resolve_name c)
    | BDynamic d => Some (RDynamic d)
    end.
  Fixpoint map_opt {A B} (f : A -> option B) (l : list A) : option (list B) :=
    match l with
    | [] => Some []
    | x :: r => match f x, map_opt f r with Some y, Some ys => Some (y :: ys) | _, _ => None end
    end.
  (** builder.rs:360-382 *)
  Definition resolve_ruleset (r : builder_ruleset) : option ruleset :=
    option_map (fun ps => mk_ruleset (vars r) ps (transition_properties r) (animation_properties r))
               (map_opt resolve_property (properties r)).

  (** builder.rs:442-502 validate_all_properties *)
  Definition property_type_ok (p : ruleset_property) : bool :=
    match p with RSpecific id v => type_ok id v | RDynamic _ => true end.
  Definition validate_all_properties (rs : list ruleset) : bool :=
    forallb (fun r => forallb property_type_ok (properties r)) rs.

  (** builder.rs:504-521 validate_no_orphan_rule: the first ruleset without selector *)
  Definition orphan (b : builder) : option nat :=
    find (fun id => negb (existsb (fun e => Nat.eqb (snd e) id) (css_selectors_to_rulesets b)))
         (seq 0 (length (rulesets b))).

  (** builder.rs:662-666 the comparison key: layer priority, then specificity *)
  Definition sort_key (h : list (list ascii)) (s : css_selector) : option (nat * N) :=
    option_map (fun p => (p, specificity (selector s))) (get_layer_priority h (layer s)).
  Definition key_leb (a b : nat * N) : bool :=
    (Nat.ltb (fst a) (fst b) || (Nat.eqb (fst a) (fst b) && N.leb (snd a) (snd b)))%bool.

  (** [sort_by] is a stable sort (its result is determined by that); here insertion from the right:
      [x], which comes earlier in the input than everything in [l], is placed before the first
      element it is [<=] to. *)
  Fixpoint insert_sorted {A} (leb : A -> A -> bool) (x : A) (l : list A) : list A :=
    match l with
    | [] => [x]
    | y :: r => if leb x y then x :: l else y :: insert_sorted leb x r
    end.
  Fixpoint stable_sort {A} (leb : A -> A -> bool) (l : list A) : list A :=
    match l with
    | [] => []
    | x :: r => insert_sorted leb x (stable_sort leb r)
    end.

  (** entries decorated with their key, sorted, undecorated *)
  Definition sort_css (h : list (list ascii)) (css : list (css_selector * nat)) : option (list (css_selector * nat)) :=
    option_map (fun dec => map snd (stable_sort (fun a b => key_leb (fst a) (fst b)) dec))
      (map_opt (fun e => option_map (fun k => (k, e)) (sort_key h (fst e))) css).

  (** builder.rs:631-689 build (checks in the order of the code; the sort precedes property
      resolution) *)
  Definition build (b : builder) : build_result :=
    if negb (forallb path_ok (font_faces b)) then BuildError InvalidAssetPath
    else match orphan b with
    | Some id => BuildError (OrphanRuleset id)
    | None =>
        match sort_css (layers_hierarchy b) (css_selectors_to_rulesets b) with
        | None => BuildError LayerPanic
        | Some css =>
            match map_opt resolve_ruleset (rulesets b) with
            | None => BuildError PropertyNotRegistered
            | Some rs =>
                if validate_all_properties rs
                then Built (mk_sheet (font_faces b) rs (animation_keyframes b) css)
                else BuildError InvalidProperty
            end
        end
    end.

  (** ** Using a style sheet *)

  (** style_sheet.rs:294-309 get_matching_ruleset_ids_for_element, for one element and one media
      state given by the two oracles *)
  Definition get_matching_ruleset_ids (matches_selector : Sel -> bool) (matches_media : Med -> bool)
             (s : style_sheet) : list nat :=
    map snd (filter (fun e => matches_selector (selector (fst e)) && matches_media (media (fst e)))%bool (s_css s)).

  (** style_sheet.rs:182-191 resolve_rulesets ([unwrap] panics on an unknown id) *)
  Definition resolve_rulesets (s : style_sheet) (ids : list nat) (inline : option ruleset) : option (list ruleset) :=
    option_map (fun rs => rs ++ match inline with Some i => [i] | None => [] end)
      (map_opt (fun id => nth_error (s_rulesets s) id) ids).

  (** style_sheet.rs:61-101 RulesetProperty::resolve.  [eval_dynamic d] is [None] when the
      variables cannot be resolved or the parser fails (an error is logged, nothing is set). *)
  Variable eval_dynamic : Dyn -> option (list (nat * Value)).
  Definition resolve_ruleset_property (p : ruleset_property) : list (nat * Value) :=
    match p with
    | RSpecific id v => [(id, v)]
    | RDynamic d => match eval_dynamic d with Some vs => vs | None => [] end
    end.

  Variable value_eqb : Value -> Value -> bool.

  (** core property_map.rs set_if_neq on a total map (see PropMap.v for the sharing) *)
  Definition set_if_neq (m : nat -> Value) (id : nat) (v : Value) : nat -> Value :=
    if value_eqb (m id) v then m else fun i => if Nat.eqb i id then v else m i.

  (** style_sheet.rs:194-209 get_property_values *)
  Definition apply_declarations (ds : list (nat * Value)) (output : nat -> Value) : nat -> Value :=
    fold_left (fun m d => set_if_neq m (fst d) (snd d)) ds output.
  Definition get_property_values (s : style_sheet) (ids : list nat) (inline : option ruleset)
             (output : nat -> Value) : option (nat -> Value) :=
    option_map (fun rs =>
      fold_left (fun m (r : ruleset) =>
        fold_left (fun m p => apply_declarations (resolve_ruleset_property p) m) (properties r) m) rs output)
      (resolve_rulesets s ids inline).

  (** style_sheet.rs:212-228 get_vars: [extend] in order, as an association list in which the last
      entry for a name wins *)
  Definition get_vars (s : style_sheet) (ids : list nat) (inline : option ruleset) : option (list (VN * VT)) :=
    option_map (fun rs => concat (map (fun r : ruleset => vars r) rs)) (resolve_rulesets s ids inline).
End Cascade.
Arguments css_selector : clear implicits.
Arguments property_ref : clear implicits.
Arguments builder_property : clear implicits.
Arguments ruleset_property : clear implicits.
Arguments ruleset_of : clear implicits.
Arguments style_sheet : clear implicits.
Arguments builder : clear implicits.
Arguments mk_ruleset {VN VT TP AP P}.
Arguments vars {VN VT TP AP P}. Arguments properties {VN VT TP AP P}.
Arguments transition_properties {VN VT TP AP P}. Arguments animation_properties {VN VT TP AP P}.
Arguments build_result : clear implicits.
Notation builder_ruleset VN VT CN Value Dyn TP AP := (ruleset_of VN VT TP AP (builder_property CN Value Dyn)) (only parsing).
Notation ruleset VN VT Value Dyn TP AP := (ruleset_of VN VT TP AP (ruleset_property Value Dyn)) (only parsing).

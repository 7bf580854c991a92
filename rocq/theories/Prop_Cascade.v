(** C04, C05, C06, C07, C41: the cascade (builder.rs, style_sheet.rs). *)
From Coq Require Import Ascii String NArith Sorted Permutation.
From Verif Require Import Base Layers LayersSpec LayersProofs Cascade CascadeSpec CascadeProofs CascadeProofs2
  CascadeProofs3 CascadeProofs4.
Local Open Scope list_scope.

Section Statements.
  Context {Sel Med VN VT CN Value Dyn TP AP KN KF FF : Type}.
  Variables (specificity : Sel -> N) (resolve_name : CN -> option nat) (type_ok : nat -> Value -> bool)
            (path_ok : FF -> bool) (placeholder : Value -> Value).
  Notation builderT := (builder Sel Med VN VT CN Value Dyn TP AP KN KF FF).
  Notation sheetT := (style_sheet Sel Med VN VT Value Dyn TP AP KN KF FF).
  Notation buildB := (build specificity resolve_name type_ok path_ok placeholder).
  Notation reachableB := (reachable specificity resolve_name type_ok path_ok placeholder).

  (** C04.  Whatever selectors and media queries match, the ids returned for an element of a built
      sheet are those of the source entries [ix] that match - all of them, each once - and [ix] is
      strictly sorted by layer priority, specificity, source order. *)
  Theorem C04_cascade_order :
    forall (b : builderT) s ms mm, buildB b = Built s ->
    exists ix : list nat,
      Forall2 (fun i id => exists sel, nth_error (css_selectors_to_rulesets b) i = Some (sel, id))
              ix (get_matching_ruleset_ids ms mm s) /\
      (forall i, In i ix <-> exists sel id, nth_error (css_selectors_to_rulesets b) i = Some (sel, id) /\
                                            ms (selector sel) = true /\ mm (media sel) = true) /\
      StronglySorted (cascade_before specificity (layers_hierarchy b) (css_selectors_to_rulesets b)) ix.
  Proof. exact (matching_cascade specificity resolve_name type_ok path_ok placeholder). Qed.

  (** C04, panics: building any builder obtainable through the API never hits an undefined layer,
      and evaluating the built sheet for an element never hits an unknown ruleset. *)
  Theorem C04_no_panic :
    forall (b : builderT), reachableB b ->
    buildB b <> BuildError LayerPanic /\
    forall s ms mm eval veqb inline base, buildB b = Built s ->
      exists out, get_property_values eval veqb s (get_matching_ruleset_ids ms mm s) inline base = Some out.
  Proof.
    intros b H. split; [exact (build_no_panic specificity resolve_name type_ok path_ok placeholder b H)|].
    intros s ms mm eval veqb inline base Hb.
    exact (values_no_panic specificity resolve_name type_ok path_ok placeholder b s ms mm eval veqb inline base H Hb).
  Qed.

  (** C05.  Every property gets the value of the last declaration in cascade order (inline style
      last); a property nobody declares keeps its base (unset) value. *)
  Theorem C05_last_declaration_wins :
    forall (eval_dynamic : Dyn -> option (list (nat * Value))) value_eqb,
    (forall a b, value_eqb a b = true <-> a = b) ->
    forall (s : sheetT) ids inline base out,
    get_property_values eval_dynamic value_eqb s ids inline base = Some out ->
    exists rs, Forall2 (fun id r => nth_error (s_rulesets s) id = Some r) ids rs /\
      let ds := concat (map (fun r => concat (map (stands_for eval_dynamic) (properties r)))
                            (rs ++ match inline with Some i => [i] | None => [] end)) in
      forall p, last_declaration ds p (out p) \/ ((forall v, ~ In (p, v) ds) /\ out p = base p).
  Proof. exact cascade_last_wins. Qed.

  Theorem C05_inline_wins :
    forall (eval_dynamic : Dyn -> option (list (nat * Value))) value_eqb,
    (forall a b, value_eqb a b = true <-> a = b) ->
    forall (s : sheetT) ids inl base out p v,
    get_property_values eval_dynamic value_eqb s ids (Some inl) base = Some out ->
    last_declaration (concat (map (stands_for eval_dynamic) (properties inl))) p v -> out p = v.
  Proof.
    intros ev veq Hv s ids inl base out p v H Hl. eapply inline_wins; [exact Hv|exact H|].
    unfold declarations. simpl. rewrite app_nil_r. exact Hl.
  Qed.

  (** C06.  Removing empty rulesets succeeds, removes exactly the rulesets without content, and the
      surviving (selector, content) pairs are the previous ones in the same order. *)
  Theorem C06_remove_empty_rulesets :
    forall (b : builderT), reachableB b ->
    exists b' kept, remove_all_empty_rulesets b = Some b' /\
      (forall r, kept r = true <-> ~ no_content r) /\
      rulesets b' = filter kept (rulesets b) /\
      rules (rulesets b') (css_selectors_to_rulesets b') =
        filter (fun e => match snd e with Some r => kept r | None => false end)
               (rules (rulesets b) (css_selectors_to_rulesets b)) /\
      layers_hierarchy b' = layers_hierarchy b /\ font_faces b' = font_faces b /\
      animation_keyframes b' = animation_keyframes b.
  Proof.
    intros b Hr. pose proof (reachable_inv _ _ _ _ _ b Hr) as [_ Hc].
    assert (Hok : ids_ok b) by (eapply Forall_impl; [|exact Hc]; intros e He; apply He).
    destruct (remove_empty_correct b Hok) as (b' & H1 & _ & H3 & H4 & H5).
    exists b', (fun r => negb (is_empty r)). split; [exact H1|]. split.
    - intros r. rewrite <- is_empty_spec. destruct (is_empty r); simpl; split; congruence.
    - split; [exact H3|]. split; [|exact H5]. rewrite H4. apply filter_ext_in.
      intros e He. unfold keeps. unfold rules in He. apply in_map_iff in He as (x & <- & Hx). simpl.
      destruct (nth_error (rulesets b) (snd x)) eqn:E; [reflexivity|].
      apply nth_error_None in E. unfold ids_ok in Hok. rewrite Forall_forall in Hok. specialize (Hok x Hx). lia.
  Qed.

  (** C07 (first half).  Embedding a built sheet in any reachable builder succeeds; afterwards the
      rulesets are the old ones followed by the other's contents; the selector entries are the old
      ones followed by the other's, all of them, prefixed and with shifted ids; fonts and keyframes
      are appended; existing layers keep their order. *)
  Theorem C07_embed_keeps_rules :
    forall (b b0 : builderT) (other : sheetT) p,
    reachableB b -> reachableB b0 -> buildB b0 = Built other ->
    (forall n, p = Some n -> n <> [] /\ legal_layer n) ->
    exists b' entries, embed_style_sheet b other p = Some b' /\
      rulesets b' = rulesets b ++
        map (fun r => mk_ruleset (vars r) (map as_declared (properties r))
                                 (transition_properties r) (animation_properties r)) (s_rulesets other) /\
      css_selectors_to_rulesets b' = css_selectors_to_rulesets b ++ entries /\
      Permutation entries (map (fun e => (imported_into p (fst e), length (rulesets b) + snd e)) (s_css other)) /\
      font_faces b' = font_faces b ++ s_font_faces other /\
      animation_keyframes b' = animation_keyframes b ++ s_keyframes other /\
      subseq (layers_hierarchy b) (layers_hierarchy b').
  Proof.
    intros b b0 other p Hr Hr0 Hb Hp.
    pose proof (built_entries _ _ _ _ _ b0 other (reachable_inv _ _ _ _ _ b0 Hr0) Hb) as Ho.
    destruct (embed_ok b other p (reachable_inv _ _ _ _ _ b Hr) Hp) as (b' & E & _ & E1 & E2 & E3 & E4 & E5).
    { eapply Forall_impl; [|exact Ho]. intros e [_ He]. exact He. }
    eexists b', _. split; [exact E|]. split; [exact E1|]. split; [exact E2|].
    split; [|auto]. rewrite <- (map_ext _ _ (fun e => f_equal2 pair (imported_into_prefixed p (fst e)) eq_refl)).
    apply Permutation_map. apply grouped_perm.
    eapply Forall_impl; [|exact Ho]. intros e [He _]. exact He.
  Qed.

  (** C07 (second half, full statement is refuted below).  The embedded rules keep their relative
      cascade order provided the importing sheet's layer order does not contradict it; missing:
      sheets whose layer order was fixed by an explicit [@layer] statement. *)
  Theorem C07_embed_order_partial :
    forall (b b0 b' : builderT) (other s' : sheetT) p,
    reachableB b -> reachableB b0 -> buildB b0 = Built other ->
    (forall n, p = Some n -> n <> [] /\ legal_layer n) ->
    embed_style_sheet b other p = Some b' -> buildB b' = Built s' ->
    StronglySorted (may_precede specificity (layers_hierarchy b'))
      (map (fun e => (imported_into p (fst e), snd e)) (s_css other)) ->
    filter (fun e => Nat.leb (length (rulesets b)) (snd e)) (s_css s') =
    map (fun e => (imported_into p (fst e), length (rulesets b) + snd e)) (s_css other).
  Proof.
    intros b b0 b' other s' p H1 H2 H3 H4 H5 H6 H7.
    rewrite <- (map_ext _ _ (fun e => f_equal2 pair (imported_into_prefixed p (fst e)) eq_refl)).
    apply (embed_order specificity resolve_name type_ok path_ok placeholder b b0 b' other s' p H1 H2 H3 H4 H5 H6).
    exact (may_precede_keys specificity (layers_hierarchy b') p (s_css other) H7).
  Qed.

  (** C07, the common case in full: importing a sheet without layers (whose selectors were added
      ruleset by ruleset, as the parser does), into any layer or none, keeps its order exactly. *)
  Theorem C07_embed_order_unlayered :
    forall (b b0 b' : builderT) (other s' : sheetT) p,
    reachableB b -> reachableB b0 -> buildB b0 = Built other ->
    (forall n, p = Some n -> n <> [] /\ legal_layer n) ->
    embed_style_sheet b other p = Some b' -> buildB b' = Built s' ->
    Forall (fun e => layer (fst e) = []) (css_selectors_to_rulesets b0) ->
    StronglySorted le (map snd (css_selectors_to_rulesets b0)) ->
    filter (fun e => Nat.leb (length (rulesets b)) (snd e)) (s_css s') =
    map (fun e => (imported_into p (fst e), length (rulesets b) + snd e)) (s_css other).
  Proof.
    intros b b0 b' other s' p H1 H2 H3 H4 H5 H6 H7 H8.
    rewrite <- (map_ext _ _ (fun e => f_equal2 pair (imported_into_prefixed p (fst e)) eq_refl)).
    exact (embed_order_unlayered specificity resolve_name type_ok path_ok placeholder b b0 b' other s' p H1 H2 H3 H4 H5 H6 H7 H8).
  Qed.

  (** C41.  A ruleset matched through several selectors counts only at its strongest position. *)
  Theorem C41_duplicate_matches_harmless :
    forall (eval_dynamic : Dyn -> option (list (nat * Value))) value_eqb,
    (forall a b, value_eqb a b = true <-> a = b) ->
    forall (s : sheetT) ids inline base out,
    get_property_values eval_dynamic value_eqb s ids inline base = Some out ->
    NoDup (keep_last ids) /\ (forall i, In i (keep_last ids) <-> In i ids) /\
    exists out', get_property_values eval_dynamic value_eqb s (keep_last ids) inline base = Some out' /\
                 forall p, out' p = out p.
  Proof.
    intros ev veq Hv s ids inline base out H. split; [apply keep_last_NoDup|].
    split; [intros i; apply keep_last_In|]. exact (duplicates_harmless ev veq Hv s ids inline base out H).
  Qed.
End Statements.
Print Assumptions C04_cascade_order.
Print Assumptions C04_no_panic.
Print Assumptions C05_last_declaration_wins.
Print Assumptions C05_inline_wins.
Print Assumptions C06_remove_empty_rulesets.
Print Assumptions C07_embed_keeps_rules.
Print Assumptions C07_embed_order_partial.
Print Assumptions C07_embed_order_unlayered.
Print Assumptions C41_duplicate_matches_harmless.

(** ** Concrete instances *)
Module Ex.
  Notation B := (builder nat unit nat nat nat nat nat nat nat nat nat nat) (only parsing).
  Notation S := (style_sheet nat unit nat nat nat nat nat nat nat nat nat) (only parsing).
  Definition spec (s : nat) : N := N.of_nat s.
  Definition rn (c : nat) : option nat := Some c.
  Definition tok (_ _ : nat) := true.
  Definition pok (_ : nat) := true.
  Definition ph (v : nat) := v.
  Local Notation "' s" := (list_ascii_of_string s) (at level 0).
  Definition sel l s : css_selector nat unit := {| layer := l; media := tt; selector := s |}.
  Definition buildE : B -> build_result _ _ _ _ _ _ _ _ _ _ _ := build spec rn tok pok ph.

  Definition get {A} (d : A) (o : option A) := match o with Some x => x | None => d end.
  (** [.a { 0: v }] in layer [l] with selector [s] *)
  Definition rule (l : list ascii) (s v : nat) (b : B) : B :=
    let (id, b1) := new_ruleset b in
    get b (add_css_selector (modify_content b1 id (push_property (BSpecific (RefName 0) v))) id (sel l s)).

  (** [@layer b, a; @layer a {.x{0:1}} @layer b {.x{0:2}}] *)
  Definition lib0 : B := get new_builder (b_define_layers new_builder ['"b"; '"a"]).
  Definition lib : B := rule ('"b") 10 2 (rule ('"a") 10 1 lib0).
  Definition libsheet : S := match buildE lib with Built s => s | _ => mk_sheet [] [] [] [] end.

  Lemma rule_reachable l s v b : reachable spec rn tok pok ph b -> legal_layer l ->
    reachable spec rn tok pok ph (rule l s v b).
  Proof.
    intros H Hl. unfold rule. destruct (new_ruleset b) as [id b1] eqn:E.
    assert (E1 : b1 = snd (new_ruleset b)) by (rewrite E; reflexivity).
    assert (Ei : id = length (rulesets b)) by (unfold new_ruleset in E; injection E; auto).
    destruct (add_css_selector _ id (sel l s)) as [b2|] eqn:E2; simpl; [|exact H].
    eapply r_selector; [| | |exact E2].
    - apply r_content; [rewrite E1; apply r_new_ruleset, H|]. rewrite E1, Ei. simpl. rewrite app_length. simpl. lia.
    - simpl. rewrite update_nth_length, E1, Ei. simpl. rewrite app_length. simpl. lia.
    - exact Hl.
  Qed.
  Lemma legal_a : legal_layer ('"a"). Proof. right. exists ['"a"]. split; [|reflexivity]. split; [discriminate|]. repeat constructor; simpl; intuition discriminate. Qed.
  Lemma legal_b : legal_layer ('"b"). Proof. right. exists ['"b"]. split; [|reflexivity]. split; [discriminate|]. repeat constructor; simpl; intuition discriminate. Qed.

  Example lib_reachable : reachable spec rn tok pok ph lib.
  Proof.
    apply rule_reachable; [|apply legal_b]. apply rule_reachable; [|apply legal_a].
    apply (r_layers _ _ _ _ _ new_builder ['"b"; '"a"]); [constructor| |vm_compute; reflexivity].
    constructor; [apply legal_b|constructor; [apply legal_a|constructor]].
  Qed.
  Example lib_builds : buildE lib = Built libsheet. Proof. vm_compute. reflexivity. Qed.

  (** the sheet itself: the rule of layer [a] wins *)
  Definition value (s : S) : option nat :=
    option_map (fun f => f 0) (get_property_values (fun _ => None) Nat.eqb s
      (get_matching_ruleset_ids (fun _ => true) (fun _ => true) s) None (fun _ => 99)).
  Example lib_value : value libsheet = Some 1. Proof. vm_compute. reflexivity. Qed.

  (** the same sheet imported into an empty sheet: the rule of layer [b] wins *)
  Definition importer : B := get new_builder (embed_style_sheet new_builder libsheet None).
  Definition imported : S := match buildE importer with Built s => s | _ => mk_sheet [] [] [] [] end.
  Example imported_value : value imported = Some 2. Proof. vm_compute. reflexivity. Qed.

  (** an unlayered sheet meets the hypotheses of the order theorems *)
  Definition plain : B := rule [] 10 2 (rule [] 20 1 (rule [] 10 3 new_builder)).
  Example plain_ok : reachable spec rn tok pok ph plain /\
    (exists s, buildE plain = Built s /\ map snd (s_css s) = [0; 2; 1]) /\
    Forall (fun e => layer (fst e) = []) (css_selectors_to_rulesets plain) /\
    StronglySorted le (map snd (css_selectors_to_rulesets plain)).
  Proof.
    split; [|split; [|split]].
    - repeat (apply rule_reachable; [|left; reflexivity]). constructor.
    - eexists. vm_compute. split; reflexivity.
    - vm_compute. repeat constructor.
    - vm_compute. repeat constructor.
  Qed.
End Ex.

(** C07, the full claim "embedding keeps the relative cascade order" is false: a built sheet whose
    explicit [@layer] statement fixes the order is reordered by importing it (here into an empty
    sheet, without layer), and the element's value changes. *)
Theorem C07_embed_order_refuted :
  exists b0 other b' s',
    reachable Ex.spec Ex.rn Ex.tok Ex.pok Ex.ph b0 /\ build Ex.spec Ex.rn Ex.tok Ex.pok Ex.ph b0 = Built other /\
    embed_style_sheet new_builder other None = Some b' /\ build Ex.spec Ex.rn Ex.tok Ex.pok Ex.ph b' = Built s' /\
    s_css s' <> s_css other /\ Ex.value other = Some 1 /\ Ex.value s' = Some 2.
Proof.
  exists Ex.lib, Ex.libsheet, Ex.importer, Ex.imported.
  split; [exact Ex.lib_reachable|]. split; [exact Ex.lib_builds|].
  split; [vm_compute; reflexivity|]. split; [vm_compute; reflexivity|].
  split; [vm_compute; discriminate|]. split; [exact Ex.lib_value|exact Ex.imported_value].
Qed.
Print Assumptions C07_embed_order_refuted.

(** Non-vacuity of C06: a reachable builder with an empty ruleset in the middle. *)
Example ex_remove_empty :
  exists (b b' : builder nat unit nat nat nat nat nat nat nat nat nat nat),
    reachable Ex.spec Ex.rn Ex.tok Ex.pok Ex.ph b /\ remove_all_empty_rulesets b = Some b' /\
    length (rulesets b) = 3 /\ map snd (css_selectors_to_rulesets b') = [0; 1] /\
    map (fun e => selector (fst e)) (css_selectors_to_rulesets b') = [10; 30].
Proof.
  set (b1 := Ex.rule [] 10 1 (new_builder)).
  set (b2 := Ex.get b1 (add_css_selector (snd (new_ruleset b1)) 1 (Ex.sel [] 20))).
  exists (Ex.rule [] 30 3 b2). eexists. split; [|split; [vm_compute; reflexivity|vm_compute; auto]].
  apply Ex.rule_reachable; [|left; reflexivity].
  apply (r_selector _ _ _ _ _ (snd (new_ruleset b1)) 1 (Ex.sel [] 20)).
  - apply r_new_ruleset. apply Ex.rule_reachable; [constructor|left; reflexivity].
  - vm_compute. lia.
  - left; reflexivity.
  - vm_compute. reflexivity.
Qed.

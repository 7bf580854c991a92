(** Proofs for C112: the builder of a text. *)
From Coq Require Import Ascii String NArith.
From Verif Require Import Base VarText Layers LayersSpec LayersProofs Tree TreeSpec Vars VarsSpec Media MediaSpec MediaProofs Matching MatchingSpec MatchingProofs Specificity SpecificitySpec SpecificityProofs Nesting NestingSpec SheetText SelText SheetSel SheetCascade SheetCascadeSpec SheetCascadeProofs SheetCascadeProofs2 SheetCascadeProofs3.
From Verif Require Import Cascade CascadeSpec CascadeProofs CascadeProofs3 Whole WholeSpec WholeProofs SheetWhole SheetWholeSpec SheetWholeProofs.
From Verif Require VarFlow VarFlowSpec Inherit InheritSpec.
Open Scope list_scope.

Section B.
  Context {CN TP AP KN KF FF : Type}.
  Notation M := (media_selector fval).
  Notation dyn := ((list nat -> option (list (nat * nat))) * VarFlow.toks)%type.
  Notation D := (list (nat * VarFlow.toks) * list (builder_property CN nat dyn))%type.
  Notation builderT := (Cascade.builder complex (list M) nat VarFlow.toks CN nat dyn TP AP KN KF FF).
  Notation brs := (builder_ruleset nat VarFlow.toks CN nat dyn TP AP).
  Notation situationT := (situation CN TP AP KN KF FF fval).
  Variables (resolve_name : CN -> option nat) (type_ok : nat -> nat -> bool) (path_ok : FF -> bool) (placeholder : nat -> nat).
  Notation fits := (fits resolve_name type_ok placeholder).
  Variable rules : list (Nesting.top pcomplex M D).
  Notation es := (declarations_in rules).
  Notation said := (layers_in rules).
  Hypothesis Ok : Forall top_ok rules.
  Hypothesis Inh : Forall blocks_inhabited rules.
  Hypothesis Ty : forall e q, In e es -> In q (snd (n_decl e)) -> fits q.
  Hypothesis Cnt : forall e a x, In e es -> In a (n_alts e) -> counted_complex a x -> countable x.
  Hypothesis Par : forall e, In e es -> Forall parsed (n_alts e).

  Definition plain (L : list (css_selector complex (list M) * brs)) : list (css_selector complex (list M) * option brs) := map (fun x => (fst x, Some (snd x))) L.
  Lemma plain_at L i s r : nth_error (plain L) i = Some (s, r) <-> exists r', r = Some r' /\ nth_error L i = Some (s, r').
  Proof.
    unfold plain. rewrite nth_error_map. destruct (nth_error L i) as [[s0 r0]|]; cbn; split; try discriminate.
    - intros H. injection H as -> <-. eauto.
    - intros (r' & -> & H). injection H as -> ->. reflexivity.
    - intros (r' & _ & H). discriminate.
  Qed.
  Lemma plain_filter L : filter keeps (plain L) = plain (filter (fun x => negb (is_empty (snd x))) L).
  Proof. induction L as [|[s r] L IH]; [reflexivity|]. unfold plain, keeps in *. cbn [map filter fst snd]. destruct (is_empty r); cbn [negb map fst snd]; [exact IH|f_equal; exact IH]. Qed.
  Lemma rules_plain (R : list (list (csel pcomplex M) * list D)) : CascadeSpec.rules (map (fun r => whole_contents (snd r)) R) (entries_from 0 R) = plain (rule_list whole_contents R).
  Proof.
    assert (G : forall R0 R : list (list (csel pcomplex M) * list D), CascadeSpec.rules (map (fun r => whole_contents (snd r) : brs) (R0 ++ R)) (entries_from (List.length R0) R) = plain (rule_list whole_contents R)).
    { clear. intros R0 R. revert R0. induction R as [|r R IH]; intros R0; [reflexivity|]. cbn [entries_from]. unfold rule_list, plain. cbn [flat_map]. unfold CascadeSpec.rules. rewrite map_app with (l := map _ _), (map_app (fun x => (fst x, Some (snd x)))). f_equal.
      - rewrite !map_map. apply map_ext. intros c. cbn. rewrite nth_error_map, nth_error_app2, Nat.sub_diag by lia. reflexivity.
      - specialize (IH (R0 ++ [r])). rewrite <- app_assoc in IH. rewrite app_length in IH. cbn in IH. rewrite Nat.add_1_r in IH. exact IH. }
    apply (G [] R).
  Qed.

  Lemma text_built : exists b R, text_builder rules = Some (b : builderT) /\ loaded resolve_name type_ok path_ok placeholder b /\ usable b /\
    Forall2 (NestingSpec.says (fun p v => resolve [] p = v)) (flat_map (fun r => map (fun d => (fst r, d)) (snd r)) R) es /\
    CascadeSpec.rules (rulesets b) (css_selectors_to_rulesets b) = plain (filter (fun x => negb (is_empty (snd x))) (rule_list whole_contents R)) /\
    (forall e e', In e es -> In e' es -> (layer_below b (dotted (n_layer e')) (dotted (n_layer e)) <-> lower said (n_layer e') (n_layer e)) /\ (dotted (n_layer e') = dotted (n_layer e) -> n_layer e' = n_layer e)).
  Proof.
    destruct (loads rules Ok Inh) as (b & h & E & Eh & F & Pr & Lw). unfold text_builder. rewrite E, Eh.
    set (R := Nesting.rulesets b) in *. set (cb := mk_builder h [] (map (fun r => whole_contents (snd r)) R) [] (entries_from 0 R) : builderT).
    assert (Hok : ids_ok cb). { unfold ids_ok. cbn. rewrite map_length. eapply Forall_impl; [|apply entries_ids]. cbn. intros; lia. }
    destruct (remove_empty_correct cb Hok) as (cb' & Er & Hok' & Hrs & Hrl & Hh & Hff & _). rewrite Er. exists cb', R. split; [reflexivity|].
    change (flat_map (fun r => map (fun d => (fst r, d)) (snd r)) R) with (NestingSpec.declarations b).
    assert (HL : CascadeSpec.rules (rulesets cb') (css_selectors_to_rulesets cb') = plain (filter (fun x => negb (is_empty (snd x))) (rule_list whole_contents R))).
    { rewrite Hrl. cbn [rulesets css_selectors_to_rulesets cb]. rewrite rules_plain. apply plain_filter. }
    assert (Ent : forall id r dm d, nth_error R id = Some r -> nth_error (snd r) dm = Some d -> exists e, In e es /\ d = n_decl e /\
              Forall2 (fun s v => c_layer s = dotted (n_layer e) /\ c_media s = n_media e /\ resolve [] (c_sel s) = v) (fst r) (n_alts e)).
    { intros id r dm d H1 H2. destruct (entry_at R es F id r dm d H1 H2) as (e & He & Hd & Hs). exists e. split; [eapply nth_error_In; exact He|auto]. }
    (* every selector that is left comes from an entry *)
    assert (Sel : forall sel id, In (sel, id) (css_selectors_to_rulesets cb') -> exists r e a c, nth_error (rulesets cb') id = Some r /\ In e es /\ In a (n_alts e) /\ sel = to_css c /\ c_layer c = dotted (n_layer e) /\ resolve [] (c_sel c) = a).
    { intros sel id Hin. assert (Hr : In (sel, nth_error (rulesets cb') id) (CascadeSpec.rules (rulesets cb') (css_selectors_to_rulesets cb'))) by (unfold CascadeSpec.rules; apply in_map_iff; exists (sel, id); auto).
      rewrite HL in Hr. unfold plain in Hr. apply in_map_iff in Hr as ([s r] & Es & Hr). cbn in Es. injection Es as -> En. apply filter_In in Hr as [Hr Hne]. cbn in Hne. apply In_nth_error in Hr as (i & Hi). apply rule_inv in Hi as (id' & r0 & cm & c & H1 & H2 & H3 & -> & ->).
      assert (exists d dm, nth_error (snd r0) dm = Some d) as (d & dm & Hd). { destruct (snd r0) as [|d ds] eqn:Ed; [cbn in Hne; discriminate|]. exists d, 0. reflexivity. }
      destruct (Ent id' r0 dm d H1 Hd) as (e & He & _ & Hs). destruct (proj1 (Forall2_at _ _ _ Hs cm) c H2) as (a & Ha & Hc1 & Hc2 & Hc3). exists (whole_contents (snd r0)), e, a, c. split; [symmetry; exact En|]. split; [exact He|]. split; [eapply nth_error_In; exact Ha|]. auto. }
    assert (Cov : covered cb').
    { unfold remove_all_empty_rulesets in Er. eapply covered_loop; [|exact Er]. intros id r Hr Hn. cbn in Hr. rewrite nth_error_map in Hr. destruct (nth_error R id) as [r0|] eqn:E0; [|discriminate]. cbn in Hr. injection Hr as <-.
      apply (entries_covered R 0 id r0 E0). destruct (snd r0) as [|d ds] eqn:Ed; [discriminate Hn|].
      destruct (Ent id r0 0 d E0 ltac:(rewrite Ed; reflexivity)) as (e & He & _ & Hs). destruct (sheet_layers_ok _ _ _ _ Ok He) as (_ & _ & Ha). intros G. rewrite G in Hs. inversion Hs; congruence. }
    assert (Ne : Forall (fun r => is_empty r = false) (rulesets cb')). { rewrite Hrs. apply Forall_forall. intros r Hr. apply filter_In in Hr as [_ Hr]. apply negb_true_iff in Hr. exact Hr. }
    assert (Fit : forall r q, In r (rulesets cb') -> In q (properties r) -> fits q).
    { intros r q Hr Hq. rewrite Hrs in Hr. apply filter_In in Hr as [Hr _]. cbn in Hr. apply in_map_iff in Hr as (r0 & <- & H0). cbn in Hq. apply in_concat in Hq as (l & Hl & Hq). apply in_map_iff in Hl as (d & <- & Hd).
      apply In_nth_error in H0 as (id & H0). apply In_nth_error in Hd as (dm & Hd). destruct (Ent id r0 dm d H0 Hd) as (e & He & -> & _). exact (Ty e q He Hq). }
    split; [|split; [|split; [exact F|split; [exact HL|]]]].
    - assert (Bt : exists s, Cascade.build Specificity.specificity resolve_name type_ok path_ok placeholder cb' = Built s); [|exact Bt]. unfold Cascade.build. rewrite Hff. cbn [font_faces cb forallb negb]. rewrite (covered_orphan cb' Cov Ne). unfold sort_css.
      destruct (map_opt_total (fun e => option_map (fun k => (k, e)) (sort_key Specificity.specificity (layers_hierarchy cb') (fst e))) (css_selectors_to_rulesets cb')) as (dec & ->).
      { intros [sel id] He. destruct (Sel sel id He) as (r & e & a & c & _ & He' & _ & -> & Hc & _). destruct (Pr e He') as (k & Ek). unfold sort_key. rewrite Hh. cbn. rewrite Hc, Ek. cbn. eauto. }
      cbn [option_map]. destruct (map_opt_total (resolve_ruleset resolve_name placeholder) (rulesets cb')) as (rs & Ers).
      { intros r Hr. unfold resolve_ruleset. destruct (map_opt_total (resolve_property resolve_name placeholder) (properties r)) as (ps & ->); [|cbn; eauto]. intros q Hq. specialize (Fit r q Hr Hq). destruct q as [[i|c] x|d]; cbn in *; eauto. destruct Fit as (i & -> & _). cbn. eauto. }
      rewrite Ers. assert (Hv : validate_all_properties type_ok rs = true); [|rewrite Hv; eauto].
      apply map_opt_Forall2 in Ers. unfold validate_all_properties. apply forallb_forall. intros r' Hr'.
      assert (exists r, In r (rulesets cb') /\ resolve_ruleset resolve_name placeholder r = Some r') as (r & Hr & Er').
      { clear - Ers Hr'. induction Ers as [|r y l l' H _ IH]; [destruct Hr'|]. destruct Hr' as [->|Hr']; [exists r; split; [left; reflexivity|exact H]|]. destruct (IH Hr') as (r0 & H1 & H2). exists r0. split; [right; exact H1|exact H2]. }
      unfold resolve_ruleset in Er'. destruct (map_opt (resolve_property resolve_name placeholder) (properties r)) as [ps|] eqn:Ep; [|discriminate]. cbn in Er'. injection Er' as <-. cbn. apply map_opt_Forall2 in Ep. apply forallb_forall. intros q' Hq'.
      assert (exists q, In q (properties r) /\ resolve_property resolve_name placeholder q = Some q') as (q & Hq & Eq).
      { clear - Ep Hq'. induction Ep as [|r1 y l l' H _ IH]; [destruct Hq'|]. destruct Hq' as [->|Hr']; [eexists; split; [left; reflexivity|exact H]|]. destruct (IH Hr') as (r0 & H1 & H2). exists r0. split; [right; exact H1|exact H2]. }
      specialize (Fit r q Hr Hq). destruct q as [[i|c] x|d]; cbn in *.
      + injection Eq as <-. exact Fit.
      + destruct Fit as (i & Ei & Ht). rewrite Ei in Eq. cbn in Eq. injection Eq as <-. exact Ht.
      + injection Eq as <-. reflexivity.
    - intros sel id Hin. destruct (Sel sel id Hin) as (r & e & a & c & Hr & He & Ha & -> & _ & Hc). split; [intros Q; discriminate (eq_trans (eq_sym Hr) Q)|]. cbn. rewrite Hc. specialize (Par e He). rewrite Forall_forall in Par. split; [apply Par; exact Ha|]. destruct (counted_total a) as (x & Hx & _). exists x. split; [exact Hx|eapply Cnt; eauto].
    - intros e e' He He'. destruct (Pr e He) as (i & Hi), (Pr e' He') as (j & Hj). assert (Hh' : layers_hierarchy cb' = h) by exact Hh. pose proof Hi as Hi'. pose proof Hj as Hj'. rewrite <- Hh' in Hi', Hj'. destruct (layer_order cb' _ _ _ _ Hj' Hi') as [L1 L2].
      destruct (Lw e' e j i He' He Hj Hi) as [A1 A2], (Lw e e' i j He He' Hi Hj) as [B1 B2]. split.
      + rewrite <- L1. split; [exact A1|]. intros Hl. destruct (Nat.lt_trichotomy j i) as [Q|[Q|Q]]; [exact Q| |].
        * rewrite (A2 Q) in Hl. destruct (lower_asym _ _ _ Hl Hl).
        * destruct (lower_asym _ _ _ Hl (B1 Q)).
      + intros Ed. apply A2. apply L2. exact Ed.
  Qed.

  (** the cascade of the builder is that of the text *)
  Lemma text_cascade : exists b, text_builder rules = Some (b : builderT) /\ loaded resolve_name type_ok path_ok placeholder b /\ usable b /\
    forall (t : situationT) nodes n X Y A (items : brs -> list X) (item : D -> list X) (G : X -> A -> Prop) (inl : list Y) (Gi : Y -> A -> Prop),
    consistent nodes (s_world t) -> (forall ds, items (whole_contents ds) = flat_map item ds) -> (forall r, is_empty r = true -> items r = []) ->
    (forall v, WholeSpec.cascaded feq fle (fun x y => fle y x) t b n items G inl Gi v <-> cascaded (s_world t) (s_media t n) (s_ratio t n) said es n item G inl Gi v) /\
    (WholeSpec.not_cascaded feq fle (fun x y => fle y x) t b n items G inl Gi <-> not_cascaded (s_world t) (s_media t n) (s_ratio t n) es n item G inl Gi).
  Proof.
    destruct text_built as (b & R & E & Hb & Hu & F & HL & Hlb). exists b. split; [exact E|]. split; [exact Hb|]. split; [exact Hu|].
    intros t nodes n X Y A items item G inl Gi C Hitems Hemp. destruct (matching_ok nodes _ C) as [fuel Hm]. specialize (Hm fuel (le_n _)).
    set (hit := fun s : css_selector complex (list M) => sat (s_world t) (selector s) None n /\ forall q, In q (media s) -> test_holds fval feq fle (fun x y => fle y x) (fun _ _ => s_ratio t n) (s_media t n) q).
    set (ap := SheetCascadeSpec.applies (D := D) (s_world t) (s_media t n) (s_ratio t n) n).
    assert (Hit : forall e c a, In e es -> In a (n_alts e) -> c_layer c = dotted (n_layer e) -> c_media c = n_media e -> resolve [] (c_sel c) = a -> (hit (to_css c) <-> ap e a)).
    { intros e c a He Ha _ Hme Hs. unfold hit, ap, SheetCascadeSpec.applies, to_css. cbn. rewrite Hs, Hme. tauto. }
    assert (Ap : forall e a, In e es -> In a (n_alts e) -> ap e a \/ ~ ap e a).
    { intros e a He Ha. specialize (Par e He). rewrite Forall_forall in Par. pose proof (Hm a (Par a Ha) n) as H1. pose proof (matches_iff fval feq fle (fun x y => fle y x) (fun _ _ => s_ratio t n) (n_media e) (s_media t n)) as H2. unfold ap, SheetCascadeSpec.applies.
      destruct (matches_selector (s_world t) fuel a n); [|right; intros (_ & Q & _); apply H1 in Q; discriminate]. destruct (media_matches fval feq fle (fun x y => fle y x) (fun _ _ => s_ratio t n) (n_media e) (s_media t n)); [|right; intros (_ & _ & Q); apply H2 in Q; discriminate].
      left. split; [exact Ha|]. split; [apply H1; reflexivity|apply H2; reflexivity]. }
    assert (Apin : forall e a, ap e a -> In a (n_alts e)) by (intros e a H; apply H).
    set (L := filter (fun x => negb (is_empty (snd x))) (rule_list whole_contents R)) in *.
    assert (Rule : forall i s r, WholeSpec.rule b i s r <-> nth_error L i = Some (s, r)).
    { intros i s r. assert (K : nth_error (CascadeSpec.rules (rulesets b) (css_selectors_to_rulesets b)) i = Some (s, Some r) <-> nth_error L i = Some (s, r)).
      { rewrite HL. split; [intros H; apply plain_at in H as (r' & Er & H); injection Er as ->; exact H|intros H; apply plain_at; eauto]. }
      rewrite <- K. change (WholeSpec.rule b i s r) with (exists id, nth_error (css_selectors_to_rulesets b) i = Some (s, id) /\ nth_error (rulesets b) id = Some r). unfold CascadeSpec.rules. rewrite nth_error_map. destruct (nth_error (css_selectors_to_rulesets b) i) as [[s0 id0]|]; cbn.
      - split; [intros (id & H1 & H2); injection H1 as -> ->; rewrite H2; reflexivity|intros H; injection H as -> H; exists id0; auto].
      - split; [intros (id & H1 & _); discriminate|discriminate]. }
    assert (App : forall i r, WholeSpec.applies feq fle (fun x y => fle y x) t b n i r <-> exists s, nth_error L i = Some (s, r) /\ hit s).
    { intros i r. unfold WholeSpec.applies. split; intros (s & H1 & H2); exists s; (split; [apply Rule; exact H1|exact H2]). }
    assert (Emp : forall (s : css_selector complex (list M)) (r : brs), (fun x : _ * brs => negb (is_empty (snd x))) (s, r) = false -> none_that G (items r)).
    { intros s r H. cbn in H. apply negb_false_iff in H. rewrite (Hemp r H). intros d []. }
    assert (Cas : forall v, (exists i r, WholeSpec.applies feq fle (fun x y => fle y x) t b n i r /\ last_that G (items r) v /\ forall j r', WholeSpec.applies feq fle (fun x y => fle y x) t b n j r' -> none_that G (items r') \/ j = i \/ ranks_below b j i) <-> casc items G hit (layer_below b) L v).
    { intros v. assert (Rk : forall i s r j s' r', nth_error L i = Some (s, r) -> nth_error L j = Some (s', r') -> (ranks_below b j i <-> rk (layer_below b) s' j s i)).
      { intros i s r j s' r' Hi Hj. unfold ranks_below, rk. split.
        - intros (si & ri & sj & rj & ci & cj & H1 & H2 & H3 & H4 & H5). apply Rule in H1, H2. rewrite Hj in H1. rewrite Hi in H2. injection H1 as <- <-. injection H2 as <- <-. destruct H5 as [H5|[H5 H6]]; [left; exact H5|right]. split; [exact H5|]. exists ci, cj. auto.
        - intros H. destruct (counted_total (selector s')) as (x' & X1 & X2), (counted_total (selector s)) as (x & Y1 & Y2). exists s', r', s, r, x', x. split; [apply Rule; exact Hj|]. split; [apply Rule; exact Hi|]. split; [exact X1|]. split; [exact Y1|]. destruct H as [H|(H & c' & c & H1 & H2 & H3)]; [left; exact H|right]. rewrite (X2 _ H1), (Y2 _ H2) in H3. auto. }
      unfold casc. split.
      - intros (i & r & Hap & Hl & Hj). apply App in Hap as (s & Hi & Hh). exists i, s, r. split; [exact Hi|]. split; [exact Hh|]. split; [exact Hl|]. intros j s' r' Hj' Hh'. destruct (Hj j r' ltac:(apply App; eauto)) as [N|[Q|Q]]; [left; exact N|right; left; exact Q|right; right]. eapply Rk; eauto.
      - intros (i & s & r & Hi & Hh & Hl & Hj). exists i, r. split; [apply App; eauto|]. split; [exact Hl|]. intros j r' Hap. apply App in Hap as (s' & Hj' & Hh'). destruct (Hj j s' r' Hj' Hh') as [N|[Q|Q]]; [left; exact N|right; left; exact Q|right; right]. eapply Rk; eauto. }
    pose proof (fun v => casc_filter items G hit (layer_below b) (fun x => negb (is_empty (snd x))) (rule_list whole_contents R) v Emp) as Fil. fold L in Fil.
    pose proof (fun v => casc_iff whole_contents item items G Hitems hit (layer_below b) R es said F ap Ap Apin Hit Hlb v) as Iff.
    split.
    - intros v. unfold WholeSpec.cascaded, cascaded. specialize (Cas v). specialize (Fil v). specialize (Iff v).
      assert (K : (exists i r, WholeSpec.applies feq fle (fun x y => fle y x) t b n i r /\ last_that G (items r) v /\ forall j r', WholeSpec.applies feq fle (fun x y => fle y x) t b n j r' -> none_that G (items r') \/ j = i \/ ranks_below b j i) <-> strongest (s_world t) (s_media t n) (s_ratio t n) said es n item G v) by (rewrite Cas, Fil; exact Iff).
      rewrite K. reflexivity.
    - unfold WholeSpec.not_cascaded, not_cascaded.
      assert (K : (forall i r, WholeSpec.applies feq fle (fun x y => fle y x) t b n i r -> none_that G (items r)) <-> nocasc items G hit L).
      { unfold nocasc. split.
        - intros H s r Hin Hh. apply In_nth_error in Hin as (i & Hi). apply (H i r). apply App. eauto.
        - intros H i r Hap. apply App in Hap as (s & Hi & Hh). apply (H s r); [eapply nth_error_In; exact Hi|exact Hh]. }
      rewrite K. unfold L. rewrite (nocasc_filter items G hit (fun x => negb (is_empty (snd x))) (rule_list whole_contents R) Emp). rewrite (nocasc_iff whole_contents item items G Hitems hit R es F ap Apin Hit). reflexivity.
  Qed.
End B.

(** Proofs for C111: from the rules of a text to the value of a node. *)
From Coq Require Import Ascii String NArith ZArith Sorted.
From Verif Require Import Base VarText Layers LayersSpec Media MediaSpec MediaProofs Tree Siblings Matching MatchingSpec MatchingProofs Specificity SpecificitySpec SpecificityProofs Nesting NestingSpec NestingProofs SheetText SelText SheetSel SheetSelProofs Cascade CascadeSpec CascadeProofs CascadeProofs3 SheetCascade SheetCascadeSpec SheetCascadeProofs Prop_Nesting Prop_Specificity.
Open Scope list_scope.

(** ** The layers and the selectors of an entry *)
Section E.
  Context {Sl M D Va : Type}.
  Variables (value : Sl -> list Va -> Va) (amp : Sl).
  Notation layers_ok L ls e := (Forall legal_segment (n_layer e) /\ (n_layer e = L \/ In (n_layer e) ls) /\ n_alts e <> []).
  Lemma body_layers_ok : forall (b : body Sl M D) L Md vs e, body_ok b -> Forall legal_segment L -> vs <> [] -> In e (body_entries value amp L Md vs b) -> layers_ok L (body_layers L b) e.
  Proof.
    fix rec 1. intros b L Md vs e.
    assert (K : forall bs L Md vs, (fix al (bs : list (body Sl M D)) := match bs with [] => True | b :: bs => (forall L Md vs e, body_ok b -> Forall legal_segment L -> vs <> [] -> In e (body_entries value amp L Md vs b) -> layers_ok L (body_layers L b) e) /\ al bs end) bs ->
      fold_right (fun b P => body_ok b /\ P) True bs -> Forall legal_segment L -> vs <> [] -> In e (flat_map (body_entries value amp L Md vs) bs) -> layers_ok L (flat_map (body_layers L) bs) e).
    { clear. induction bs as [|x bs IH]; intros L Md vs A O HL Hv Hin; [destruct Hin|]. destruct A as [A1 A2], O as [O1 O2]. cbn [flat_map] in *. apply in_app_or in Hin as [Hin|Hin].
      - destruct (A1 L Md vs e O1 HL Hv Hin) as (H1 & H2 & H3). split; [exact H1|]. split; [|exact H3]. destruct H2 as [H2|H2]; [left; exact H2|right; apply in_or_app; left; exact H2].
      - destruct (IH L Md vs A2 O2 HL Hv Hin) as (H1 & H2 & H3). split; [exact H1|]. split; [|exact H3]. destruct H2 as [H2|H2]; [left; exact H2|right; apply in_or_app; right; exact H2]. }
    assert (Al : forall (x : Sl) l, alternatives value (x :: l) vs <> []) by (intros x l H; discriminate).
    destruct b as [d| |ss bs|ms bs|n bs]; cbn [body_ok body_entries body_layers]; intros Hb HL Hv Hin.
    - destruct Hin as [<-|[]]. cbn. auto.
    - destruct Hin.
    - destruct ss as [ss|]; [|destruct Hin]. destruct Hb as [Hs Hb]. eapply K; [|exact Hb|exact HL| |exact Hin].
      + clear - rec. induction bs as [|x bs IH]; [exact I|]. split; [exact (rec x)|exact IH].
      + destruct ss as [|x ss]; [contradiction|]. apply Al.
    - eapply K; [|exact Hb|exact HL| |exact Hin]; [|apply Al]. clear - rec. induction bs as [|x bs IH]; [exact I|]. split; [exact (rec x)|exact IH].
    - destruct Hb as [Hn Hb]. assert (HL' : Forall legal_segment (L ++ [n])) by (apply Forall_app; split; [exact HL|constructor; [exact Hn|constructor]]).
      destruct (K bs (L ++ [n]) Md (alternatives value [amp] vs)) as (H1 & H2 & H3); [|exact Hb|exact HL'|apply Al|exact Hin|].
      + clear - rec. induction bs as [|x bs IH]; [exact I|]. split; [exact (rec x)|exact IH].
      + split; [exact H1|]. split; [|exact H3]. right. destruct H2 as [H2|H2]; [left; symmetry; exact H2|right; exact H2].
  Qed.
  Lemma bodies_layers_ok (bs : list (body Sl M D)) L Md vs e : fold_right (fun b P => body_ok b /\ P) True bs -> Forall legal_segment L -> vs <> [] -> In e (flat_map (body_entries value amp L Md vs) bs) -> layers_ok L (flat_map (body_layers L) bs) e.
  Proof.
    intros O HL Hv. induction bs as [|x bs IH]; [intros []|]. destruct O as [O1 O2]. cbn [flat_map]. intros Hin. apply in_app_or in Hin as [Hin|Hin].
    - destruct (body_layers_ok x L Md vs e O1 HL Hv Hin) as (H1 & H2 & H3). split; [exact H1|]. split; [|exact H3]. destruct H2 as [H2|H2]; [left; exact H2|right; apply in_or_app; left; exact H2].
    - destruct (IH O2 Hin) as (H1 & H2 & H3). split; [exact H1|]. split; [|exact H3]. destruct H2 as [H2|H2]; [left; exact H2|right; apply in_or_app; right; exact H2].
  Qed.
  Lemma top_layers_ok : forall (t : Nesting.top Sl M D) L Md e, top_ok t -> Forall legal_segment L -> In e (top_entries value amp L Md t) -> layers_ok L (top_layers L t) e.
  Proof.
    fix rec 1. intros t L Md e.
    assert (K : forall ts L Md, (fix al (ts : list (Nesting.top Sl M D)) := match ts with [] => True | t :: ts => (forall L Md e, top_ok t -> Forall legal_segment L -> In e (top_entries value amp L Md t) -> layers_ok L (top_layers L t) e) /\ al ts end) ts ->
      fold_right (fun b P => top_ok b /\ P) True ts -> Forall legal_segment L -> In e (flat_map (top_entries value amp L Md) ts) -> layers_ok L (flat_map (top_layers L) ts) e).
    { clear. induction ts as [|x bs IH]; intros L Md A O HL Hin; [destruct Hin|]. destruct A as [A1 A2], O as [O1 O2]. cbn [flat_map] in *. apply in_app_or in Hin as [Hin|Hin].
      - destruct (A1 L Md e O1 HL Hin) as (H1 & H2 & H3). split; [exact H1|]. split; [|exact H3]. destruct H2 as [H2|H2]; [left; exact H2|right; apply in_or_app; left; exact H2].
      - destruct (IH L Md A2 O2 HL Hin) as (H1 & H2 & H3). split; [exact H1|]. split; [|exact H3]. destruct H2 as [H2|H2]; [left; exact H2|right; apply in_or_app; right; exact H2]. }
    destruct t as [ss bs|ms ts|n ts|ns|]; cbn [top_ok top_entries top_layers]; intros Hb HL Hin.
    - destruct ss as [ss|]; [|destruct Hin]. destruct Hb as [Hs Hb]. eapply bodies_layers_ok; [exact Hb|exact HL| |exact Hin]. destruct ss; [contradiction|discriminate].
    - eapply K; [|exact Hb|exact HL|exact Hin]. clear - rec. induction ts as [|x bs IH]; [exact I|]. split; [exact (rec x)|exact IH].
    - destruct Hb as [Hn Hb]. assert (HL' : Forall legal_segment (L ++ [n])) by (apply Forall_app; split; [exact HL|constructor; [exact Hn|constructor]]).
      destruct (K ts (L ++ [n]) Md) as (H1 & H2 & H3); [|exact Hb|exact HL'|exact Hin|].
      + clear - rec. induction ts as [|x bs IH]; [exact I|]. split; [exact (rec x)|exact IH].
      + split; [exact H1|]. split; [|exact H3]. right. destruct H2 as [H2|H2]; [left; symmetry; exact H2|right; exact H2].
    - destruct Hin.
    - destruct Hin.
  Qed.
  Lemma sheet_layers_ok (ts : list (Nesting.top Sl M D)) e : Forall top_ok ts -> In e (flat_map (top_entries value amp [] []) ts) -> layers_ok [] (flat_map (top_layers []) ts) e.
  Proof.
    induction 1 as [|x ts O1 O2 IH]; [intros []|]. cbn [flat_map]. intros Hin. apply in_app_or in Hin as [Hin|Hin].
    - destruct (top_layers_ok x [] [] e O1 (Forall_nil _) Hin) as (H1 & H2 & H3). split; [exact H1|]. split; [|exact H3]. destruct H2 as [H2|H2]; [left; exact H2|right; apply in_or_app; left; exact H2].
    - destruct (IH Hin) as (H1 & H2 & H3). split; [exact H1|]. split; [|exact H3]. destruct H2 as [H2|H2]; [left; exact H2|right; apply in_or_app; right; exact H2].
  Qed.
End E.
Lemma prefixes_self p : p <> [] -> In p (prefixes p).
Proof.
  induction p as [|s p IH]; [contradiction|]. intros _. cbn. destruct p as [|s' p]; [left; reflexivity|]. right. apply in_map. apply IH. discriminate.
Qed.
Lemma mentions_self p ds : p <> [] -> In p ds -> In p (LayersSpec.mentions ds).
Proof. intros Hp Hin. unfold LayersSpec.mentions. apply in_concat. exists (prefixes p). split; [apply in_map; exact Hin|apply prefixes_self; exact Hp]. Qed.
Lemma priority_lt h n i : n <> [] -> get_layer_priority h n = Some i -> i < List.length h.
Proof. intros Hn H. destruct n as [|c n]; [contradiction|]. cbn in H. apply position_Some in H as (l1 & x & l2 & -> & <- & _). rewrite app_length. cbn. lia. Qed.

Section L.
  Context {D : Type}.
  Notation M := (media_selector fval).
  Variable rules : list (Nesting.top pcomplex M D).
  Notation val := (fun p ps => resolve ps p).
  Notation es := (flat_map (top_entries val amp_selector [] []) rules).
  Notation said := (LayersSpec.mentions (flat_map (top_layers []) rules)).
  Hypothesis Ok : Forall top_ok rules.
  Hypothesis Inh : Forall blocks_inhabited rules.
  Lemma loads : exists b h, load amp_selector substitute rules = Some b /\ Layers.define_layers (defined b) [] = Some h /\
    Forall2 (NestingSpec.says (fun p v => resolve [] p = v)) (declarations b) es /\
    (forall e, In e es -> exists i, get_layer_priority h (dotted (n_layer e)) = Some i) /\
    (forall e e' i j, In e es -> In e' es -> get_layer_priority h (dotted (n_layer e)) = Some i -> get_layer_priority h (dotted (n_layer e')) = Some j ->
       (i < j -> lower said (n_layer e) (n_layer e')) /\ (i = j -> n_layer e = n_layer e')).
  Proof.
    destruct (C58_any_language pcomplex complex M D val (fun p v => resolve [] p = v) amp_selector substitute rules) as (b & E & F).
    - reflexivity.
    - intros ss vs p H. rewrite resolve_substitute. f_equal. induction H as [|x v ss vs Hx H IH]; [reflexivity|]. cbn. rewrite Hx, IH. reflexivity.
    - exact Ok.
    - destruct (C59_layer_order_partial pcomplex M D amp_selector substitute rules Ok Inh) as (b' & h & E' & Eh & _ & Hl). rewrite E in E'. injection E' as <-. cbv zeta in Hl.
      assert (Inl : forall e, In e es -> n_layer e = [] \/ n_layer e <> [] /\ In (n_layer e) said /\ dotted (n_layer e) <> []).
      { intros e He. destruct (sheet_layers_ok _ _ _ _ Ok He) as (H1 & H2 & _). destruct (n_layer e) as [|s l] eqn:El; [left; reflexivity|right]. split; [discriminate|]. destruct H2 as [H2|H2]; [discriminate|]. split; [apply mentions_self; [discriminate|exact H2]|].
        intros G. apply dotted_nil in G; [discriminate|exact H1]. }
      exists b, h. split; [exact E|]. split; [exact Eh|]. split; [exact F|]. split.
      + intros e He. destruct (Inl e He) as [->|(_ & H & _)]; [cbn; eauto|]. destruct (Hl _ _ H H) as (i & j & Ei & _). eauto.
      + intros e e' i j He He' Hi Hj. destruct (Inl e He) as [L1|(N1 & S1 & D1)], (Inl e' He') as [L2|(N2 & S2 & D2)].
        * rewrite L1, L2 in *. cbn in Hi, Hj. split; [intros; congruence || (injection Hi as <-; injection Hj as <-; lia)|reflexivity].
        * rewrite L1 in *. cbn in Hi. injection Hi as <-. apply priority_lt in Hj; [|exact D2]. split; intros; lia.
        * rewrite L2 in *. cbn in Hj. injection Hj as <-. apply priority_lt in Hi; [|exact D1]. split; [intros _|intros; lia]. destruct (n_layer e) as [|x l]; [contradiction|]. apply (lower_nested _ [] x l).
        * destruct (Hl _ _ S1 S2) as (i' & j' & Ei & Ej & H1 & H2). rewrite Hi in Ei. rewrite Hj in Ej. injection Ei as <-. injection Ej as <-. split; [apply H1|apply H2].
  Qed.
End L.

Section T.
  Context {V : Type}.
  Notation M := (media_selector fval).
  Notation D := (list (nat * V)).
  Variables (type_ok : nat -> V -> bool) (placeholder : V -> V).
  Variable rules : list (Nesting.top pcomplex M D).
  Notation val := (fun p ps => resolve ps p).
  Notation es := (flat_map (top_entries val amp_selector [] []) rules).
  Notation said := (LayersSpec.mentions (flat_map (top_layers []) rules)).
  Hypothesis Ok : Forall top_ok rules.
  Hypothesis Inh : Forall blocks_inhabited rules.
  Hypothesis Ty : forall e q x, In e es -> In (q, x) (n_decl e) -> type_ok q (placeholder x) = true.
  Hypothesis Cnt : forall e a x, In e es -> In a (n_alts e) -> counted_complex a x -> countable x.

  Lemma spec_compare a a' x y : counted_complex a x -> counted_complex a' y -> countable x -> countable y -> ((Specificity.specificity a < Specificity.specificity a')%N -> below x y) /\ (Specificity.specificity a = Specificity.specificity a' -> x = y).
  Proof.
    intros Ha Hb Cx Cy. destruct (C102_specificity a a') as (x' & y' & [_ Ux] & [_ Uy] & H). rewrite (Ux x Ha), (Uy y Hb) in *. destruct (H Cx Cy) as [H1 H2]. split; [apply H1|apply H2].
  Qed.

  Lemma winner_text w fuel : (forall s, parsed s -> forall n, matches_selector w fuel s n = true <-> sat w s None n) -> (forall e, In e es -> Forall parsed (n_alts e)) ->
    exists s, load_sheet type_ok placeholder rules = Some (Built s) /\
    forall veqb, (forall a b, veqb a b = true <-> a = b) -> forall m ratio base n, exists out, node_values veqb w fuel m ratio base s n = Some out /\
    forall p, (exists k v, wins w m ratio said es n p k v /\ out p = placeholder v) \/ (nobody_sets w m ratio es n p /\ out p = base p).
  Proof.
    intros Hm Hpar.
    destruct (loads rules Ok Inh) as (b & h & E & Eh & F & Pr & Lw). unfold load_sheet. rewrite E. unfold cascade_builder. rewrite Eh.
    set (R := Nesting.rulesets b) in *. set (cb := mk_builder h [] (map (fun r => contents_of (snd r)) R) [] (entries_from 0 R)).
    assert (Hok : ids_ok cb). { unfold ids_ok. cbn. rewrite map_length. eapply Forall_impl; [|apply entries_ids]. cbn. intros; lia. }
    destruct (remove_empty_correct cb Hok) as (cb' & Er & Hok' & Hrs & Hrl & Hh & Hff & _). rewrite Er.
    (* declarations and entries *)
    assert (Decl : forall id r dm d, nth_error R id = Some r -> nth_error (snd r) dm = Some d -> nth_error (declarations b) (off (fun r => map (fun d => (fst r, d)) (snd r)) R id + dm) = Some (fst r, d)).
    { intros id r dm d H1 H2. unfold declarations. apply off_get with (r := r); [exact H1|]. rewrite nth_error_map, H2. reflexivity. }
    set (pos := fun id dm => off (fun r : list (csel pcomplex M) * list D => map (fun d => (fst r, d)) (snd r)) R id + dm) in *.
    assert (Ent : forall id r dm d, nth_error R id = Some r -> nth_error (snd r) dm = Some d -> exists e, nth_error es (pos id dm) = Some e /\ d = n_decl e /\
              Forall2 (fun s v => c_layer s = dotted (n_layer e) /\ c_media s = n_media e /\ resolve [] (c_sel s) = v) (fst r) (n_alts e)).
    { intros id r dm d H1 H2. destruct (proj1 (Forall2_at _ _ _ F (pos id dm)) _ (Decl id r dm d H1 H2)) as (e & He & Hd & Hs). exists e. auto. }
    assert (Cov : covered cb').
    { unfold remove_all_empty_rulesets in Er. eapply covered_loop; [|exact Er]. intros id r Hr Hn. cbn in Hr. rewrite nth_error_map in Hr. destruct (nth_error R id) as [r0|] eqn:E0; [|discriminate]. cbn in Hr. injection Hr as <-.
      apply (entries_covered R 0 id r0 E0). destruct (snd r0) as [|d ds] eqn:Ed; [discriminate Hn|].
      destruct (Ent id r0 0 d E0 ltac:(rewrite Ed; reflexivity)) as (e & He & _ & Hs). destruct (sheet_layers_ok _ _ _ _ Ok (nth_error_In _ _ He)) as (_ & _ & Ha). intros G. rewrite G in Hs. inversion Hs; congruence. }
    assert (Ne : Forall (fun r => is_empty r = false) (rulesets cb')). { rewrite Hrs. apply Forall_forall. intros r Hr. apply filter_In in Hr as [_ Hr]. apply negb_true_iff in Hr. exact Hr. }
    assert (Pl : Forall plain_rs (rulesets cb')). { rewrite Hrs. apply Forall_forall. intros r Hr. apply filter_In in Hr as [Hr _]. cbn in Hr. apply in_map_iff in Hr as (r0 & <- & _). exists (snd r0). reflexivity. }
    assert (Prio : forall id r c, nth_error R id = Some r -> In c (fst r) -> concat (snd r) <> [] -> exists k, get_layer_priority h (c_layer c) = Some k).
    { intros id r c H1 H2 H3. destruct (snd r) as [|d ds] eqn:Ed; [exfalso; apply H3; reflexivity|]. destruct (Ent id r 0 d H1 ltac:(rewrite Ed; reflexivity)) as (e & He & _ & Hs).
      apply In_nth_error in H2 as (cm & Hc). destruct (proj1 (Forall2_at _ _ _ Hs cm) c Hc) as (v & _ & -> & _). apply Pr. eapply nth_error_In; exact He. }
    destruct (builds type_ok placeholder cb') as (s & Hb).
    - rewrite Hff. reflexivity.
    - exact Cov.
    - exact Ne.
    - exact Pl.
    - intros r q x Hr Hin. rewrite Hrs in Hr. apply filter_In in Hr as [Hr _]. cbn in Hr. apply in_map_iff in Hr as (r0 & <- & H0). rewrite decls_contents in Hin. apply in_concat in Hin as (d & Hd & Hin).
      apply In_nth_error in H0 as (id & H0). apply In_nth_error in Hd as (dm & Hd). destruct (Ent id r0 dm d H0 Hd) as (e & He & -> & _). eapply Ty; [eapply nth_error_In; exact He|exact Hin].
    - intros e He. rewrite Hh. cbn.
      assert (Hin : In (fst e, nth_error (rulesets cb') (snd e)) (filter keeps (CascadeSpec.rules (map (fun r => contents_of (snd r)) R) (entries_from 0 R)))).
      { change (map (fun r => contents_of (snd r)) R) with (rulesets cb). change (entries_from 0 R) with (css_selectors_to_rulesets cb). rewrite <- Hrl. unfold CascadeSpec.rules. apply in_map_iff. exists e. auto. }
      apply filter_In in Hin as [Hin Hk]. rewrite rules_flat in Hin. apply in_flat_map in Hin as (r0 & H0 & Hin). unfold rules_of in Hin. apply in_map_iff in Hin as (c & Ec & Hc). injection Ec as Ec En.
      apply In_nth_error in H0 as (id & H0). rewrite <- Ec. cbn. apply (Prio id r0 c H0 Hc). intros G. unfold keeps in Hk. cbn in Hk. rewrite <- En in Hk. unfold contents_of, is_empty in Hk. cbn in Hk. rewrite G in Hk. discriminate.
    - exists s. rewrite Hb. split; [reflexivity|]. intros veqb Hv m ratio base n. unfold node_values.
      destruct (has_values type_ok placeholder cb' s (fun x => matches_selector w fuel x n) (fun q => media_matches fval feq fle (fun x y => fle y x) (fun _ _ => ratio) q m) veqb base Hok' Hb) as (out & Ho).
      exists out. split; [exact Ho|]. intros p. pose proof (winner_built type_ok placeholder cb' s _ _ veqb base out Hv Hok' Pl Hb Ho p) as W. rewrite Hrl, Hh in W. apply winner_filter in W. cbn [rulesets css_selectors_to_rulesets layers_hierarchy cb] in W. rewrite rules_flat in W.
      set (hit := fun c : css_selector complex (list M) => _) in W.
      (* a selector hits exactly if the entry applies by it *)
      assert (Hit : forall e c a, In e es -> In a (n_alts e) -> c_layer c = dotted (n_layer e) -> c_media c = n_media e -> resolve [] (c_sel c) = a -> (hit (to_css c) = true <-> applies w m ratio n e a)).
      { intros e c a He Ha _ Hme Hs. unfold hit, applies, to_css. cbn. rewrite andb_true_iff, Hs, (Hm a), Hme; [|specialize (Hpar e He); rewrite Forall_forall in Hpar; apply Hpar; exact Ha]. rewrite matches_iff. tauto. }
      (* an applicable entry as a rule *)
      assert (Rule : forall j e a, nth_error es j = Some e -> applies w m ratio n e a -> exists id r dm cm c, nth_error R id = Some r /\ nth_error (snd r) dm = Some (n_decl e) /\ j = pos id dm /\ nth_error (fst r) cm = Some c /\
                c_layer c = dotted (n_layer e) /\ resolve [] (c_sel c) = a /\ hit (to_css c) = true /\ nth_error (flat_map rules_of R) (off rules_of R id + cm) = Some (to_css c, Some (contents_of (snd r)))).
      { intros j e a Hj Ha. destruct (proj2 (Forall2_at _ _ _ F j) e Hj) as (x & Hx & Hd & Hs). unfold declarations in Hx. fold R in Hx. apply off_at in Hx as (id & r & dm & H1 & H2 & H3). rewrite nth_error_map in H2. destruct (nth_error (snd r) dm) as [d|] eqn:Ed; [|discriminate]. cbn in H2. injection H2 as <-. cbn in Hd, Hs.
        pose proof Ha as (Hin & _). apply In_nth_error in Hin as (cm & Hcm). destruct (proj2 (Forall2_at _ _ _ Hs cm) a Hcm) as (c & Hc & Hc1 & Hc2 & Hc3). exists id, r, dm, cm, c. rewrite Ed, Hd. do 2 (split; [assumption || reflexivity|]). split; [exact H3|]. split; [exact Hc|]. split; [exact Hc1|]. split; [exact Hc3|]. split.
        - apply (Hit e c a); auto; [eapply nth_error_In; exact Hj|apply Ha].
        - apply off_get with (r := r); [exact H1|]. unfold rules_of. rewrite nth_error_map, Hc. reflexivity. }
      destruct W as [(i & sl & r & v & Hi & Hh' & Hl & Ho' & Hw)|[Hbase Hn]].
      + left. apply off_at in Hi as (id & r0 & cm & H1 & H2 & H3). unfold rules_of in H2. rewrite nth_error_map in H2. destruct (nth_error (fst r0) cm) as [c|] eqn:Ec; [|discriminate]. cbn in H2. injection H2 as <- <-. rewrite decls_contents in Hl.
        apply last_concat in Hl as (d1 & d & d2 & Ed & Hld & Hd2). assert (Hdm : nth_error (snd r0) (List.length d1) = Some d) by (rewrite Ed, nth_error_app2, Nat.sub_diag by lia; reflexivity).
        destruct (Ent id r0 _ d H1 Hdm) as (e & He & Hde & Hs). destruct (proj1 (Forall2_at _ _ _ Hs cm) c Ec) as (a & Ha & Hc1 & Hc2 & Hc3).
        assert (Ap : applies w m ratio n e a) by (apply (Hit e c a); auto; eapply nth_error_In; eauto).
        destruct (counted_total a) as (x & Hx & Ux). exists (pos id (List.length d1)), v. split; [|exact Ho']. exists e, a, x. split; [exact He|]. split; [exact Ap|]. split; [exact Hx|]. split; [rewrite Hde in Hld; exact Hld|].
        intros j e' a' y v' Hj Ap' Hy Hset. destruct (Rule j e' a' Hj Ap') as (id' & r' & dm' & cm' & c' & G1 & G2 & G3 & G4 & G5 & G6 & G7 & G8).
        assert (Hin : In (p, v') (n_decl e')) by (destruct Hset as (z1 & z2 & -> & _); apply in_or_app; right; left; reflexivity).
        assert (Hle : id' = id -> j <= pos id (List.length d1)).
        { intros ->. rewrite H1 in G1. injection G1 as <-. rewrite G3. unfold pos. destruct (Nat.le_gt_cases dm' (List.length d1)) as [L|L]; [lia|]. exfalso. rewrite Ed, nth_error_app2 in G2 by lia. destruct (dm' - List.length d1) as [|z] eqn:Ez; [lia|]. cbn in G2. apply nth_error_In in G2. exact (Hd2 _ v' G2 Hin). }
        assert (Hlt : id' < id -> j <= pos id (List.length d1)).
        { intros L. rewrite G3. unfold pos. pose proof (off_lt (fun r : list (csel pcomplex M) * list D => map (fun d => (fst r, d)) (snd r)) R id' id r' L G1) as B. cbv beta in B. rewrite map_length in B. apply nth_len in G2. lia. }
        assert (Rl : forall r1 : list (csel pcomplex M) * list D, List.length (rules_of r1) = List.length (fst r1)) by (intros r1; unfold rules_of; apply map_length).
        assert (Idle : off rules_of R id' + cm' <= i -> id' <= id).
        { intros L. destruct (Nat.le_gt_cases id' id) as [Q|Q]; [exact Q|]. exfalso. pose proof (off_lt rules_of R id id' r0 Q H1) as B. rewrite Rl in B. apply nth_len in Ec. lia. }
        assert (He' : In e' es) by (eapply nth_error_In; exact Hj). assert (Hee : In e es) by (eapply nth_error_In; exact He).
        assert (Cx : countable x) by (eapply Cnt; [exact Hee|apply Ap|exact Hx]). assert (Cy : countable y) by (eapply Cnt; [exact He'|apply Ap'|exact Hy]).
        destruct (Hw _ (to_css c') (contents_of (snd r')) v' G8 G7) as [Q|(p1 & p2 & P1 & P2 & P3)].
        * rewrite decls_contents. apply in_concat. exists (n_decl e'). split; [eapply nth_error_In; exact G2|exact Hin].
        * assert (Ei : id' = id). { pose proof (Idle ltac:(lia)) as Q1. destruct (Nat.eq_dec id' id) as [Q2|Q2]; [exact Q2|]. exfalso. pose proof (off_lt rules_of R id' id r' ltac:(lia) G1) as B. rewrite Rl in B. apply nth_len in G4. lia. }
          subst id'. rewrite H1 in G1. injection G1 as <-. assert (cm' = cm) by lia. subst cm'. rewrite Ec in G4. injection G4 as <-. assert (a' = a) as -> by congruence. right.
          destruct (Pr e Hee) as (k & Hk). assert (get_layer_priority h (dotted (n_layer e')) = Some k) as Hk' by (rewrite <- G5, Hc1; exact Hk). split; [exact (proj2 (Lw e' e k k He' Hee Hk' Hk) eq_refl)|]. right. split; [apply Ux; exact Hy|apply Hle; reflexivity].
        * cbn in P1, P2. rewrite G5 in P1. rewrite Hc1 in P2. destruct (Lw e' e p1 p2 He' Hee P1 P2) as [L1 L2]. destruct P3 as [P3|[P3 P4]]; [left; exact (L1 P3)|]. right. split; [exact (L2 P3)|]. cbn in P4. rewrite G6, Hc3 in P4.
          destruct (spec_compare a' a y x Hy Hx Cy Cx) as [S1 S2]. destruct P4 as [P4|[P4 P5]]; [left; exact (S1 P4)|right]. split; [exact (S2 P4)|]. pose proof (Idle ltac:(lia)) as Q1. destruct (Nat.eq_dec id' id) as [Q2|Q2]; [apply Hle; exact Q2|apply Hlt; lia].
      + right. split; [|exact Hbase]. intros e a v He Ap Hset. apply In_nth_error in He as (j & Hj). destruct (Rule j e a Hj Ap) as (id' & r' & dm' & cm' & c' & G1 & G2 & G3 & G4 & G5 & G6 & G7 & G8).
        apply (Hn _ _ _ v G8 G7). rewrite decls_contents. apply in_concat. exists (n_decl e). split; [eapply nth_error_In; exact G2|]. destruct Hset as (z1 & z2 & -> & _). apply in_or_app; right; left; reflexivity.
  Qed.
End T.

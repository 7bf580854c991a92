(** Proofs for C82. *)
From Coq Require Import NArith.
From Verif Require Import Base Media MediaDeps MediaDepsSpec.

Arguments windows {f32}. Arguments cameras {f32}. Arguments primary {f32}. Arguments nodes {f32}.
Arguments n_camera {f32}. Arguments n_info {f32}. Arguments n_info_changed {f32}. Arguments n_rules {f32}. Arguments n_flags {f32}. Arguments n_marked {f32}. Arguments n_active {f32}.
Lemma scheme_eqb_eq a b : color_scheme_eqb a b = true <-> a = b.
Proof. destruct a, b; cbn; intuition congruence. Qed.
Lemma opt_scheme_eqb_eq a b : opt_scheme_eqb a b = true <-> a = b.
Proof. destruct a as [[]|], b as [[]|]; cbn; intuition congruence. Qed.

Section Proofs.
  Variable f32 : Type.
  Variables feq fle fge : f32 -> f32 -> bool.
  Notation ask := (ask f32 feq fle fge). Notation ask_all := (ask_all f32 feq fle fge). Notation ask_rules := (ask_rules f32 feq fle fge).
  Notation update := (update f32 feq fle fge). Notation updates := (updates f32 feq fle fge). Notation program := (program f32).

  (** ** Asking *)
  Definition covers (F f : dflags) : Prop := (on_window f = true -> on_window F = true) /\ (on_info f = true -> on_info F = true).
  Lemma covers_or F a b : covers F (or_dflags a b) -> covers F a /\ covers F b.
  Proof. unfold covers; cbn. intros [H1 H2]. repeat split; intros H; (apply H1 || apply H2); rewrite H; auto using orb_true_r. Qed.
  Lemma covers_refl_or F f : covers (or_dflags F f) f.
  Proof. unfold covers; cbn; split; intros ->; apply orb_true_r. Qed.
  Lemma ask_stable F sc i sc' i' q : covers F (snd (ask sc i q)) -> (on_window F = true -> sc' = sc) -> (on_info F = true -> i' = i) -> ask sc' i' q = ask sc i q.
  Proof. intros [H1 H2] Hs Hi. destruct q; cbn in *; rewrite ?Hs, ?Hi by auto; reflexivity. Qed.
  Lemma ask_all_stable F sc i sc' i' l : covers F (snd (ask_all sc i l)) -> (on_window F = true -> sc' = sc) -> (on_info F = true -> i' = i) -> ask_all sc' i' l = ask_all sc i l.
  Proof.
    intros Hc Hs Hi. induction l as [|q l IH]; [reflexivity|]. cbn in *. assert (Hq : ask sc' i' q = ask sc i q).
    { apply (ask_stable F); auto. destruct (ask sc i q) as [[] f]; [|exact Hc]. destruct (ask_all sc i l). apply covers_or in Hc. apply Hc. }
    rewrite Hq. destruct (ask sc i q) as [[] f]; [|reflexivity]. rewrite IH; [reflexivity|]. destruct (ask_all sc i l). apply covers_or in Hc. apply Hc.
  Qed.
  Lemma ask_rules_stable F sc i sc' i' l : covers F (snd (ask_rules sc i l)) -> (on_window F = true -> sc' = sc) -> (on_info F = true -> i' = i) -> ask_rules sc' i' l = ask_rules sc i l.
  Proof.
    intros Hc Hs Hi. induction l as [|r l IH]; [reflexivity|]. cbn in *. destruct (ask_all sc i r) as [b f] eqn:E1. destruct (ask_rules sc i l) as [bs f'] eqn:E2.
    apply covers_or in Hc as [C1 C2]. rewrite (ask_all_stable F sc i); [|rewrite E1; exact C1|auto|auto]. rewrite E1, IH; [reflexivity|exact C2].
  Qed.
  Lemma ask_holds sc i q : fst (ask sc i q) = true <-> holds f32 feq fle fge sc i q.
  Proof.
    destruct q; cbn; try (destruct i as [i|]; split; [intros H; eauto|intros (x & E & H); injection E as ->; exact H|discriminate|intros (x & E & _); discriminate]).
    destruct sc as [s|]; [|split; discriminate]. rewrite scheme_eqb_eq. split; congruence.
  Qed.
  Lemma ask_all_holds sc i l : fst (ask_all sc i l) = true <-> Forall (holds f32 feq fle fge sc i) l.
  Proof.
    induction l as [|q l IH]; [cbn; split; [constructor|reflexivity]|]. cbn. pose proof (ask_holds sc i q) as Hq. destruct (ask sc i q) as [[] f]; cbn in Hq.
    - destruct (ask_all sc i l) as [b f']; cbn in *. rewrite IH. split; [intros H; constructor; [apply Hq; reflexivity|exact H]|intros H; inversion H; assumption].
    - cbn. split; [discriminate|]. intros H. inversion H; subst. apply Hq. assumption.
  Qed.
  Lemma ask_rules_holds sc i l : Forall2 (fun r b => b = true <-> Forall (holds f32 feq fle fge sc i) r) l (fst (ask_rules sc i l)).
  Proof.
    induction l as [|r l IH]; [constructor|]. cbn. pose proof (ask_all_holds sc i r) as Hr. destruct (ask_all sc i r) as [b f]. destruct (ask_rules sc i l) as [bs f']. cbn in *. constructor; assumption.
  Qed.

  (** ** What the operations keep *)
  Definition window_ok (s : world f32) (w : nat) (x : window) : Prop :=
    w_fchanged x = false /\
    (w_features x = None /\ w_changed x = true \/
     exists y, windows s w = Some y /\ w_features x = w_features y /\ (w_changed x = false -> w_theme x = w_theme y)).
  Definition node_ok (s : world f32) (ops : list (op f32)) (n : nat) (x : node f32) : Prop :=
    (restyled f32 ops n -> n_marked x = true) /\
    (~ restyled f32 ops n -> (n_rules (nodes s n) = None \/ n_rules x = n_rules (nodes s n)) /\ n_flags x = n_flags (nodes s n) /\ n_marked x = n_marked (nodes s n) /\ n_active x = n_active (nodes s n)) /\
    (n_info_changed x = false -> n_info x = n_info (nodes s n)).
  Definition settled (s : world f32) : Prop :=
    (forall w x, windows s w = Some x -> w_features x = Some (w_theme x) /\ w_changed x = false /\ w_fchanged x = false) /\
    (forall n, n_info_changed (nodes s n) = false).
  Lemma set_same {A} (m : nat -> A) k v : set m k v k = v. Proof. unfold set. rewrite Nat.eqb_refl. reflexivity. Qed.
  Lemma set_other {A} (m : nat -> A) k v i : i <> k -> set m k v i = m i. Proof. unfold set. intros H. apply Nat.eqb_neq in H. rewrite H. reflexivity. Qed.
  Lemma program_windows s ops : settled s -> forall w x, windows (program ops s) w = Some x -> window_ok s w x.
  Proof.
    intros [Hw _]. induction ops as [|o ops IH] using rev_ind; [cbn; intros w x E; destruct (Hw w x E) as (H1 & H2 & H3); split; [exact H3|right; eauto]|].
    unfold program in *. rewrite fold_left_app. cbn [fold_left]. set (s' := fold_left (fun s o => do f32 o s) ops s) in *.
    intros w x. destruct o; cbn [do upd_windows upd_cameras upd_nodes windows]; try apply IH.
    - destruct (Nat.eq_dec w w0) as [->|Hne]; [rewrite set_same; intros E; injection E as <-; split; [reflexivity|left; auto]|rewrite set_other by exact Hne; apply IH].
    - destruct (Nat.eq_dec w w0) as [->|Hne]; [rewrite set_same; discriminate|rewrite set_other by exact Hne; apply IH].
    - destruct (windows s' w0) as [y|] eqn:Ey; [|apply IH]. destruct (Nat.eq_dec w w0) as [->|Hne]; [|rewrite set_other by exact Hne; apply IH].
      rewrite set_same. intros E; injection E as <-. destruct (IH _ _ Ey) as (H1 & [[H2 _]|(z & H2 & H3 & _)]); (split; [exact H1|]); [left; auto|right; exists z; repeat split; [exact H2|exact H3|discriminate]].
    - destruct (windows s' w0) as [y|] eqn:Ey; [|apply IH]. destruct (opt_scheme_eqb _ _); [apply IH|]. destruct (Nat.eq_dec w w0) as [->|Hne]; [|rewrite set_other by exact Hne; apply IH].
      rewrite set_same. intros E; injection E as <-. destruct (IH _ _ Ey) as (H1 & [[H2 _]|(z & H2 & H3 & _)]); (split; [exact H1|]); [left; auto|right; exists z; repeat split; [exact H2|exact H3|discriminate]].
  Qed.
  Lemma restyled_snoc ops o n : restyled f32 (ops ++ [o]) n <-> restyled f32 ops n \/ exists r b, o = Restyle f32 n r b.
  Proof.
    unfold restyled. split.
    - intros (r & b & H). apply in_app_or in H as [H|[H|[]]]; eauto.
    - intros [(r & b & H)|(r & b & ->)]; exists r, b; apply in_or_app; cbn; auto.
  Qed.
  Lemma program_nodes s ops : settled s -> forall n, node_ok s ops n (nodes (program ops s) n).
  Proof.
    intros [_ Hi]. induction ops as [|o ops IH] using rev_ind; [intros n; split; [intros (r & b & [])|split; auto]|].
    intros n. unfold program in *. rewrite fold_left_app. cbn [fold_left]. set (s' := fold_left (fun s o => do f32 o s) ops s) in *. specialize (IH n).
    unfold node_ok in *. rewrite restyled_snoc. destruct IH as (I1 & I2 & I3).
    assert (Hkeep : (forall r b, o <> Restyle f32 n r b) -> node_ok s ops n (nodes (do f32 o s') n) -> node_ok s (ops ++ [o]) n (nodes (do f32 o s') n)).
    { intros Hne (J1 & J2 & J3). unfold node_ok. rewrite restyled_snoc. split; [intros [H|(r & b & H)]; [auto|exfalso; eapply Hne; eauto]|]. split; [|exact J3]. intros H. apply J2. tauto. }
    unfold node_ok in Hkeep. rewrite restyled_snoc in Hkeep.
    destruct o; try (apply Hkeep; [discriminate|]; cbn [do upd_windows upd_cameras upd_nodes nodes]; repeat split; assumption || (intros; apply I2; assumption)).
    - apply Hkeep; [discriminate|]. cbn [do upd_nodes nodes]. destruct (Nat.eq_dec n n0) as [<-|Hne]; [rewrite set_same|rewrite set_other by exact Hne; auto]. cbn. auto.
    - apply Hkeep; [discriminate|]. cbn [do upd_nodes nodes]. destruct (Nat.eq_dec n n0) as [<-|Hne]; [rewrite set_same|rewrite set_other by exact Hne; auto]. cbn. repeat split; try (apply I1 || apply I2); try assumption; discriminate.
    - apply Hkeep; [discriminate|]. cbn [do upd_nodes nodes]. destruct (Nat.eq_dec n n0) as [<-|Hne]; [rewrite set_same|rewrite set_other by exact Hne; auto]. cbn. split; [exact I1|]. split; [|exact I3].
      intros H. destruct (I2 H) as (J1 & J2). split; [|exact J2]. destruct J1 as [J1|J1]; [left; exact J1|]. destruct (n_rules (nodes s' n)) as [r|] eqn:Er; [right; exact J1|left; congruence].
    - cbn [do upd_nodes nodes]. destruct (Nat.eq_dec n n0) as [<-|Hne].
      + rewrite set_same. cbn. split; [reflexivity|]. split; [|exact I3]. intros H. exfalso. apply H. right. eauto.
      + rewrite set_other by exact Hne. split; [intros [H|(r & b & H)]; [auto|congruence]|]. split; [|exact I3]. intros H. apply I2. tauto.
  Qed.

  (** ** One update *)
  Definition good (s : world f32) (n : nat) : Prop :=
    let x := nodes s n in
    (n_rules x = None -> n_marked x = true) /\
    forall rules, n_rules x = Some rules -> n_marked x = false /\ n_active x = fst (ask_rules (scheme_of f32 s n) (n_info x) rules) /\ covers (n_flags x) (snd (ask_rules (scheme_of f32 s n) (n_info x) rules)).
  Definition with_features (s : world f32) : world f32 := upd_windows f32 (fun m w => option_map compute_features (m w)) s.
  Lemma compute_theme x : w_theme (compute_features x) = w_theme x.
  Proof. unfold compute_features. destruct (w_changed x); [|reflexivity]. destruct (w_features x); [destruct (opt_scheme_eqb _ _)|]; reflexivity. Qed.
  Lemma compute_ok s w x : settled s -> window_ok s w x -> w_features (compute_features x) = Some (w_theme x) /\
    (w_fchanged (compute_features x) = false -> exists y, windows s w = Some y /\ w_theme y = w_theme x).
  Proof.
    intros [Hw _] (H1 & H2). unfold compute_features. destruct (w_changed x) eqn:Ec.
    - destruct (w_features x) as [f|] eqn:Ef; [|split; [reflexivity|discriminate]].
      destruct (opt_scheme_eqb f (w_theme x)) eqn:Eq; [|split; [reflexivity|discriminate]]. apply opt_scheme_eqb_eq in Eq. subst f. split; [exact Ef|]. intros _.
      destruct H2 as [[H2 _]|(y & H2 & H3 & _)]; [discriminate|]. exists y. split; [exact H2|]. destruct (Hw _ _ H2) as [H4 _]. congruence.
    - destruct H2 as [[_ H2]|(y & H2 & H3 & H4)]; [discriminate|]. destruct (Hw _ _ H2) as [H5 _]. rewrite H3, H5, H4 by reflexivity. split; [reflexivity|]. intros _. exists y. split; congruence.
  Qed.
  Lemma update_node s ops n : nodes (update s ops) n =
    settle_node f32 (recalculate f32 feq fle fge (with_features (program ops s)) (mark f32 (with_features (program ops s)) (nodes (program ops s) n))).
  Proof. reflexivity. Qed.
  Lemma update_window s ops w : windows (update s ops) w = option_map settle_window (option_map compute_features (windows (program ops s) w)).
  Proof. reflexivity. Qed.
  Lemma update_settled s ops : settled s -> settled (update s ops).
  Proof.
    intros Hs. split.
    - intros w x. rewrite update_window. destruct (windows (program ops s) w) as [y|] eqn:E; [|discriminate]. cbn. intros H; injection H as <-. cbn.
      destruct (compute_ok s w y Hs (program_windows s ops Hs w y E)) as [H _]. rewrite compute_theme. auto.
    - intros n. reflexivity.
  Qed.
  Lemma recalc_camera s x : n_camera (recalculate f32 feq fle fge s x) = n_camera x /\ n_info (recalculate f32 feq fle fge s x) = n_info x /\ n_rules (recalculate f32 feq fle fge s x) = n_rules x.
  Proof. unfold recalculate. destruct (n_marked x); [|auto]. destruct (n_rules x) eqn:E; [|auto]. destruct (ask_rules _ _ _). cbn. auto. Qed.
  Lemma update_camera s ops n : n_camera (nodes (update s ops) n) = n_camera (nodes (program ops s) n) /\ n_info (nodes (update s ops) n) = n_info (nodes (program ops s) n) /\
    n_rules (nodes (update s ops) n) = n_rules (nodes (program ops s) n).
  Proof. rewrite update_node. cbn [settle_node n_camera n_info n_rules]. destruct (recalc_camera (with_features (program ops s)) (mark f32 (with_features (program ops s)) (nodes (program ops s) n))) as (H1 & H2 & H3). auto. Qed.
  Lemma update_shown s ops n : shown_on f32 (update s ops) n = shown_on f32 (program ops s) n.
  Proof. unfold shown_on. destruct (update_camera s ops n) as [-> _]. reflexivity. Qed.
  Lemma update_scheme s ops n : scheme_of f32 (update s ops) n = scheme_of f32 (program ops s) n.
  Proof.
    unfold scheme_of. rewrite update_shown. destruct (shown_on _ _ _) as [w|]; [|reflexivity]. rewrite update_window. destruct (windows (program ops s) w); [|reflexivity]. cbn. apply compute_theme.
  Qed.
  Lemma scheme_get s ops n : settled s -> get_color_scheme f32 (with_features (program ops s)) (mark f32 (with_features (program ops s)) (nodes (program ops s) n)) = scheme_of f32 (program ops s) n.
  Proof.
    intros Hs. unfold get_color_scheme, scheme_of, shown_on. cbn [mark n_camera with_features upd_windows cameras primary windows]. destruct (n_camera _) as [c|]; [|reflexivity].
    destruct (cameras _ c) as [t|]; [|reflexivity].
    assert (G : forall w, match option_map compute_features (windows (program ops s) w) with Some win => match w_features win with Some f => f | None => None end | None => None end =
      match windows (program ops s) w with Some win => w_theme win | None => None end).
    { intros w. destruct (windows (program ops s) w) as [y|] eqn:E; [|reflexivity]. cbn. destruct (compute_ok s w y Hs (program_windows s ops Hs w y E)) as [-> _]. reflexivity. }
    destruct t as [|w|]; cbn [normalize]; [destruct (primary _) as [w|]; [apply G|reflexivity]|apply G|reflexivity].
  Qed.
  Lemma update_good s ops : settled s -> steady f32 s ops -> (forall n, good s n) -> forall n, good (update s ops) n.
  Proof.
    intros Hs Hst Hg n. specialize (Hst n). specialize (Hg n). unfold good. cbn zeta. destruct (update_camera s ops n) as (Ec & Ei & Er). rewrite Er, Ei, update_scheme.
    rewrite update_node. cbn [settle_node n_marked n_active n_flags]. pose proof (scheme_get s ops n Hs) as Hsc.
    set (s1 := with_features (program ops s)) in *. set (x := nodes (program ops s) n) in *. destruct (program_nodes s ops Hs n) as (N1 & N2 & N3). fold x in N1, N2, N3.
    unfold recalculate. destruct (n_marked (mark f32 s1 x)) eqn:Em.
    - change (n_rules (mark f32 s1 x)) with (n_rules x). split; [intros ->; exact Em|]. intros rules Erules. rewrite Erules, Hsc. change (n_info (mark f32 s1 x)) with (n_info x).
      destruct (ask_rules _ _ rules) as [bs f]. cbn. split; [reflexivity|]. split; [reflexivity|]. apply covers_refl_or.
    - rewrite Em. cbn [mark n_marked] in Em. apply orb_false_iff in Em as [Em Emw]. apply orb_false_iff in Em as [Em Emi].
      assert (Hnr : ~ restyled f32 ops n) by (intros H; rewrite (N1 H) in Em; discriminate). destruct (N2 Hnr) as (R1 & R2 & R3 & R4). destruct Hst as [H|(Hscheme & Hinfo)]; [contradiction|].
      unfold good in Hg. cbn zeta in Hg. destruct Hg as [G1 G2]. destruct R1 as [R1|R1]; [specialize (G1 R1); congruence|]. rewrite R1. split.
      { intros H. exfalso. specialize (G1 H). congruence. }
      intros rules Erules. destruct (G2 rules Erules) as (_ & G3 & G4). split; [reflexivity|]. cbn [mark n_active n_flags].
      rewrite (ask_rules_stable (n_flags x) (scheme_of f32 s n) (n_info (nodes s n))); [rewrite R2, R4; auto|rewrite R2; exact G4| |].
      + intros Hf. destruct Hscheme as [H|[Hshown Halive]]; [exact H|]. unfold scheme_of. rewrite Hshown. destruct (shown_on f32 s n) as [w|] eqn:Esh; [|reflexivity].
        assert (Hmw : match windows s1 w with Some win => w_fchanged win && on_window (n_flags x) | None => false end = false).
        { transitivity (mark_window f32 s1 x); [|exact Emw]. unfold mark_window. unfold shown_on in Hshown. fold x in Hshown. destruct (n_camera x) as [c|]; [|discriminate].
          change (cameras s1 c) with (cameras (program ops s) c). destruct (cameras (program ops s) c) as [t|]; [|discriminate]. change (primary s1) with (primary (program ops s)).
          destruct t; cbn [normalize]; [rewrite Hshown; reflexivity| |discriminate]. injection Hshown as ->. reflexivity. }
        change (windows s1 w) with (option_map compute_features (windows (program ops s) w)) in Hmw.
        destruct (windows (program ops s) w) as [y|] eqn:Ey; cbn in Hmw.
        * rewrite Hf, andb_true_r in Hmw. destruct (compute_ok s w y Hs (program_windows s ops Hs w y Ey)) as [_ H]. destruct (H Hmw) as (z & -> & Ez). congruence.
        * destruct (windows s w) eqn:Es; [|reflexivity]. exfalso. apply (Halive w eq_refl); congruence.
      + intros Hf. unfold mark_info in Emi. apply andb_false_iff in Emi as [H|H]; [apply N3, H|]. destruct (n_info x) eqn:Ex; [congruence|]. destruct (n_info (nodes s n)) eqn:E2; [|reflexivity]. exfalso. apply Hinfo; congruence.
  Qed.
  Lemma start_good : settled (start f32) /\ forall n, good (start f32) n.
  Proof. split; [split; [discriminate|reflexivity]|]. intros n. split; [reflexivity|discriminate]. Qed.
  Lemma updates_good h : steady_history f32 feq fle fge h -> settled (updates h) /\ forall n, good (updates h) n.
  Proof.
    induction h as [|ops h IH] using rev_ind; intros Hh; [apply start_good|].
    destruct IH as [I1 I2]. { intros h1 o h2 E. apply (Hh h1 o (h2 ++ [ops])). rewrite E, <- app_assoc. reflexivity. }
    unfold MediaDeps.updates in *. rewrite fold_left_app. cbn [fold_left]. split; [apply update_settled, I1|]. apply update_good; auto. apply (Hh h ops []). reflexivity.
  Qed.
End Proofs.

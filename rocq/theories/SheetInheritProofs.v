From Coq Require Import Permutation.
From Verif Require Import Base Tree TreeSpec TreeProofs SheetInherit SheetInheritSpec.

Lemma effective_det w decl e a : effective w decl e a -> forall b, effective w decl e b -> a = b.
Proof.
  induction 1 as [e s H|e H|e p a H P _ IH|e H P]; intros b B; inversion B; subst; try congruence; try (destruct H as [H|H]; congruence); try (destruct H0 as [H0|H0]; congruence).
  apply IH. congruence.
Qed.

Lemma contributes_cases decl e :
  match contributes decl e with
  | Some a => (exists s, decl e = Some (SSheet s) /\ a = Asset s) \/ (decl e = Some SBlock /\ a = Invalid)
  | None => decl e = None \/ decl e = Some SInherited
  end.
Proof. unfold contributes. destruct (decl e) as [[]|]; eauto. Qed.

Lemma contributes_effective w decl e a : contributes decl e = Some a -> effective w decl e a.
Proof. intros H. pose proof (contributes_cases decl e) as C. rewrite H in C. destruct C as [(s & D & ->)|[D ->]]; [apply eff_own|apply eff_block]; exact D. Qed.

Lemma chain_effective w decl e l : ancestor_chain w e l -> contributes decl e = None ->
  effective w decl e (match find_map (contributes decl) l with Some a => a | None => Invalid end).
Proof.
  induction 1 as [e P|e p l P C IH]; intros H; pose proof (contributes_cases decl e) as K; rewrite H in K.
  - cbn. apply eff_top; assumption.
  - apply eff_parent with p; [exact K|exact P|]. cbn. destruct (contributes decl p) as [a|] eqn:Hp; [apply contributes_effective; exact Hp|apply IH; reflexivity].
Qed.

Lemma iter_ancestors_chain w fuel e l : wf_forest w -> iter_ui_ancestors w fuel e = Some l -> ancestor_chain w e l.
Proof.
  intros W H. destruct (chain_exists w e W) as (l' & C). pose proof (ancestors_collect w e l' C) as G.
  unfold iter_ui_ancestors in *. rewrite (collect_det _ _ _ _ _ _ H G). exact C.
Qed.
Lemma iter_descendants w fuel e l : wf_forest w -> iter_ui_descendants_with_parent w fuel e = Some l -> forall x, In x (map snd l) <-> descendant w e x.
Proof.
  intros W H x. destruct (descendants_correct w e W) as (n0 & l' & A & _ & B & _). pose proof (A n0 (le_n _)) as G.
  unfold iter_ui_descendants_with_parent in *. rewrite (collect_det _ _ _ _ _ _ H G). rewrite in_map_iff. split.
  - intros ([p y] & <- & Hi). apply B in Hi. apply Hi.
  - intros D. destruct (parent w x) as [p|] eqn:Ep; [|inversion D; congruence]. exists (p, x). split; [reflexivity|]. apply B. auto.
Qed.

Section W.
  Variables (w : forest) (fuel : nat) (decl : nat -> option sheet_decl).
  Hypothesis W : wf_forest w.

  Lemma set_effective_spec e s s' b : set_effective w fuel decl e s = Some (s', b) ->
    (decl e = None /\ s' = s /\ b = false) \/
    (decl e <> None /\ (exists a, effective w decl e a /\ eff s' e = Some a) /\ (forall x, x <> e -> eff s' x = eff s x) /\
     marked s' = upd (marked s) e true /\ (b = false <-> eff s' e = eff s e)).
  Proof.
    unfold set_effective. destruct (decl e) as [d|] eqn:D; [|intros H; injection H as <- <-; auto].
    intros H. right. split; [discriminate|].
    destruct (match d with SInherited => _ | SSheet _ => _ | SBlock => _ end) as [a|] eqn:Ea; [|discriminate].
    assert (A : effective w decl e a).
    { destruct d.
      - destruct (iter_ui_ancestors w fuel e) as [l|] eqn:El; [|discriminate]. injection Ea as <-.
        apply chain_effective; [apply (iter_ancestors_chain w fuel); assumption|unfold contributes; rewrite D; reflexivity].
      - injection Ea as <-. apply eff_own. exact D.
      - injection Ea as <-. apply eff_block. exact D. }
    destruct (asset_eq_dec (eff s e) (Some a)) as [G|G]; injection H as <- <-; cbn.
    - split; [exists a; auto|]. split; [reflexivity|]. split; [reflexivity|]. split; reflexivity.
    - split; [exists a; unfold upd; rewrite Nat.eqb_refl; auto|]. split; [intros x Hx; unfold upd; destruct (Nat.eqb_spec x e); [contradiction|reflexivity]|].
      split; [reflexivity|]. unfold upd. rewrite Nat.eqb_refl. split; [discriminate|]. intros E. exfalso. apply G. symmetry. exact E.
  Qed.

  (** what every loop keeps: the value of an entity is untouched or right; a changed value is marked *)
  Record kept (visited : nat -> Prop) (s s' : sheets) : Prop := {
    k_right : forall e, visited e -> decl e <> None -> exists a, effective w decl e a /\ eff s' e = Some a;
    k_same : forall e, ~ visited e \/ decl e = None -> eff s' e = eff s e;
    k_either : forall e, eff s' e = eff s e \/ (decl e <> None /\ exists a, effective w decl e a /\ eff s' e = Some a);
    k_mark : forall e, marked s e = true -> marked s' e = true;
    k_new : forall e, eff s' e <> eff s e -> marked s' e = true }.

  Lemma kept_refl s : kept (fun _ => False) s s.
  Proof. split; auto; tauto || congruence. Qed.

  Lemma kept_one e s s' b : set_effective w fuel decl e s = Some (s', b) -> kept (eq e) s s'.
  Proof.
    intros H. destruct (set_effective_spec e s s' b H) as [(D & -> & ->)|(D & R & O & M & _)].
    - split; auto. intros x <-; tauto.
    - split.
      + intros x <- _. exact R.
      + intros x [G|G]; [apply O; congruence|]. apply O. congruence.
      + intros x. destruct (Nat.eq_dec x e) as [->|G]; [right; auto|left; apply O; exact G].
      + intros x G. rewrite M. unfold upd. destruct (Nat.eqb x e); auto.
      + intros x G. destruct (Nat.eq_dec x e) as [->|N]; [|rewrite O in G by exact N; congruence]. rewrite M. unfold upd. rewrite Nat.eqb_refl. reflexivity.
  Qed.

  Lemma kept_trans (P Q : nat -> Prop) s s' s'' : kept P s s' -> kept Q s' s'' -> kept (fun e => P e \/ Q e) s s''.
  Proof.
    intros A B. split.
    - intros e [H|H] D; [|apply (k_right _ _ _ B); assumption].
      destruct (k_right _ _ _ A e H D) as (a & Ea & Ha). destruct (k_either _ _ _ B e) as [G|(_ & b & Eb & Hb)]; [exists a; rewrite G; auto|exists b; auto].
    - intros e H. rewrite (k_same _ _ _ B) by tauto. apply (k_same _ _ _ A). tauto.
    - intros e. destruct (k_either _ _ _ B e) as [G|G]; [|auto]. rewrite G. apply (k_either _ _ _ A).
    - intros e H. apply (k_mark _ _ _ B), (k_mark _ _ _ A), H.
    - intros e H. destruct (asset_eq_dec (eff s'' e) (eff s' e)) as [G|G]; [|apply (k_new _ _ _ B), G].
      apply (k_mark _ _ _ B), (k_new _ _ _ A). congruence.
  Qed.
  Lemma kept_iff (P Q : nat -> Prop) s s' : (forall e, P e <-> Q e) -> kept P s s' -> kept Q s s'.
  Proof.
    intros I A. split; [|..|apply (k_mark _ _ _ A)|apply (k_new _ _ _ A)].
    - intros e H. apply (k_right _ _ _ A). apply I, H.
    - intros e H. apply (k_same _ _ _ A). rewrite I. exact H.
    - apply (k_either _ _ _ A).
  Qed.

  Lemma kept_visit l : forall s s', visit_all w fuel decl l s = Some s' -> kept (fun e => In e l) s s'.
  Proof.
    induction l as [|x l IH]; intros s s' H; cbn in H; [injection H as <-; exact (kept_refl s)|].
    destruct (set_effective w fuel decl x s) as [[s1 b]|] eqn:E; [|discriminate].
    exact (kept_trans _ _ _ _ _ (kept_one x s s1 b E) (IH s1 s' H)).
  Qed.

  Lemma kept_modified l : forall s s', modified_loop w fuel decl l s = Some s' -> kept (fun e => exists m, In m l /\ descendant w m e) s s'.
  Proof.
    induction l as [|x l IH]; intros s s' H; cbn in H.
    - injection H as <-. apply (kept_iff (fun _ => False)); [|apply kept_refl]. intros e. split; [tauto|intros (m & [] & _)].
    - destruct (iter_ui_descendants_with_parent w fuel x) as [ds|] eqn:Ed; [|discriminate].
      destruct (visit_all w fuel decl (map snd ds) s) as [s1|] eqn:Ev; [|discriminate].
      refine (kept_iff _ _ _ _ _ (kept_trans _ _ _ _ _ (kept_visit _ _ _ Ev) (IH s1 s' H))).
      intros e. rewrite (iter_descendants w fuel x ds W Ed). split.
      + intros [D|(m & Hm & D)]; [exists x; split; [left; reflexivity|exact D]|exists m; split; [right; exact Hm|exact D]].
      + intros (m & [<-|Hm] & D); [left; exact D|right; exists m; auto].
  Qed.

  Lemma changed_spec l : forall s s' m, changed_loop w fuel decl l s = Some (s', m) ->
    kept (fun e => In e l) s s' /\ (forall e, In e m -> In e l) /\ (forall e, In e l -> ~ In e m -> eff s' e = eff s e).
  Proof.
    induction l as [|x l IH]; intros s s' m H; cbn in H; [injection H as <- <-; split; [exact (kept_refl s)|split; [tauto|tauto]]|].
    destruct (set_effective w fuel decl x s) as [[s1 b]|] eqn:E; [|discriminate].
    destruct (changed_loop w fuel decl l s1) as [[s2 m1]|] eqn:E2; [|discriminate]. injection H as <- <-.
    destruct (IH s1 s2 m1 E2) as (A & B & C). pose proof (kept_one x s s1 b E) as K. split; [exact (kept_trans _ _ _ _ _ K A)|]. split.
    - intros e He. destruct b; [destruct He as [<-|He]; [left; reflexivity|]|]; right; apply B, He.
    - intros e He Hm.
      assert (H1 : eff s1 e = eff s e).
      { destruct (Nat.eq_dec e x) as [->|N]; [|apply (k_same _ _ _ K); left; congruence].
        destruct b; [exfalso; apply Hm; left; reflexivity|].
        destruct (set_effective_spec x s s1 false E) as [(_ & -> & _)|(_ & _ & _ & _ & G)]; [reflexivity|apply G; reflexivity]. }
      assert (H2 : ~ In e m1) by (destruct b; [intros G; apply Hm; right; exact G|exact Hm]).
      rewrite <- H1. destruct (in_dec Nat.eq_dec e l) as [I|I]; [apply C; assumption|apply (k_same _ _ _ A); left; exact I].
  Qed.
End W.

(** ** One frame *)
Lemma unvisited f0 f n a : detected f0 f -> effective (f_tree f) (f_decl f) n a -> ~ In n (f_changed f) -> ~ absent f n ->
  (forall c x, In c (f_changed f) -> descendant (f_tree f) c n -> effective (f_tree f) (f_decl f) c x -> effective (f_tree f0) (f_decl f0) c x) ->
  effective (f_tree f0) (f_decl f0) n a.
Proof.
  intros (W & _ & _ & D). induction 1 as [e s H|e H|e p a H P Hp IH|e H P]; intros N A C; destruct (D e N) as [[D1 D2]|G]; try contradiction.
  - apply eff_own. congruence.
  - apply eff_block. congruence.
  - apply eff_parent with p; [rewrite <- D1; exact H|congruence|].
    destruct (in_dec Nat.eq_dec p (f_changed f)) as [I|I].
    + apply C; [exact I|apply desc_child; exact P|exact Hp].
    + apply IH; [exact I| |].
      * intros (_ & _ & G). apply (wf_agree _ W) in P. rewrite G in P. destruct P.
      * intros c x Hc Hd. apply C; [exact Hc|]. apply desc_step with p; assumption.
  - apply eff_top; [rewrite <- D1; exact H|congruence].
Qed.

Lemma frame_right fuel f0 f s0 s : detected f0 f -> all_right f0 s0 -> (forall e, f_decl f0 e = None -> eff s0 e = None) ->
  run_frame fuel f s0 = Some s ->
  all_right f s /\ (forall e, f_decl f e = None -> eff s e = None) /\
  (forall e, f_decl f e <> None -> eff s e <> eff s0 e -> marked s e = true).
Proof.
  intros Hd R0 N0 H. pose proof Hd as (W & O & Cd & D). unfold run_frame, calculate_effective in H.
  destruct (changed_loop _ _ _ _ _) as [[s1 m]|] eqn:E1; [|discriminate].
  destruct (changed_spec _ _ _ W _ _ _ _ E1) as (K1 & M1 & U1). pose proof (kept_modified _ _ _ W _ _ _ H) as K2.
  set (s0' := drop_dead f s0) in *.
  assert (S0 : forall e, f_decl f e <> None -> eff s0' e = eff s0 e) by (intros e He; cbn; destruct (f_decl f e); [reflexivity|congruence]).
  split; [|split].
  - intros e He.
    assert (G : exists a, effective (f_tree f) (f_decl f) e a /\ eff s e = Some a).
    { pose proof (kept_trans _ _ _ _ _ _ _ K1 K2) as K.
      destruct (in_dec Nat.eq_dec e (f_changed f)) as [I|I]; [apply (k_right _ _ _ _ _ K); auto|].
      destruct (k_either _ _ _ _ _ K e) as [G|G]; [|apply G].
      (* not touched *)
      assert (Ex : exists a, effective (f_tree f) (f_decl f) e a).
      { destruct (chain_exists _ e W) as (l & Cl). destruct (contributes (f_decl f) e) as [a|] eqn:Ce; [exists a; apply contributes_effective; exact Ce|].
        eexists. apply chain_effective; eassumption. }
      destruct Ex as (a & Ha). exists a. split; [exact Ha|]. 
      destruct (D e I) as [[D1 D2]|[G' _]]; [|congruence].
      (* is a modified entity above? *)
      destruct (chain_exists _ e W) as (l & Cl).
      destruct (existsb (fun x => if in_dec Nat.eq_dec x m then true else false) l) eqn:Em.
      + apply existsb_exists in Em. destruct Em as (x & Hx & Hm). destruct (in_dec Nat.eq_dec x m) as [Hm'|]; [|discriminate].
        apply (chain_descendant _ _ _ Cl) in Hx.
        destruct (k_right _ _ _ _ _ K2 e) as (b & Eb & Hb); [exists x; split; [apply (Permutation_in _ (Permutation_sym (O m))), Hm'|exact Hx]|exact He|].
        rewrite Hb. f_equal. exact (effective_det _ _ _ _ Eb _ Ha).
      + rewrite G, (S0 e He). apply R0; [congruence|].
        apply (unvisited f0 f); [exact Hd|exact Ha|exact I|intros (G' & _); congruence|].
        intros c x Hc Hdesc Hx.
        assert (Nm : ~ In c m).
        { intros Hm. apply (chain_descendant _ _ _ Cl) in Hdesc. assert (T : existsb (fun x => if in_dec Nat.eq_dec x m then true else false) l = true).
          { apply existsb_exists. exists c. split; [exact Hdesc|]. destruct (in_dec Nat.eq_dec c m); [reflexivity|contradiction]. } congruence. }
        pose proof (U1 c Hc Nm) as Uc. destruct (k_right _ _ _ _ _ K1 c Hc (Cd c Hc)) as (y & Ey & Hy).
        rewrite (effective_det _ _ _ _ Hx _ Ey) in *. rewrite Hy, (S0 c (Cd c Hc)) in Uc.
        destruct (f_decl f0 c) eqn:Dc; [apply R0; congruence|]. rewrite (N0 c Dc) in Uc. discriminate. }
    destruct G as (a & Ea & Ha). intros b. rewrite Ha. split; [intros E; injection E as <-; exact Ea|]. intros Eb. f_equal. exact (effective_det _ _ _ _ Ea _ Eb).
  - intros e He. pose proof (kept_trans _ _ _ _ _ _ _ K1 K2) as K. rewrite (k_same _ _ _ _ _ K) by (right; exact He). cbn. rewrite He. reflexivity.
  - intros e He G. pose proof (kept_trans _ _ _ _ _ _ _ K1 K2) as K. apply (k_new _ _ _ _ _ K). rewrite (S0 e He). exact G.
Qed.

Lemma last_cons {A} (x : A) l d : last (x :: l) d = last l x.
Proof. revert x d. induction l as [|y l IH]; intros x d; [reflexivity|]. change (last (y :: l) d = last (y :: l) x). rewrite (IH y d), (IH y x). reflexivity. Qed.

Lemma frames_right fuel fs : forall f0 s0 s, all_detected f0 fs -> all_right f0 s0 -> (forall e, f_decl f0 e = None -> eff s0 e = None) ->
  run_frames fuel fs s0 = Some s -> all_right (last fs f0) s /\ (forall e, f_decl (last fs f0) e = None -> eff s e = None).
Proof.
  induction fs as [|f fs IH]; intros f0 s0 s Hd R N H; cbn in H; [injection H as <-; auto|].
  destruct Hd as [D1 D2]. destruct (run_frame fuel f s0) as [s1|] eqn:E; [|discriminate].
  destruct (frame_right fuel f0 f s0 s1 D1 R N E) as (R1 & N1 & _). pose proof (IH f s1 s D2 R1 N1 H) as G.
  rewrite last_cons. exact G.
Qed.

(** ** Termination *)
Lemma set_effective_total w decl e : wf_forest w -> exists n0, forall fuel, n0 <= fuel -> forall s, set_effective w fuel decl e s <> None.
Proof.
  intros W. destruct (ancestors_correct w e W) as (n0 & l & _ & A). exists n0. intros fuel H s. unfold set_effective.
  rewrite (A fuel H). destruct (decl e) as [[]|]; cbn; try discriminate; destruct (asset_eq_dec _ _); discriminate.
Qed.
Lemma uniform {A} (P : A -> nat -> Prop) (l : list A) : (forall x, In x l -> exists n0, forall n, n0 <= n -> P x n) -> exists n0, forall n, n0 <= n -> forall x, In x l -> P x n.
Proof.
  induction l as [|x l IH]; intros H; [exists 0; intros n _ x []|].
  destruct (H x) as (n1 & A1); [left; reflexivity|]. destruct IH as (n2 & B); [intros y Hy; apply H; right; exact Hy|].
  exists (max n1 n2). intros n Hn y [<-|Hy]; [apply A1; lia|apply B; [lia|exact Hy]].
Qed.
Lemma frame_total f0 f s0 : detected f0 f -> exists n0, forall fuel, n0 <= fuel -> exists s, run_frame fuel f s0 = Some s.
Proof.
  intros (W & O & _ & _). set (w := f_tree f). set (decl := f_decl f).
  destruct (uniform (fun e n => forall s, set_effective w n decl e s <> None) (f_changed f)) as (n1 & A); [intros e _; apply set_effective_total; exact W|].
  destruct (uniform (fun e n => exists ds, iter_ui_descendants_with_parent w n e = Some ds /\ forall d s, In d (map snd ds) -> set_effective w n decl d s <> None) (f_changed f)) as (n2 & B).
  { intros e _. destruct (descendants_correct w e W) as (n0 & l & C & _).
    destruct (uniform (fun d n => forall s, set_effective w n decl d s <> None) (map snd l)) as (n3 & D); [intros d _; apply set_effective_total; exact W|].
    exists (max n0 n3). intros n Hn. exists l. split; [apply C; lia|]. intros d s Hd. apply D; [lia|exact Hd]. }
  exists (max n1 n2). intros n Hn. assert (A' := A n ltac:(lia)). assert (B' := B n ltac:(lia)). clear A B.
  unfold run_frame, calculate_effective. fold w decl.
  assert (L1 : forall l s, (forall e, In e l -> forall s, set_effective w n decl e s <> None) -> exists s' m, changed_loop w n decl l s = Some (s', m)).
  { induction l as [|x l IH]; intros s H; [cbn; eauto|]. cbn. destruct (set_effective w n decl x s) as [[s1 b]|] eqn:E; [|exfalso; apply (H x (or_introl eq_refl) s E)].
    destruct (IH s1) as (s' & m & ->); [intros e He; apply H; right; exact He|]. eauto. }
  assert (L2 : forall l s, (forall e, In e l -> forall s, set_effective w n decl e s <> None) -> exists s', visit_all w n decl l s = Some s').
  { induction l as [|x l IH]; intros s H; [cbn; eauto|]. cbn. destruct (set_effective w n decl x s) as [[s1 b]|] eqn:E; [|exfalso; apply (H x (or_introl eq_refl) s E)].
    apply IH. intros e He; apply H; right; exact He. }
  destruct (L1 (f_changed f) (drop_dead f s0) A') as (s1 & m & E). rewrite E.
  destruct (changed_spec w n decl W _ _ _ _ E) as (_ & M & _).
  assert (B2 : forall e, In e (f_order f m) -> In e (f_changed f)) by (intros e He; apply M, (Permutation_in _ (O m)), He).
  revert s1 E B2. generalize (f_order f m) as l. clear - B' L2. induction l as [|x l IH]; intros s1 E B2; [cbn; eauto|]. cbn.
  destruct (B' x (B2 x (or_introl eq_refl))) as (ds & -> & Hs). destruct (L2 (map snd ds) s1 (fun d Hd s => Hs d s Hd)) as (s' & ->).
  specialize (IH s'). clear E. assert (G : forall s, exists s'', modified_loop w n decl l s = Some s'').
  { clear IH. revert B2. induction l as [|y l IH]; intros B2 s; [cbn; eauto|]. cbn.
    destruct (B' y (B2 y (or_intror (or_introl eq_refl)))) as (ds' & -> & Hs'). destruct (L2 (map snd ds') s (fun d Hd s => Hs' d s Hd)) as (s2 & ->).
    apply IH. intros e [<-|He]; apply B2; [left; reflexivity|right; right; exact He]. }
  apply G.
Qed.

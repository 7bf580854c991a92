From Verif Require Import Base Inherit NodeProps AutoInsert AutoInsertSpec.

(** The specification's notions in terms of [r_range] *)
Lemma range_belongs {V} (r : registration V) p : In p (r_range r) <-> belongs r p.
Proof. unfold r_range, belongs. rewrite in_seq. lia. Qed.
Definition good_registry {V} (regs : list (registration V)) : Prop :=
  NoDup (map r_type regs) /\
  forall r r' p, In r regs -> In r' regs -> In p (r_range r) -> In p (r_range r') -> r = r'.
Definition has_value {V} (c : nat -> cvalue V) (r : registration V) : Prop := exists p v, In p (r_range r) /\ c p = CVal v.
Definition styled_animations {V} (regs : list (registration V)) (f : aframe V) : Prop :=
  forall r, In r regs -> has_value (a_panim f) r -> has_value (a_pending f) r.
Lemma good_registry_iff {V} (regs : list (registration V)) : AutoInsertSpec.good_registry regs -> good_registry regs.
Proof. intros [A B]. split; [exact A|]. intros r r' p Hr Hr' H H'. apply (B r r' p Hr Hr'); apply range_belongs; assumption. Qed.
Lemma has_value_iff {V} (c : nat -> cvalue V) r : AutoInsertSpec.has_value c r <-> has_value c r.
Proof. split; intros (p & v & Hp & Hv); exists p, v; (split; [apply range_belongs; exact Hp|exact Hv]). Qed.
Lemma styled_animations_iff {V} regs (f : aframe V) : AutoInsertSpec.styled_animations regs f -> styled_animations regs f.
Proof. intros H r Hr Ha. apply has_value_iff, H; [exact Hr|]. apply has_value_iff, Ha. Qed.

Section Proofs.
  Context {V : Type} (accepts : nat -> V -> bool) (veq : forall a b : V, {a = b} + {a <> b}).

  Lemma internal_apply_outside ids : forall c vals any q, ~ In q ids -> snd (fst (internal_apply accepts ids c vals any)) q = vals q.
  Proof.
    induction ids as [|p ids IH]; intros c vals any q Hq; [reflexivity|]. cbn [internal_apply In] in *.
    destruct (vals p) as [v|] eqn:Ev; [|apply IH; tauto]. destruct (accepts p v); [rewrite IH by tauto|cbn [fst snd]];
    unfold take; destruct (Nat.eqb_spec q p) as [Ee|]; subst; tauto.
  Qed.
  Lemma internal_apply_none ids : forall c vals any, (forall p, In p ids -> vals p = None) -> internal_apply accepts ids c vals any = (c, vals, Some any).
  Proof.
    induction ids as [|p ids IH]; intros c vals any H; [reflexivity|]. cbn [internal_apply]. rewrite (H p (or_introl eq_refl)).
    apply IH. intros q Hq. apply H. right. exact Hq.
  Qed.
  Lemma internal_apply_any ids : forall c vals, (forall p v, In p ids -> vals p = Some v -> accepts p v = true) ->
    snd (internal_apply accepts ids c vals true) = Some true.
  Proof.
    induction ids as [|p ids IH]; intros c vals H; [reflexivity|]. cbn [internal_apply]. destruct (vals p) as [v|] eqn:Ev.
    - rewrite (H p v (or_introl eq_refl) Ev). apply IH. intros q x Hq Hx. unfold take in Hx. destruct (Nat.eqb q p); [discriminate|]. apply H; [right; exact Hq|exact Hx].
    - apply IH. intros q x Hq Hx. apply H; [right; exact Hq|exact Hx].
  Qed.
  Lemma internal_apply_some ids : forall c vals p v, (forall p v, In p ids -> vals p = Some v -> accepts p v = true) -> In p ids -> vals p = Some v ->
    snd (internal_apply accepts ids c vals false) = Some true.
  Proof.
    induction ids as [|q ids IH]; intros c vals p v H Hi Hv; [destruct Hi|]. cbn [internal_apply]. destruct (vals q) as [x|] eqn:Ex.
    - rewrite (H q x (or_introl eq_refl) Ex). apply internal_apply_any. intros y z Hy Hz. unfold take in Hz. destruct (Nat.eqb y q); [discriminate|]. apply H; [right; exact Hy|exact Hz].
    - destruct Hi as [->|Hi]; [congruence|]. eapply IH; eauto. intros y z Hy Hz. apply H; [right; exact Hy|exact Hz].
  Qed.

  Definition cmd_type (c : command V) : nat := match c with Insert t _ => t | Event t => t | Remove t => t end.
  Lemma run_other q : forall s t, (forall c, In c q -> cmd_type c <> t) ->
    fst (run_commands q s) t = fst s t /\ (In t (snd (run_commands q s)) <-> In t (snd s)).
  Proof.
    induction q as [|c q IH]; intros s t H; [split; [reflexivity|tauto]|].
    change (run_commands (c :: q) s) with (run_commands q (run_command c s)).
    destruct (IH (run_command c s) t (fun x Hx => H x (or_intror Hx))) as [H1 H2]. rewrite H1, H2.
    pose proof (H c (or_introl eq_refl)) as Hc. destruct c as [u x|u|u]; cbn [run_command fst snd cmd_type] in *.
    - split; [|tauto]. unfold set_comp. destruct (Nat.eqb_spec t u); [congruence|reflexivity].
    - split; [reflexivity|]. cbn [In]. tauto.
    - split; [|tauto]. unfold set_comp. destruct (Nat.eqb_spec t u); [congruence|reflexivity].
  Qed.
  Lemma run_app q q' s : run_commands (V := V) (q ++ q') s = run_commands q' (run_commands q s).
  Proof. unfold run_commands. apply fold_left_app. Qed.

  (** ** One registration *)
  Lemma apply_values_shape r m vals m' vals' q : apply_values_mut accepts r m vals = (m', vals', q) ->
    (forall t, t <> r_type r -> m' t = m t) /\ (m' (r_type r) = None <-> m (r_type r) = None) /\
    (forall p, ~ In p (r_range r) -> vals' p = vals p) /\
    (q = [] \/ (exists c, q = [Insert (r_type r) c] /\ m (r_type r) <> None) \/
     (exists c, q = [Insert (r_type r) c; Event (r_type r)] /\ m (r_type r) = None /\ r_auto r = true)) /\
    ((forall p, In p (r_range r) -> vals p = None) -> m (r_type r) = None -> q = []) /\
    ((forall p v, In p (r_range r) -> vals p = Some v -> accepts p v = true) -> (exists p v, In p (r_range r) /\ vals p = Some v) ->
     m (r_type r) = None -> r_auto r = true -> exists c, q = [Insert (r_type r) c; Event (r_type r)]).
  Proof.
    unfold apply_values_mut, apply_values_ref. intros E.
    destruct (r_mutable r) eqn:Em; cbn [negb] in E.
    - destruct (m (r_type r)) as [c|] eqn:Ec.
      + pose proof (internal_apply_outside (r_range r) c vals false) as Ho.
        destruct (internal_apply accepts (r_range r) c vals false) as [[c' v'] o] eqn:Ei. injection E as <- <- <-. cbn [fst snd] in Ho.
        split; [intros t Ht; unfold set_comp; destruct (Nat.eqb_spec t (r_type r)); [congruence|reflexivity]|].
        split; [unfold set_comp; rewrite Nat.eqb_refl; split; discriminate|]. split; [exact Ho|].
        split; [left; reflexivity|]. split; [discriminate|]. discriminate.
      + destruct (r_auto r) eqn:Ea.
        * pose proof (internal_apply_outside (r_range r) (r_default r) vals false) as Ho.
          pose proof (internal_apply_none (r_range r) (r_default r) vals false) as Hn.
          pose proof (internal_apply_some (r_range r) (r_default r) vals) as Hs.
          destruct (internal_apply accepts (r_range r) (r_default r) vals false) as [[c' v'] o] eqn:Ei. cbn [fst snd] in Ho, Hs.
          assert (m' = m /\ vals' = v' /\ q = (if match o with Some b => b | None => false end then [Insert (r_type r) c'; Event (r_type r)] else [])) as (-> & -> & ->).
          { destruct o as [[]|]; injection E as <- <- <-; auto. }
          split; [reflexivity|]. split; [rewrite Ec; tauto|]. split; [exact Ho|]. split; [|split].
          -- destruct o as [[]|]; auto. right. right. exists c'. auto.
          -- intros Hall _. specialize (Hn Hall). injection Hn as _ _ ->. reflexivity.
          -- intros Hacc (p & v & Hp & Hv) _ _. rewrite (Hs p v Hacc Hp Hv). eauto.
        * injection E as <- <- <-. split; [reflexivity|]. split; [rewrite Ec; tauto|]. split; [reflexivity|]. split; [left; reflexivity|].
          split; [reflexivity|]. discriminate.
    - destruct (m (r_type r)) as [c|] eqn:Ec.
      + pose proof (internal_apply_outside (r_range r) c vals false) as Ho.
        destruct (internal_apply accepts (r_range r) c vals false) as [[c' v'] o] eqn:Ei. cbn [fst snd] in Ho.
        assert (m' = m /\ vals' = v' /\ q = (if match o with Some b => b | None => false end then [Insert (r_type r) c'] else [])) as (-> & -> & ->).
        { destruct o as [[]|]; injection E as <- <- <-; auto. }
        split; [reflexivity|]. split; [rewrite Ec; tauto|]. split; [exact Ho|]. split; [|split; discriminate].
        destruct o as [[]|]; auto. right. left. exists c'. split; [reflexivity|]. discriminate.
      + destruct (r_auto r) eqn:Ea.
        * pose proof (internal_apply_outside (r_range r) (r_default r) vals false) as Ho.
          pose proof (internal_apply_none (r_range r) (r_default r) vals false) as Hn.
          pose proof (internal_apply_some (r_range r) (r_default r) vals) as Hs.
          destruct (internal_apply accepts (r_range r) (r_default r) vals false) as [[c' v'] o] eqn:Ei. cbn [fst snd] in Ho, Hs.
          assert (m' = m /\ vals' = v' /\ q = (if match o with Some b => b | None => false end then [Insert (r_type r) c'; Event (r_type r)] else [])) as (-> & -> & ->).
          { destruct o as [[]|]; injection E as <- <- <-; auto. }
          split; [reflexivity|]. split; [rewrite Ec; tauto|]. split; [exact Ho|]. split; [|split].
          -- destruct o as [[]|]; auto. right. right. exists c'. auto.
          -- intros Hall _. specialize (Hn Hall). injection Hn as _ _ ->. reflexivity.
          -- intros Hacc (p & v & Hp & Hv) _ _. rewrite (Hs p v Hacc Hp Hv). eauto.
        * injection E as <- <- <-. split; [reflexivity|]. split; [rewrite Ec; tauto|]. split; [reflexivity|]. split; [left; reflexivity|].
          split; [reflexivity|]. discriminate.
  Qed.

  (** ** All registrations *)
  Lemma apply_all_other regs : forall m vals m' q t, apply_all accepts regs m vals = (m', q) -> ~ In t (map r_type regs) ->
    m' t = m t /\ forall c, In c q -> cmd_type c <> t.
  Proof.
    induction regs as [|r regs IH]; intros m vals m' q t E Ht; cbn [apply_all map In] in *.
    - injection E as <- <-. split; [reflexivity|]. intros c [].
    - destruct (apply_values_mut accepts r m vals) as [[m1 v1] q1] eqn:E1. destruct (apply_all accepts regs m1 v1) as [m2 q2] eqn:E2. injection E as <- <-.
      destruct (apply_values_shape _ _ _ _ _ _ E1) as (H1 & _ & _ & H4 & _ & _).
      destruct (IH _ _ _ _ t E2) as [I1 I2]; [tauto|]. split; [rewrite I1; apply H1; intros ->; tauto|].
      intros c Hc. apply in_app_iff in Hc. destruct Hc as [Hc|Hc]; [|apply I2, Hc].
      assert (cmd_type c = r_type r) as ->; [|tauto].
      destruct H4 as [->|[(x & -> & _)|(x & -> & _)]]; cbn [In] in Hc; [tauto| |]; destruct Hc as [<-|[<-|[]]] || destruct Hc as [<-|[]]; reflexivity.
  Qed.
  Inductive effect (r : registration V) (m : nat -> option (nat -> V)) (m' : nat -> option (nat -> V)) (a a' : list nat) : Prop :=
  | eff_kept : m (r_type r) <> None -> m' (r_type r) <> None -> (In (r_type r) a' <-> In (r_type r) a) -> effect r m m' a a'
  | eff_absent : m (r_type r) = None -> m' (r_type r) = None -> (In (r_type r) a' <-> In (r_type r) a) -> effect r m m' a a'
  | eff_inserted : m (r_type r) = None -> r_auto r = true -> m' (r_type r) <> None -> In (r_type r) a' -> effect r m m' a a'.
  Lemma apply_all_effect regs : forall m vals m' q a r, apply_all accepts regs m vals = (m', q) -> NoDup (map r_type regs) ->
    (forall r1 r2 p, In r1 regs -> In r2 regs -> In p (r_range r1) -> In p (r_range r2) -> r1 = r2) -> In r regs ->
    let s := run_commands q (m', a) in
    effect r m (fst s) a (snd s) /\
    (m (r_type r) = None -> (forall p, In p (r_range r) -> vals p = None) -> fst s (r_type r) = None) /\
    (m (r_type r) = None -> r_auto r = true -> (forall p v, In p (r_range r) -> vals p = Some v -> accepts p v = true) ->
     (exists p v, In p (r_range r) /\ vals p = Some v) -> fst s (r_type r) <> None).
  Proof.
    induction regs as [|r0 regs IH]; intros m vals m' q a r E Hnd Hdis Hr; [destruct Hr|]. cbn [apply_all map] in *.
    destruct (apply_values_mut accepts r0 m vals) as [[m1 v1] q1] eqn:E1. destruct (apply_all accepts regs m1 v1) as [m2 q2] eqn:E2. injection E as <- <-.
    inversion Hnd as [|t0 ts Hn0 Hnd0]; subst. destruct (apply_values_shape _ _ _ _ _ _ E1) as (H1 & H2 & H3 & H4 & H5 & H6).
    rewrite run_app. destruct (Nat.eq_dec (r_type r) (r_type r0)) as [Et|Et].
    - (* the registration itself *)
      assert (r = r0) as ->. { destruct Hr as [->|Hr]; [reflexivity|]. exfalso. apply Hn0. rewrite <- Et. apply in_map, Hr. }
      destruct (apply_all_other _ _ _ _ _ (r_type r0) E2 Hn0) as [I1 I2].
      destruct (run_other q2 (run_commands q1 (m2, a)) (r_type r0) I2) as [J1 J2]. cbv zeta.
      assert (Hm2 : m2 (r_type r0) = None <-> m (r_type r0) = None) by (rewrite I1; exact H2).
      assert (K : forall c, fst (run_commands [Insert (r_type r0) c] (m2, a)) (r_type r0) = Some c) by (intros c; cbn; unfold set_comp; rewrite Nat.eqb_refl; reflexivity).
      assert (K' : forall c, fst (run_commands [Insert (r_type r0) c; Event (r_type r0)] (m2, a)) (r_type r0) = Some c) by (intros c; cbn; unfold set_comp; rewrite Nat.eqb_refl; reflexivity).
      rewrite J1. split; [|split].
      + destruct H4 as [->|[(c & -> & Hp)|(c & -> & Hp & Ha)]].
        * cbn [run_commands fold_left fst snd] in J2. destruct (m (r_type r0)) as [x|] eqn:Em.
          -- apply eff_kept; [congruence|rewrite J1; cbn [run_commands fold_left fst]; rewrite Hm2; discriminate|exact J2].
          -- apply eff_absent; [exact Em|rewrite J1; cbn [run_commands fold_left fst]; apply Hm2; reflexivity|exact J2].
        * apply eff_kept; [exact Hp|rewrite J1, K; discriminate|rewrite J2; reflexivity].
        * apply eff_inserted; [exact Hp|exact Ha|rewrite J1, K'; discriminate|apply J2; left; reflexivity].
      + intros Hm Hv. rewrite (H5 Hv Hm). cbn [run_commands fold_left fst]. apply Hm2, Hm.
      + intros Hm Ha Hacc Hex. destruct (H6 Hacc Hex Hm Ha) as [c ->]. rewrite K'. discriminate.
    - destruct Hr as [->|Hr]; [congruence|].
      specialize (IH m1 v1 m2 q2 (snd (run_commands q1 (m2, a))) r E2 Hnd0 (fun r1 r2 p A B => Hdis r1 r2 p (or_intror A) (or_intror B)) Hr).
      assert (Hq1 : forall c, In c q1 -> cmd_type c <> r_type r).
      { intros c Hc. assert (cmd_type c = r_type r0) as ->; [|congruence].
        destruct H4 as [->|[(x & -> & _)|(x & -> & _)]]; cbn [In] in Hc; [tauto| |]; destruct Hc as [<-|[<-|[]]] || destruct Hc as [<-|[]]; reflexivity. }
      destruct (run_other q1 (m2, a) (r_type r) Hq1) as [J1 J2]. cbn [fst snd] in J1, J2.
      assert (Em : m1 (r_type r) = m (r_type r)) by (apply H1; exact Et).
      assert (Ev : forall p, In p (r_range r) -> v1 p = vals p).
      { intros p Hp. apply H3. intros Hp0. apply Et. f_equal. apply (Hdis r r0 p); auto; [right; exact Hr|left; reflexivity]. }
      (* running q2 depends on the state only through what it overwrites *)
      assert (Q : forall q (s s' : (nat -> option (nat -> V)) * list nat) t, fst s t = fst s' t -> (In t (snd s) <-> In t (snd s')) ->
                 fst (run_commands q s) t = fst (run_commands q s') t /\ (In t (snd (run_commands q s)) <-> In t (snd (run_commands q s')))).
      { clear. induction q as [|c q IH]; intros s s' t Hf Hs; [split; assumption|].
        change (run_commands (c :: q) s) with (run_commands q (run_command c s)). change (run_commands (c :: q) s') with (run_commands q (run_command c s')).
        apply IH; destruct c as [u x|u|u]; cbn [run_command fst snd]; unfold set_comp; cbn [In]; try destruct (Nat.eqb t u); auto; tauto. }
      destruct (Q q2 (run_commands q1 (m2, a)) (m2, snd (run_commands q1 (m2, a))) (r_type r) J1 (iff_refl _)) as [Q1 Q2].
      cbv zeta in *. destruct IH as (IH1 & IH2 & IH3). rewrite Em in IH2, IH3. split; [|split].
      + destruct IH1 as [A B C|A B C|A A' B C]; rewrite Em in A.
        * apply eff_kept; [exact A|rewrite Q1; exact B|rewrite Q2, C; exact J2].
        * apply eff_absent; [exact A|rewrite Q1; exact B|rewrite Q2, C; exact J2].
        * apply eff_inserted; [exact A|exact A'|rewrite Q1; exact B|apply Q2, C].
      + intros Hm Hv. rewrite Q1. apply IH2; [exact Hm|]. intros p Hp. rewrite (Ev p Hp). apply Hv, Hp.
      + intros Hm Ha Hacc (p & v & Hp & Hv). rewrite Q1. apply IH3; auto.
        * intros p' v' Hp' Hv'. rewrite (Ev p' Hp') in Hv'. apply Hacc; assumption.
        * exists p, v. rewrite (Ev p Hp). auto.
  Qed.

  (** ** Removal *)
  Lemma auto_remove_loop_other regs : forall m computed a q a' t, auto_remove_loop regs m computed a = (q, a') -> ~ In t (map r_type regs) ->
    (forall c, In c q -> cmd_type c <> t) /\ (In t a' <-> In t a).
  Proof.
    induction regs as [|r regs IH]; intros m computed a q a' t E Ht; cbn [auto_remove_loop map In] in *.
    - injection E as <- <-. split; [intros c []|tauto].
    - destruct (negb (existsb (Nat.eqb (r_type r)) a)); [apply (IH m computed a q a' t E); tauto|].
      destruct (r_auto r && _ && _); [|apply (IH m computed a q a' t E); tauto].
      destruct (auto_remove_loop regs m computed _) as [q1 a1] eqn:E1. injection E as <- <-.
      destruct (IH _ _ _ _ _ t E1) as [I1 I2]; [tauto|]. split.
      + intros c [<-|Hc]; [cbn [cmd_type]; tauto|apply I1, Hc].
      + rewrite I2, filter_In. destruct (Nat.eqb_spec t (r_type r)) as [Ee|]; [subst; tauto|]. tauto.
  Qed.
  Lemma existsb_In' n l : existsb (Nat.eqb n) l = true <-> In n l.
  Proof. rewrite existsb_exists. split; [intros (x & Hx & E); apply Nat.eqb_eq in E; subst; exact Hx|intros H; exists n; split; [exact H|apply Nat.eqb_refl]]. Qed.
  Definition removes (r : registration V) (m : nat -> option (nat -> V)) (computed : nat -> cvalue V) (a : list nat) : Prop :=
    In (r_type r) a /\ r_auto r = true /\ m (r_type r) <> None /\ ~ has_value computed r.
  Lemma none_has computed r : forallb (fun p => negb (is_value (V := V) (computed p))) (r_range r) = true <-> ~ has_value computed r.
  Proof.
    rewrite forallb_forall. unfold has_value. split.
    - intros H (p & v & Hp & Hv). specialize (H p Hp). rewrite Hv in H. discriminate.
    - intros H p Hp. destruct (computed p) as [|v] eqn:E; [reflexivity|]. exfalso. apply H. eauto.
  Qed.
  Lemma auto_remove_loop_effect regs : forall m computed a q a' r, auto_remove_loop regs m computed a = (q, a') -> NoDup (map r_type regs) -> In r regs ->
    (removes r m computed a /\ (forall s, fst (run_commands q s) (r_type r) = None) /\ (forall s, In (r_type r) (snd (run_commands q s)) <-> In (r_type r) (snd s)) /\ ~ In (r_type r) a') \/
    (~ removes r m computed a /\ (forall s, fst (run_commands q s) (r_type r) = fst s (r_type r)) /\ (forall s, In (r_type r) (snd (run_commands q s)) <-> In (r_type r) (snd s)) /\ (In (r_type r) a' <-> In (r_type r) a)).
  Proof.
    induction regs as [|r0 regs IH]; intros m computed a q a' r E Hnd Hr; [destruct Hr|]. cbn [auto_remove_loop map] in *.
    inversion Hnd as [|t0 ts Hn0 Hnd0]; subst.
    destruct (Nat.eq_dec (r_type r) (r_type r0)) as [Et|Et].
    - assert (r = r0) as ->. { destruct Hr as [->|Hr]; [reflexivity|]. exfalso. apply Hn0. rewrite <- Et. apply in_map, Hr. }
      destruct (existsb (Nat.eqb (r_type r0)) a) eqn:Ea; cbn [negb] in E.
      + apply existsb_In' in Ea. destruct (r_auto r0) eqn:Eau; cbn [andb] in E.
        2:{ destruct (auto_remove_loop_other _ _ _ _ _ _ (r_type r0) E Hn0) as [I1 I2]. right. split; [intros (_ & H & _); congruence|].
            split; [intros s; apply run_other, I1|]. split; [intros s; apply run_other, I1|exact I2]. }
        destruct (m (r_type r0)) as [x|] eqn:Em; cbn [andb] in E.
        2:{ destruct (auto_remove_loop_other _ _ _ _ _ _ (r_type r0) E Hn0) as [I1 I2]. right. split; [intros (_ & _ & H & _); congruence|].
            split; [intros s; apply run_other, I1|]. split; [intros s; apply run_other, I1|exact I2]. }
        destruct (forallb (fun p => negb (is_value (computed p))) (r_range r0)) eqn:Ef.
        * destruct (auto_remove_loop regs m computed _) as [q1 a1] eqn:E1. injection E as <- <-.
          destruct (auto_remove_loop_other _ _ _ _ _ _ (r_type r0) E1 Hn0) as [I1 I2]. left.
          split; [split; [exact Ea|split; [exact Eau|split; [congruence|apply none_has, Ef]]]|]. split; [|split].
          -- intros s. change (run_commands (Remove (r_type r0) :: q1) s) with (run_commands q1 (run_command (Remove (r_type r0)) s)).
             rewrite (proj1 (run_other q1 _ _ I1)). cbn [run_command fst]. unfold set_comp. rewrite Nat.eqb_refl. reflexivity.
          -- intros s. change (run_commands (Remove (r_type r0) :: q1) s) with (run_commands q1 (run_command (Remove (r_type r0)) s)).
             rewrite (proj2 (run_other q1 _ _ I1)). reflexivity.
          -- rewrite I2, filter_In. rewrite Nat.eqb_refl. intros [_ H]. discriminate.
        * destruct (auto_remove_loop_other _ _ _ _ _ _ (r_type r0) E Hn0) as [I1 I2]. right.
          split; [intros (_ & _ & _ & H); apply none_has in H; congruence|].
          split; [intros s; apply run_other, I1|]. split; [intros s; apply run_other, I1|exact I2].
      + destruct (auto_remove_loop_other _ _ _ _ _ _ (r_type r0) E Hn0) as [I1 I2]. right.
        split; [intros (H & _); apply existsb_In' in H; congruence|].
        split; [intros s; apply run_other, I1|]. split; [intros s; apply run_other, I1|exact I2].
    - destruct Hr as [->|Hr]; [congruence|].
      destruct (negb (existsb (Nat.eqb (r_type r0)) a)); [apply (IH m computed a q a' r E Hnd0 Hr)|].
      destruct (r_auto r0 && _ && _); [|apply (IH m computed a q a' r E Hnd0 Hr)].
      destruct (auto_remove_loop regs m computed _) as [q1 a1] eqn:E1. injection E as <- <-.
      assert (Hf : In (r_type r) (filter (fun t => negb (Nat.eqb t (r_type r0))) a) <-> In (r_type r) a).
      { rewrite filter_In. destruct (Nat.eqb_spec (r_type r) (r_type r0)); [congruence|]. tauto. }
      assert (Hrem : removes r m computed (filter (fun t => negb (Nat.eqb t (r_type r0))) a) <-> removes r m computed a) by (unfold removes; rewrite Hf; tauto).
      destruct (IH _ _ _ _ _ r E1 Hnd0 Hr) as [(A & B & C & D)|(A & B & C & D)].
      + left. split; [apply Hrem, A|]. split; [intros s; apply B|]. split; [intros s|exact D].
        change (run_commands (Remove (r_type r0) :: q1) s) with (run_commands q1 (run_command (Remove (r_type r0)) s)). rewrite C. reflexivity.
      + right. split; [rewrite <- Hrem; exact A|]. split; [|split; [|rewrite D; exact Hf]]; intros s;
        change (run_commands (Remove (r_type r0) :: q1) s) with (run_commands q1 (run_command (Remove (r_type r0)) s)); [rewrite B|rewrite C; reflexivity].
        cbn [run_command fst]. unfold set_comp. destruct (Nat.eqb_spec (r_type r) (r_type r0)); [congruence|reflexivity].
  Qed.
  Lemma auto_remove_effect regs (e : entity V) r : NoDup (map r_type regs) -> In r regs ->
    let e' := auto_remove regs e in
    e_computed e' = e_computed e /\ e_last_anim e' = e_last_anim e /\
    ((removes r (comps e) (e_computed e) (auto e) /\ comps e' (r_type r) = None /\ ~ In (r_type r) (auto e')) \/
     (~ removes r (comps e) (e_computed e) (auto e) /\ comps e' (r_type r) = comps e (r_type r) /\ (In (r_type r) (auto e') <-> In (r_type r) (auto e)))).
  Proof.
    intros Hnd Hr. unfold auto_remove. destruct (auto e) as [|a0 al] eqn:Ea.
    - split; [reflexivity|]. split; [reflexivity|]. right. split; [intros (H & _); destruct H|]. split; [reflexivity|]. rewrite Ea. tauto.
    - rewrite <- Ea. destruct (auto_remove_loop regs (comps e) (e_computed e) (auto e)) as [q a'] eqn:El.
      pose proof (auto_remove_loop_effect _ _ _ _ _ _ r El Hnd Hr) as H.
      destruct (run_commands q (comps e, a')) as [m a''] eqn:Er. cbn [e_computed e_last_anim comps auto]. split; [reflexivity|]. split; [reflexivity|].
      destruct H as [(A & B & C & D)|(A & B & C & D)].
      + left. specialize (B (comps e, a')). specialize (C (comps e, a')). rewrite Er in B, C. cbn [fst snd] in B, C. split; [exact A|]. split; [exact B|]. rewrite C. exact D.
      + right. specialize (B (comps e, a')). specialize (C (comps e, a')). rewrite Er in B, C. cbn [fst snd] in B, C. split; [exact A|]. split; [exact B|]. rewrite C. exact D.
  Qed.

  (** ** One frame, one registration *)
  Definition changes (f : aframe V) (p : nat) : option V :=
    match new_value veq (a_pending f p) (a_base f p) (a_panim f p) (a_last f p) with Some (CVal v) => Some v | _ => None end.
  Inductive step_effect (f : aframe V) (r : registration V) (e e' : entity V) : Prop :=
  | st_kept : comps e (r_type r) <> None -> comps e' (r_type r) <> None -> (In (r_type r) (auto e') <-> In (r_type r) (auto e)) ->
      (a_changed f = true -> In (r_type r) (auto e) -> r_auto r = true -> has_value (a_pending f) r) -> step_effect f r e e'
  | st_removed : comps e (r_type r) <> None -> comps e' (r_type r) = None -> In (r_type r) (auto e) -> ~ In (r_type r) (auto e') ->
      ~ has_value (a_pending f) r -> a_changed f = true -> r_auto r = true -> step_effect f r e e'
  | st_absent : comps e (r_type r) = None -> comps e' (r_type r) = None -> (In (r_type r) (auto e') -> In (r_type r) (auto e)) -> step_effect f r e e'
  | st_inserted : comps e (r_type r) = None -> r_auto r = true -> comps e' (r_type r) <> None -> In (r_type r) (auto e') ->
      (a_changed f = true -> has_value (a_pending f) r) -> step_effect f r e e'
  | st_undone : comps e (r_type r) = None -> r_auto r = true -> comps e' (r_type r) = None -> ~ In (r_type r) (auto e') ->
      ~ has_value (a_pending f) r -> a_changed f = true -> step_effect f r e e'.
  Lemma frame_effect regs f (e : entity V) r : good_registry regs -> In r regs ->
    let e' := aframe_step accepts veq regs f e in
    e_computed e' = a_pending f /\ e_last_anim e' = a_panim f /\ step_effect f r e e' /\
    (comps e (r_type r) = None -> (forall p, In p (r_range r) -> changes f p = None) -> comps e' (r_type r) = None) /\
    (comps e (r_type r) = None -> r_auto r = true -> (forall p v, In p (r_range r) -> changes f p = Some v -> accepts p v = true) ->
     (exists p v, In p (r_range r) /\ changes f p = Some v) -> has_value (a_pending f) r -> comps e' (r_type r) <> None).
  Proof.
    intros [Hnd Hdis] Hr. unfold aframe_step. fold (changes f).
    destruct (apply_all accepts regs (comps e) (changes f)) as [m q] eqn:Ea.
    pose proof (apply_all_effect regs _ _ _ _ (auto e) r Ea Hnd Hdis Hr) as He. cbv zeta in He.
    destruct (run_commands q (m, auto e)) as [m' a'] eqn:Eq. cbn [fst snd] in He. destruct He as (He & Hn & Hs).
    destruct (a_changed f) eqn:Ec.
    - pose proof (auto_remove_effect regs (mk_entity m' a' (a_pending f) (a_panim f)) r Hnd Hr) as Hrem. cbv zeta in Hrem.
      destruct Hrem as (E1 & E2 & Hrem). cbn [e_computed e_last_anim comps auto] in *. cbv zeta.
      split; [exact E1|]. split; [exact E2|]. split; [|split].
      + destruct Hrem as [((R1 & R2 & R3 & R4) & Hc & Hi)|(R & Hc & Hi)].
        * destruct He as [A B C|A B C|A A' B C].
          -- apply st_removed; auto. apply C, R1.
          -- congruence.
          -- apply st_undone; auto.
        * destruct He as [A B C|A B C|A A' B C].
          -- apply st_kept; auto; [rewrite Hc; exact B|rewrite Hi; exact C|]. intros _ Hia Hau.
             assert (D : forallb (fun p => negb (is_value (a_pending f p))) (r_range r) = true \/ has_value (a_pending f) r).
             { destruct (forallb (fun p => negb (is_value (a_pending f p))) (r_range r)) eqn:Ef; [left; reflexivity|right].
               destruct (existsb (fun p => is_value (a_pending f p)) (r_range r)) eqn:Ex.
               - apply existsb_exists in Ex. destruct Ex as (p & Hp & Hv). destruct (a_pending f p) as [|v] eqn:Ep; [discriminate|]. exists p, v. auto.
               - exfalso. rewrite <- not_true_iff_false in Ef. apply Ef. apply forallb_forall. intros p Hp. rewrite <- not_true_iff_false in Ex.
                 destruct (a_pending f p) as [|v] eqn:Ep; [reflexivity|]. exfalso. apply Ex. apply existsb_exists. exists p. rewrite Ep. auto. }
             destruct D as [D|D]; [|exact D]. exfalso. apply R. split; [apply C, Hia|]. split; [exact Hau|]. split; [exact B|]. apply none_has, D.
          -- apply st_absent; auto; [rewrite Hc; exact B|]. intros H. apply C, Hi, H.
          -- apply st_inserted; auto; [rewrite Hc; exact B|apply Hi, C|]. intros _.
             destruct (existsb (fun p => is_value (a_pending f p)) (r_range r)) eqn:Ex.
             ++ apply existsb_exists in Ex. destruct Ex as (p & Hp & Hv). destruct (a_pending f p) as [|v] eqn:Ep; [discriminate|]. exists p, v. auto.
             ++ exfalso. apply R. split; [exact C|]. split; [exact A'|]. split; [exact B|]. intros (p & v & Hp & Hv).
                rewrite <- not_true_iff_false in Ex. apply Ex. apply existsb_exists. exists p. rewrite Hv. auto.
      + intros Hm Hv. specialize (Hn Hm Hv). destruct Hrem as [((R1 & R2 & R3 & R4) & Hc & Hi)|(R & Hc & Hi)]; [exact Hc|rewrite Hc; exact Hn].
      + intros Hm Hau Hacc Hex Hhv. specialize (Hs Hm Hau Hacc Hex). destruct Hrem as [((R1 & R2 & R3 & R4) & Hc & Hi)|(R & Hc & Hi)]; [tauto|rewrite Hc; exact Hs].
    - cbv zeta. cbn [e_computed e_last_anim comps auto]. split; [reflexivity|]. split; [reflexivity|]. split; [|split].
      + destruct He as [A B C|A B C|A A' B C].
        * apply st_kept; auto. intros H; congruence.
        * apply st_absent; auto. apply C.
        * apply st_inserted; auto. intros H; congruence.
      + exact Hn.
      + intros Hm Hau Hacc Hex _. apply Hs; assumption.
  Qed.
  Lemma frame_unregistered regs f (e : entity V) t : ~ In t (map r_type regs) ->
    let e' := aframe_step accepts veq regs f e in comps e' t = comps e t.
  Proof.
    intros Ht. unfold aframe_step. fold (changes f).
    destruct (apply_all accepts regs (comps e) (changes f)) as [m q] eqn:Ea.
    destruct (apply_all_other regs _ _ _ _ t Ea Ht) as [H1 H2].
    pose proof (proj1 (run_other q (m, auto e) t H2)) as H3. destruct (run_commands q (m, auto e)) as [m' a'] eqn:Eq. cbn [fst] in H3.
    cbv zeta. destruct (a_changed f); [|cbn [comps]; congruence].
    unfold auto_remove. cbn [auto comps e_computed e_last_anim]. destruct a' as [|a0 al]; [cbn [comps]; congruence|].
    destruct (auto_remove_loop regs m' (a_pending f) (a0 :: al)) as [q' b] eqn:El.
    destruct (auto_remove_loop_other _ _ _ _ _ _ t El Ht) as [I1 _].
    pose proof (proj1 (run_other q' (m', b) t I1)) as H4. destruct (run_commands q' (m', b)) as [m'' a'']. cbn [fst comps] in *. congruence.
  Qed.

  (** ** Ownership *)
  Definition own (regs : list (registration V)) (s : owned V) : Prop :=
    (forall t, In t (o_mine s) -> comps (o_entity s) t <> None) /\
    (forall r, In r regs -> In (r_type r) (auto (o_entity s)) -> comps (o_entity s) (r_type r) <> None /\ ~ In (r_type r) (o_mine s)).
  Lemma in_types regs t : In t (map r_type regs) -> exists r : registration V, In r regs /\ r_type r = t.
  Proof. intros H. apply in_map_iff in H. destruct H as (r & <- & H). eauto. Qed.
  Lemma own_user regs u s : own regs s -> considerate u s -> own regs (user_step u s).
  Proof.
    intros [O1 O2] Hp. destruct u as [t c|t c|t]; cbn [considerate user_step] in *.
    - split; cbn [o_entity o_mine put comps auto].
      + intros t' [<-|Ht']; [rewrite Nat.eqb_refl; discriminate|]. destruct (Nat.eqb t' t); [discriminate|apply O1, Ht'].
      + intros r Hr Hi. destruct (O2 r Hr Hi) as [A B]. destruct (Nat.eqb_spec (r_type r) t) as [E|E]; [congruence|].
        split; [exact A|]. cbn [In]. intros [E'|E']; [congruence|tauto].
    - destruct (comps (o_entity s) t) as [x|] eqn:Et; [|split; [exact O1|exact O2]].
      split; cbn [o_entity o_mine put comps auto].
      + intros t' Ht'. destruct (Nat.eqb t' t); [discriminate|apply O1, Ht'].
      + intros r Hr Hi. destruct (O2 r Hr Hi) as [A B]. split; [|exact B]. destruct (Nat.eqb (r_type r) t); [discriminate|exact A].
    - split; cbn [o_entity o_mine put comps auto].
      + intros t' Ht'. apply filter_In in Ht'. destruct Ht' as [Ht' Hne]. destruct (Nat.eqb t' t); [discriminate|]. apply O1, Ht'.
      + intros r Hr Hi. destruct (O2 r Hr Hi) as [A B]. destruct (Nat.eqb_spec (r_type r) t) as [E|E]; [rewrite E in B; tauto|].
        split; [exact A|]. rewrite filter_In. tauto.
  Qed.
  Lemma polite_considerate (u : user_op V) s : polite u s -> considerate u s.
  Proof. destruct u; cbn; tauto. Qed.
  Lemma own_frame regs f s : good_registry regs -> own regs s -> own regs (event_step accepts veq regs (Frame f) s).
  Proof.
    intros Hg [O1 O2]. split; cbn [event_step o_entity o_mine].
    - intros t Ht. destruct (in_dec Nat.eq_dec t (map r_type regs)) as [Hi|Hi].
      + destruct (in_types _ _ Hi) as (r & Hr & <-). destruct (frame_effect regs f (o_entity s) r Hg Hr) as (_ & _ & H & _).
        specialize (O1 _ Ht). destruct H as [A B C D|A B C D E E'|A B C|A A' B C D|A A' B C D E]; try congruence.
        exfalso. apply (proj2 (O2 r Hr C)), Ht.
      + rewrite (frame_unregistered regs f (o_entity s) t Hi). apply O1, Ht.
    - intros r Hr Hi. destruct (frame_effect regs f (o_entity s) r Hg Hr) as (_ & _ & H & _).
      destruct H as [A B C D|A B C D E E'|A B C|A A' B C D|A A' B C D E]; try tauto.
      + split; [exact B|]. apply (O2 r Hr), C, Hi.
      + exfalso. apply (proj1 (O2 r Hr (C Hi))), A.
      + split; [exact B|]. intros Hm. apply (O1 _ Hm), A.
  Qed.

  (** ** Presence *)
  Definition full (regs : list (registration V)) (s : owned V) : Prop :=
    own regs s /\ forall r, In r regs -> r_auto r = true ->
      (comps (o_entity s) (r_type r) <> None -> In (r_type r) (o_mine s) \/ In (r_type r) (auto (o_entity s))) /\
      (has_value (e_computed (o_entity s)) r -> comps (o_entity s) (r_type r) <> None) /\
      (has_value (e_last_anim (o_entity s)) r -> has_value (e_computed (o_entity s)) r) /\
      (In (r_type r) (auto (o_entity s)) -> has_value (e_computed (o_entity s)) r).
  Lemma full_user regs u s : full regs s -> polite u s -> full regs (user_step u s).
  Proof.
    intros [Ho Hf] Hp. split; [apply own_user; [assumption|apply polite_considerate, Hp]|]. intros r Hr Ha. destruct (Hf r Hr Ha) as (F1 & F2 & F3 & F4).
    destruct u as [t c|t c|t]; cbn [polite user_step] in *.
    - cbn [o_entity o_mine put comps auto e_computed e_last_anim]. destruct (Nat.eqb_spec (r_type r) t) as [E|E].
      + split; [intros _; left; left; congruence|]. split; [discriminate|]. auto.
      + split; [intros H; destruct (F1 H); [left; right; assumption|right; assumption]|]. auto.
    - destruct (comps (o_entity s) t) as [x|] eqn:Et; [|auto].
      cbn [o_entity o_mine put comps auto e_computed e_last_anim]. destruct (Nat.eqb_spec (r_type r) t) as [E|E]; [|auto].
      subst t. split; [intros _; apply F1; congruence|]. split; [discriminate|]. auto.
    - destruct Hp.
  Qed.
  Lemma new_value_fresh pend panim : new_value veq pend CNone panim CNone =
    match panim with CVal a => Some (CVal a) | CNone => match pend with CVal v => Some (CVal v) | CNone => None end end.
  Proof. destruct panim as [|a], pend as [|v]; reflexivity. Qed.
  Lemma changes_origin f p v : changes f p = Some v -> a_pending f p = CVal v \/ a_panim f p = CVal v.
  Proof.
    unfold changes, new_value. intros H. destruct (a_panim f p) as [|a]; cbn [is_value] in H.
    - left. destruct (a_pending f p) as [|x]; [|].
      + destruct (negb _); [destruct (ceqb veq CNone (a_last f p)); discriminate|destruct (ceqb veq (a_base f p) CNone); discriminate].
      + destruct (negb _); [destruct (ceqb veq (CVal x) (a_last f p)); congruence|destruct (ceqb veq (a_base f p) (CVal x)); congruence].
    - right. destruct (ceqb veq (CVal a) _); congruence.
  Qed.
  Lemma full_frame regs f s : good_registry regs -> full regs s -> sound_frame accepts f (o_entity s) -> styled_animations regs f ->
    full regs (event_step accepts veq regs (Frame f) s).
  Proof.
    intros Hg [Ho Hf] (S1 & S2 & S3) Hs. split; [apply own_frame; assumption|]. intros r Hr Ha. destruct (Hf r Hr Ha) as (F1 & F2 & F3 & F4).
    destruct (frame_effect regs f (o_entity s) r Hg Hr) as (E1 & E2 & He & Hn & Hi). cbn [event_step o_entity o_mine]. rewrite E1, E2.
    assert (Hfresh : comps (o_entity s) (r_type r) = None -> forall p, In p (r_range r) -> changes f p =
      match a_panim f p with CVal a => Some a | CNone => match a_pending f p with CVal v => Some v | CNone => None end end).
    { intros Hab p Hp. assert (Hc : e_computed (o_entity s) p = CNone).
      { destruct (e_computed (o_entity s) p) as [|v] eqn:E; [reflexivity|]. exfalso. apply F2; [exists p, v; auto|exact Hab]. }
      assert (Hla : e_last_anim (o_entity s) p = CNone).
      { destruct (e_last_anim (o_entity s) p) as [|v] eqn:E; [reflexivity|]. exfalso. apply F2; [apply F3; exists p, v; auto|exact Hab]. }
      unfold changes. assert (a_base f p = CNone /\ a_last f p = CNone) as [-> ->].
      { destruct (S2 p) as [H|[[H1 H2]|H]]; [exact H|split; congruence|congruence]. }
      rewrite new_value_fresh. destruct (a_panim f p); [destruct (a_pending f p)|]; reflexivity. }
    assert (Hpres : comps (o_entity s) (r_type r) = None -> has_value (a_pending f) r -> comps (aframe_step accepts veq regs f (o_entity s)) (r_type r) <> None).
    { intros Hab Hv. apply Hi; auto.
      - intros p v _ Hv'. apply S3, changes_origin, Hv'.
      - destruct Hv as (p & v & Hp & Hv). exists p. rewrite (Hfresh Hab p Hp). rewrite Hv. destruct (a_panim f p) as [|a]; [exists v|exists a]; auto. }
    assert (Hsame : a_changed f = false -> (has_value (a_pending f) r <-> has_value (e_computed (o_entity s)) r)).
    { intros Hc. pose proof (S1 Hc) as E. unfold has_value. split; intros (p & v & Hp & Hv); exists p, v; split; auto; rewrite E in * || rewrite <- E; assumption. }
    split; [|split; [|split]].
    - intros Hpr. destruct He as [A B C D|A B C D E E'|A B C|A A' B C D|A A' B C D E]; try congruence; [|right; exact C].
      destruct (F1 A) as [H|H]; [left; exact H|right; apply C, H].
    - intros Hv. destruct He as [A B C D|A B C D E E'|A B C|A A' B C D|A A' B C D E]; auto; exfalso; auto.
    - apply Hs, Hr.
    - intros Hia. destruct He as [A B C D|A B C D E E'|A B C|A A' B C D|A A' B C D E]; try tauto.
      + destruct (a_changed f) eqn:Ec; [apply D; [reflexivity|apply C, Hia|exact Ha]|]. apply Hsame; [reflexivity|]. apply F4, C, Hia.
      + destruct (a_changed f) eqn:Ec; [apply D; reflexivity|]. exfalso. apply B, (Hn A).
        intros p Hp. rewrite (Hfresh A p Hp).
        assert (Hnv : ~ has_value (a_pending f) r). { rewrite (Hsame eq_refl). intros H. apply (F2 H), A. }
        assert (Hna : ~ has_value (a_panim f) r) by (intros H; apply Hnv, (Hs r Hr H)).
        destruct (a_panim f p) as [|a] eqn:Ep; [|exfalso; apply Hna; exists p, a; auto].
        destruct (a_pending f p) as [|v] eqn:Eq; [reflexivity|exfalso; apply Hnv; exists p, v; auto].
  Qed.

  (** ** The values that reach a component *)
  Definition written (ids : list nat) (vals : nat -> option V) (c : nat -> V) (q : nat) : V :=
    if in_dec Nat.eq_dec q ids then match vals q with Some v => v | None => c q end else c q.
  Lemma internal_apply_fields ids : forall c vals any, (forall p v, In p ids -> vals p = Some v -> accepts p v = true) ->
    exists o, snd (internal_apply accepts ids c vals any) = Some o /\ (any = true -> o = true) /\
      (o = false -> forall p, In p ids -> vals p = None) /\
      forall q, fst (fst (internal_apply accepts ids c vals any)) q = written ids vals c q.
  Proof.
    induction ids as [|p ids IH]; intros c vals any H; cbn [internal_apply].
    - exists any. cbn [fst snd]. split; [reflexivity|]. split; [auto|]. split; [intros _ p []|]. intros q. unfold written. destruct (in_dec Nat.eq_dec q []) as [[]|]. reflexivity.
    - destruct (vals p) as [v|] eqn:Ev.
      + rewrite (H p v (or_introl eq_refl) Ev).
        destruct (IH (set_field c p v) (take vals p) true) as (o & E1 & E2 & E3 & E4).
        { intros q x Hq Hx. unfold take in Hx. destruct (Nat.eqb q p); [discriminate|]. apply H; [right; exact Hq|exact Hx]. }
        exists o. split; [exact E1|]. split; [auto|]. split; [intros Ho; rewrite E2 in Ho by reflexivity; discriminate|].
        intros q. rewrite E4. unfold written, take, set_field. destruct (Nat.eqb_spec q p) as [Eq|Eq].
        * subst q. destruct (in_dec Nat.eq_dec p (p :: ids)) as [_|Hn]; [|exfalso; apply Hn; left; reflexivity]. rewrite Ev. destruct (in_dec Nat.eq_dec p ids); reflexivity.
        * destruct (in_dec Nat.eq_dec q ids) as [Hi|Hi], (in_dec Nat.eq_dec q (p :: ids)) as [Hj|Hj]; try reflexivity; exfalso; cbn [In] in Hj; [tauto|].
          destruct Hj; [congruence|tauto].
      + destruct (IH c vals any) as (o & E1 & E2 & E3 & E4); [intros q x Hq Hx; apply H; [right; exact Hq|exact Hx]|].
        exists o. split; [exact E1|]. split; [exact E2|]. split.
        { intros Ho q [<-|Hq]; [exact Ev|apply E3; assumption]. }
        intros q. rewrite E4. unfold written.
        destruct (in_dec Nat.eq_dec q ids) as [Hi|Hi], (in_dec Nat.eq_dec q (p :: ids)) as [Hj|Hj]; try reflexivity.
        * exfalso; apply Hj. right. exact Hi.
        * destruct Hj as [<-|Hj]; [rewrite Ev; reflexivity|exfalso; exact (Hi Hj)].
  Qed.
  (** the component after the frame's writes, if it is there *)
  Definition shows (r : registration V) (vals : nat -> option V) (o o' : option (nat -> V)) : Prop :=
    forall c', o' = Some c' -> forall q, c' q = written (r_range r) vals (match o with Some c => c | None => r_default r end) q.
  Lemma apply_values_shows r m vals m' vals' q a : apply_values_mut accepts r m vals = (m', vals', q) ->
    (forall p v, In p (r_range r) -> vals p = Some v -> accepts p v = true) ->
    shows r vals (m (r_type r)) (fst (run_commands q (m', a)) (r_type r)).
  Proof.
    unfold apply_values_mut, apply_values_ref. intros E Hacc. unfold shows.
    assert (Hsame : forall c, (forall p, In p (r_range r) -> vals p = None) -> forall x, c x = written (r_range r) vals c x).
    { intros c Hn x. unfold written. destruct (in_dec Nat.eq_dec x (r_range r)) as [Hx|]; [rewrite (Hn x Hx)|]; reflexivity. }
    destruct (r_mutable r) eqn:Em; cbn [negb] in E; destruct (m (r_type r)) as [c|] eqn:Ec.
    - destruct (internal_apply_fields (r_range r) c vals false Hacc) as (o & E1 & _ & E3 & E4).
      destruct (internal_apply accepts (r_range r) c vals false) as [[c1 v1] o1]. cbn [fst snd] in *. injection E as <- <- <-.
      cbn [run_commands fold_left fst]. unfold set_comp. rewrite Nat.eqb_refl. intros c' Hc' x. injection Hc' as <-. apply E4.
    - destruct (r_auto r); [|injection E as <- <- <-; cbn [run_commands fold_left fst]; intros c' Hc'; congruence].
      destruct (internal_apply_fields (r_range r) (r_default r) vals false Hacc) as (o & E1 & _ & E3 & E4).
      destruct (internal_apply accepts (r_range r) (r_default r) vals false) as [[c1 v1] o1]. cbn [fst snd] in *. subst o1.
      destruct o; injection E as <- <- <-; cbn [run_commands fold_left run_command fst]; [|intros c' Hc'; congruence].
      unfold set_comp. rewrite Nat.eqb_refl. intros c' Hc' x. injection Hc' as <-. apply E4.
    - destruct (internal_apply_fields (r_range r) c vals false Hacc) as (o & E1 & _ & E3 & E4).
      destruct (internal_apply accepts (r_range r) c vals false) as [[c1 v1] o1]. cbn [fst snd] in *. subst o1.
      destruct o; injection E as <- <- <-; cbn [run_commands fold_left run_command fst].
      + unfold set_comp. rewrite Nat.eqb_refl. intros c' Hc' x. injection Hc' as <-. apply E4.
      + rewrite Ec. intros c' Hc' x. injection Hc' as <-. apply Hsame, E3. reflexivity.
    - destruct (r_auto r); [|injection E as <- <- <-; cbn [run_commands fold_left fst]; intros c' Hc'; congruence].
      destruct (internal_apply_fields (r_range r) (r_default r) vals false Hacc) as (o & E1 & _ & E3 & E4).
      destruct (internal_apply accepts (r_range r) (r_default r) vals false) as [[c1 v1] o1]. cbn [fst snd] in *. subst o1.
      destruct o; injection E as <- <- <-; cbn [run_commands fold_left run_command fst]; [|intros c' Hc'; congruence].
      unfold set_comp. rewrite Nat.eqb_refl. intros c' Hc' x. injection Hc' as <-. apply E4.
  Qed.
  Lemma run_at q : forall (s s' : (nat -> option (nat -> V)) * list nat) t, fst s t = fst s' t -> fst (run_commands q s) t = fst (run_commands q s') t.
  Proof.
    induction q as [|c q IH]; intros s s' t Hf; [exact Hf|].
    change (run_commands (c :: q) s) with (run_commands q (run_command c s)). change (run_commands (c :: q) s') with (run_commands q (run_command c s')).
    apply IH. destruct c as [u x|u|u]; cbn [run_command fst]; unfold set_comp; try destruct (Nat.eqb t u); auto.
  Qed.
  Lemma apply_all_shows regs : forall m vals m' q a r, apply_all accepts regs m vals = (m', q) -> NoDup (map r_type regs) ->
    (forall r1 r2 p, In r1 regs -> In r2 regs -> In p (r_range r1) -> In p (r_range r2) -> r1 = r2) -> In r regs ->
    (forall p v, In p (r_range r) -> vals p = Some v -> accepts p v = true) ->
    shows r vals (m (r_type r)) (fst (run_commands q (m', a)) (r_type r)).
  Proof.
    induction regs as [|r0 regs IH]; intros m vals m' q a r E Hnd Hdis Hr Hacc; [destruct Hr|]. cbn [apply_all map] in *.
    destruct (apply_values_mut accepts r0 m vals) as [[m1 v1] q1] eqn:E1. destruct (apply_all accepts regs m1 v1) as [m2 q2] eqn:E2. injection E as <- <-.
    inversion Hnd as [|t0 ts Hn0 Hnd0]; subst. destruct (apply_values_shape _ _ _ _ _ _ E1) as (H1 & H2 & H3 & H4 & H5 & H6).
    rewrite run_app. destruct (Nat.eq_dec (r_type r) (r_type r0)) as [Et|Et].
    - assert (r = r0) as ->. { destruct Hr as [->|Hr]; [reflexivity|]. exfalso. apply Hn0. rewrite <- Et. apply in_map, Hr. }
      destruct (apply_all_other _ _ _ _ _ (r_type r0) E2 Hn0) as [I1 I2].
      destruct (run_other q2 (run_commands q1 (m2, a)) (r_type r0) I2) as [J1 _]. rewrite J1.
      rewrite (run_at q1 (m2, a) (m1, a)) by exact I1. apply (apply_values_shows _ _ _ _ _ _ a E1 Hacc).
    - destruct Hr as [->|Hr]; [congruence|].
      assert (Hq1 : forall c, In c q1 -> cmd_type c <> r_type r).
      { intros c Hc. assert (cmd_type c = r_type r0) as ->; [|congruence].
        destruct H4 as [->|[(x & -> & _)|(x & -> & _)]]; cbn [In] in Hc; [tauto| |]; destruct Hc as [<-|[<-|[]]] || destruct Hc as [<-|[]]; reflexivity. }
      destruct (run_other q1 (m2, a) (r_type r) Hq1) as [J1 _]. cbn [fst] in J1.
      assert (Em : m1 (r_type r) = m (r_type r)) by (apply H1; exact Et).
      assert (Ev : forall p, In p (r_range r) -> v1 p = vals p).
      { intros p Hp. apply H3. intros Hp0. apply Et. f_equal. apply (Hdis r r0 p); auto; [right; exact Hr|left; reflexivity]. }
      specialize (IH m1 v1 m2 q2 a r E2 Hnd0 (fun r1 r2 p A B => Hdis r1 r2 p (or_intror A) (or_intror B)) Hr).
      rewrite (run_at q2 _ (m2, a)) by exact J1. rewrite Em in IH. intros c' Hc' x. rewrite (IH (fun p v Hp Hv => Hacc p v Hp (eq_trans (eq_sym (Ev p Hp)) Hv)) c' Hc' x).
      unfold written. destruct (in_dec Nat.eq_dec x (r_range r)) as [Hx|]; [rewrite (Ev x Hx)|]; reflexivity.
  Qed.
  Lemma frame_shows regs f (e : entity V) r : good_registry regs -> In r regs ->
    (forall p v, In p (r_range r) -> changes f p = Some v -> accepts p v = true) ->
    shows r (changes f) (comps e (r_type r)) (comps (aframe_step accepts veq regs f e) (r_type r)).
  Proof.
    intros [Hnd Hdis] Hr Hacc. unfold aframe_step. fold (changes f).
    destruct (apply_all accepts regs (comps e) (changes f)) as [m q] eqn:Ea.
    pose proof (apply_all_shows regs _ _ _ _ (auto e) r Ea Hnd Hdis Hr Hacc) as He.
    destruct (run_commands q (m, auto e)) as [m' a'] eqn:Eq. cbn [fst snd] in He.
    destruct (a_changed f); [|exact He].
    pose proof (auto_remove_effect regs (mk_entity m' a' (a_pending f) (a_panim f)) r Hnd Hr) as Hrem. cbv zeta in Hrem.
    destruct Hrem as (_ & _ & [(_ & H & _)|(_ & H & _)]); cbn [comps] in H; rewrite H; [|exact He]. intros c' Hc'. discriminate.
  Qed.
End Proofs.

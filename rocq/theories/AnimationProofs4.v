(** C23: when an animation emits, and what (exact arithmetic). *)
From Coq Require Import NArith QArith Lqa.
From Verif Require Import Base Animation AnimationSpec AnimationSample AnimationProofs AnimationProofs2 AnimationProofs3.


Lemma ideal_t e d L : (0 < L)%N ->
  exists q, ideal_div (ideal_sub (ideal_secs e) (ideal_secs d)) (ideal_secs L) = Fin q /\
            q == ((Z.of_N e - Z.of_N d)%Z # 1) / (Z.of_N L # 1).
Proof.
  intros HL. unfold ideal_div, ideal_sub, ideal_secs.
  destruct (Qeq_bool (Z.of_N L # 1000000000) 0) eqn:E.
  - apply Qeq_bool_iff in E. unfold Qeq in E. simpl in E. lia.
  - eexists. split; [reflexivity|].
    assert (H1 : forall z, z # 1000000000 == (z # 1) / (1000000000 # 1)) by (intros; unfold Qeq, Qdiv, Qmult, Qinv; simpl; lia).
    rewrite !H1. assert (H2 : ((Z.of_N e - Z.of_N d)%Z # 1) == (Z.of_N e # 1) - (Z.of_N d # 1)) by (unfold Qeq; simpl; lia).
    rewrite H2. field. intros H; unfold Qeq in H; simpl in H; lia.
Qed.

Lemma quot_le1 a L : (0 < L)%N -> ((a # 1) / (Z.of_N L # 1) <= 1 <-> (a <= Z.of_N L)%Z).
Proof.
  intros HL. assert (Hp : 0 < Z.of_N L # 1) by (unfold Qlt; simpl; lia).
  split; intros H.
  - assert (K : (a # 1) <= Z.of_N L # 1).
    { setoid_replace (a # 1) with ((a # 1) / (Z.of_N L # 1) * (Z.of_N L # 1)) by (field; lra).
      setoid_replace (Z.of_N L # 1) with (1 * (Z.of_N L # 1)) at 3 by ring. apply Qmult_le_compat_r; lra. }
    unfold Qle in K. simpl in K. lia.
  - apply Qle_shift_div_r; [exact Hp|]. rewrite Qmult_1_l. unfold Qle. simpl. lia.
Qed.
Lemma quot_ge1 a L : (0 < L)%N -> (1 <= (a # 1) / (Z.of_N L # 1) <-> (Z.of_N L <= a)%Z).
Proof.
  intros HL. assert (Hp : 0 < Z.of_N L # 1) by (unfold Qlt; simpl; lia).
  split; intros H.
  - assert (K : (Z.of_N L # 1) <= a # 1).
    { setoid_replace (a # 1) with ((a # 1) / (Z.of_N L # 1) * (Z.of_N L # 1)) by (field; lra).
      setoid_replace (Z.of_N L # 1) with (1 * (Z.of_N L # 1)) at 1 by ring. apply Qmult_le_compat_r; lra. }
    unfold Qle in K. simpl in K. lia.
  - apply Qle_shift_div_l; [exact Hp|]. rewrite Qmult_1_l. unfold Qle. simpl. lia.
Qed.
Lemma quot_ge0 a L : (0 < L)%N -> (0 <= (a # 1) / (Z.of_N L # 1) <-> (0 <= a)%Z).
Proof.
  intros HL. assert (Hp : 0 < Z.of_N L # 1) by (unfold Qlt; simpl; lia).
  split; intros H.
  - assert (K : 0 <= a # 1).
    { setoid_replace (a # 1) with ((a # 1) / (Z.of_N L # 1) * (Z.of_N L # 1)) by (field; lra).
      apply Qmult_le_0_compat; lra. }
    unfold Qle in K. simpl in K. lia.
  - apply Qle_shift_div_l; [exact Hp|]. rewrite Qmult_0_l. unfold Qle. simpl. lia.
Qed.

(** the value of the sample as a function of the relative time [a = elapsed - delay] *)
Lemma ideal_sample_cases {V} (curve : ext -> V) x : (0 < duration x)%N ->
  let a := (Z.of_N (elapsed x) - Z.of_N (current_iteration_delay x))%Z in
  exists q, q == (a # 1) / (Z.of_N (duration x) # 1) /\
  ideal_sample curve x =
    if ((0 <=? a)%Z && (a <=? Z.of_N (duration x))%Z && match state x with Running | JustFinished => true | _ => false end)%bool
    then Some (curve (transform_t ideal_sub (Fin 1) (cur_dir x) (Fin q)))
    else if ((a <? 0)%Z && is_backwards (fill x))%bool then Some (curve (transform_t ideal_sub (Fin 1) (cur_dir x) (Fin 0)))
    else if ((Z.of_N (duration x) <=? a)%Z && is_forwards (fill x))%bool then Some (curve (transform_t ideal_sub (Fin 1) (cur_dir x) (Fin 1)))
    else None.
Proof.
  intros HL a. destruct (ideal_t (elapsed x) (current_iteration_delay x) (duration x) HL) as (q & Eq & Hq).
  exists q. split; [exact Hq|]. unfold ideal_sample, sample_value, sample_t. rewrite Eq.
  fold a in Hq. simpl ideal_in_unit. simpl ideal_lt0. simpl ideal_ge1.
  assert (B0 : Qle_bool 0 q = (0 <=? a)%Z).
  { apply eq_true_iff_eq. rewrite Qle_bool_iff, Z.leb_le, Hq. apply quot_ge0, HL. }
  assert (B1 : Qle_bool q 1 = (a <=? Z.of_N (duration x))%Z).
  { apply eq_true_iff_eq. rewrite Qle_bool_iff, Z.leb_le, Hq. apply quot_le1, HL. }
  assert (B2 : Qle_bool 1 q = (Z.of_N (duration x) <=? a)%Z).
  { apply eq_true_iff_eq. rewrite Qle_bool_iff, Z.leb_le, Hq. apply quot_ge1, HL. }
  rewrite B0, B1, B2. rewrite <- Z.ltb_antisym. reflexivity.
Qed.

Lemma sample_on_track {V} (curve : ext -> V) o T x :
  on_track o T x -> (state x = Pending -> (T < o_initial_delay o)%N) -> (0 < o_duration o)%N ->
  match shown x with
  | None => ideal_sample curve x = None
  | Some p => exists q, q == p /\ ideal_sample curve x = Some (curve (transform_t ideal_sub (Fin 1) (cur_dir x) (Fin q)))
  end.
Proof.
  intros (Ho & Hc & Hd & Hs) HP HL. destruct Ho as (E1 & E2 & _). rewrite <- E2 in HL.
  destruct (ideal_sample_cases curve x HL) as (q & Hq & ->).
  set (a := (Z.of_N (elapsed x) - Z.of_N (current_iteration_delay x))%Z) in *. unfold shown.
  assert (Hit : (0 <= a)%Z -> (a <= Z.of_N (duration x))%Z -> q == progress (iteration_time x) (duration x)).
  { intros H1 H2. rewrite Hq. unfold progress, iteration_time.
    replace (Z.of_N (N.min (elapsed x - current_iteration_delay x) (duration x))) with a by (unfold a in *; lia). reflexivity. }
  destruct (state x).
  - destruct Hs as (G & E & HT). specialize (HP eq_refl).
    assert (Ha : (a < 0)%Z) by (unfold a, current_iteration_delay; rewrite G; simpl; lia).
    destruct (Z.leb_spec 0 a); [lia|]. destruct (Z.ltb_spec a 0); [|lia]. simpl.
    destruct (is_backwards (fill x)); [exists 0; split; reflexivity|].
    destruct (Z.leb_spec (Z.of_N (duration x)) a); [lia|]. reflexivity.
  - destruct Hs as (P & L & De & NP). unfold current_iteration_duration in L.
    assert (Ha : (0 <= a < Z.of_N (duration x))%Z) by (unfold a; lia).
    destruct (Z.leb_spec 0 a); [|lia]. destruct (Z.leb_spec a (Z.of_N (duration x))); [|lia]. simpl.
    exists q. split; [apply Hit; lia|reflexivity].
  - destruct Hs as (n & Ec & Hn & G & E). unfold current_iteration_duration in E.
    assert (Ha : (a = Z.of_N (duration x))%Z) by (unfold a; lia).
    destruct (Z.leb_spec 0 a); [|lia]. destruct (Z.leb_spec a (Z.of_N (duration x))); [|lia]. simpl.
    exists q. split; [apply Hit; lia|reflexivity].
  - destruct Hs as (n & Ec & Hn & G & E). unfold current_iteration_duration in E.
    assert (Ha : (Z.of_N (duration x) <= a)%Z) by (unfold a; lia).
    rewrite andb_false_r. destruct (Z.ltb_spec a 0); [lia|]. simpl.
    destruct (Z.leb_spec (Z.of_N (duration x)) a); [|lia]. simpl.
    destruct (is_forwards (fill x)); [exists 1; split; reflexivity|reflexivity].
  - destruct Hs.
Qed.

Lemma shown_active x : is_active x = true <-> shown x <> None.
Proof.
  unfold is_active, shown. destruct (state x); try (destruct (is_backwards (fill x))); try (destruct (is_forwards (fill x)));
    split; try congruence; intros _; discriminate.
Qed.

Lemma sample_plays {V} (curve : ext -> V) o T x :
  plays o T x -> (state x = Pending -> (T < o_initial_delay o)%N) -> (0 < o_duration o)%N ->
  (is_active x = true <-> ideal_sample curve x <> None) /\
  (forall v, ideal_sample curve x = Some v ->
     exists p q, shown x = Some p /\ q == directed (cur_dir x) p /\ v = curve (Fin q)).
Proof.
  intros Hp HP HL. destruct (plays_inv _ _ _ Hp) as (_ & Ht & _).
  pose proof (sample_on_track curve o T x Ht HP HL) as Hs.
  rewrite shown_active. destruct (shown x) as [p|].
  - destruct Hs as (q & Hq & Hs). rewrite Hs. split; [split; congruence|].
    intros v Hv. inversion Hv; subst v. exists p. destruct (cur_dir x); simpl.
    + exists q. auto.
    + exists (1 - q). split; [reflexivity|]. split; [|reflexivity]. rewrite Hq. reflexivity.
  - rewrite Hs. split; [split; congruence|]. discriminate.
Qed.

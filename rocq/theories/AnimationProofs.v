From Coq Require Import NArith.
From Verif Require Import Base Animation AnimationSpec.
Local Open Scope N_scope.

(** ** Fuel *)
Lemma loop_fuel_mono f f' x y : (f <= f')%nat -> iterate_loop f x = Some y -> iterate_loop f' x = Some y.
Proof.
  revert f' x; induction f as [|f IH]; intros f' x Hle H; simpl in H; [discriminate|].
  destruct f' as [|f']; [lia|]. simpl.
  destruct (_ <=? _); [|exact H]. destruct (is_on_last_iteration x); [exact H|]. apply IH; [lia|exact H].
Qed.

Lemma tick_fuel_mono f f' d x y : (f <= f')%nat -> tick f d x = Some y -> tick f' d x = Some y.
Proof.
  intros Hle. unfold tick. destruct (negb _); [auto|].
  destruct (state x); auto; unfold iterate_if_necessary;
    match goal with |- match state ?z with _ => _ end = _ -> _ => destruct (state z); auto; apply loop_fuel_mono, Hle end.
Qed.

Lemma tick_deterministic f f' d x y z : tick f d x = Some y -> tick f' d x = Some z -> y = z.
Proof.
  intros H1 H2. apply (tick_fuel_mono f (Nat.max f f')) in H1; [|lia].
  apply (tick_fuel_mono f' (Nat.max f f')) in H2; [|lia]. congruence.
Qed.

(** ** C17 *)
Definition add_time (b : N) (x : animation) : animation := with_time x (elapsed x + b).

Lemma loop_state f x y : iterate_loop f x = Some y -> state y = state x \/ state y = JustFinished.
Proof.
  revert x; induction f as [|f IH]; intros x H; simpl in H; [discriminate|].
  destruct (_ <=? _); [|injection H as <-; auto].
  destruct (is_on_last_iteration x); [injection H as <-; auto|].
  apply IH in H. exact H.
Qed.

Lemma loop_paused f x y : iterate_loop f x = Some y -> paused y = paused x.
Proof.
  revert x; induction f as [|f IH]; intros x H; simpl in H; [discriminate|].
  destruct (_ <=? _); [|injection H as <-; auto].
  destruct (is_on_last_iteration x); [injection H as <-; auto|].
  apply IH in H. exact H.
Qed.

Lemma loop_add f f' x y b z :
  iterate_loop f x = Some y -> state x <> JustFinished -> state y <> JustFinished ->
  iterate_loop f' (add_time b y) = Some z ->
  iterate_loop (f + f') (add_time b x) = Some z.
Proof.
  revert x; induction f as [|f IH]; intros x H Hx Hy Hz; [discriminate|].
  simpl in H. simpl.
  change (current_iteration_duration (add_time b x)) with (current_iteration_duration x).
  change (is_on_last_iteration (add_time b x)) with (is_on_last_iteration x).
  destruct (N.leb_spec (current_iteration_duration x) (elapsed x)) as [Hle|Hlt].
  - destruct (is_on_last_iteration x); [injection H as <-; exfalso; apply Hy; reflexivity|].
    assert (Ht : (current_iteration_duration x <=? elapsed x + b) = true) by (apply N.leb_le; lia).
    rewrite Ht. specialize (IH _ H Hx Hy Hz). rewrite <- IH. f_equal.
    unfold add_time, iterate, with_iteration, with_time. simpl. f_equal. unfold current_iteration_duration, current_iteration_delay, get_current_iteration in *; simpl; lia.
  - injection H as <-. change (iterate_loop (S (f + f')) (add_time b x) = Some z).
    apply (loop_fuel_mono f'); [lia|exact Hz].
Qed.

Lemma loop_stable f x y : iterate_loop f x = Some y -> state x <> JustFinished -> state y <> JustFinished ->
  elapsed y < current_iteration_duration y.
Proof.
  revert x; induction f as [|f IH]; intros x H Hx Hy; simpl in H; [discriminate|].
  destruct (N.leb_spec (current_iteration_duration x) (elapsed x)) as [Hle|Hlt].
  - destruct (is_on_last_iteration x); [injection H as <-; exfalso; apply Hy; reflexivity|].
    apply (IH _ H); auto.
  - injection H as <-. exact Hlt.
Qed.

Lemma add_time_add a b x : add_time b (add_time a x) = add_time (a + b) x.
Proof. unfold add_time, with_time. simpl. f_equal. lia. Qed.

Lemma tick_additive f a b x y z :
  tick f a x = Some y -> state y <> JustFinished -> state y <> Finished -> tick f b y = Some z ->
  exists f', tick f' (a + b) x = Some z.
Proof.
  intros Hy HJ HF Hz. destruct (state x) eqn:Es.
  - (* Pending *)
    unfold tick in Hy. unfold can_be_ticked in Hy. rewrite Es in Hy. simpl in Hy.
    destruct (paused x) eqn:Ep.
    + unfold stopwatch_tick in Hy. rewrite Ep, Es in Hy.
      destruct (N.leb_spec (current_iteration_delay x) (elapsed x)) as [Hle|Hlt].
      * unfold iterate_if_necessary in Hy. simpl in Hy. exists (S f).
        unfold tick, can_be_ticked. rewrite Es. simpl negb. cbv iota. unfold stopwatch_tick. rewrite Ep, Es.
        destruct (N.leb_spec (current_iteration_delay x) (elapsed x)); [|lia].
        unfold iterate_if_necessary. simpl state. cbv iota.
        destruct (loop_state _ _ _ Hy) as [E|E]; [simpl in E|congruence].
        assert (Hp : paused y = true) by (rewrite (loop_paused _ _ _ Hy); exact Ep).
        unfold tick, can_be_ticked in Hz. rewrite E in Hz. simpl in Hz. unfold stopwatch_tick in Hz. rewrite Hp, E in Hz.
        unfold iterate_if_necessary in Hz. rewrite E in Hz.
        assert (Hst : elapsed y < current_iteration_duration y) by (apply (loop_stable _ _ _ Hy); [simpl; congruence|congruence]).
        assert (z = y).
        { destruct f; [discriminate|]. simpl in Hz. destruct (N.leb_spec (current_iteration_duration y) (elapsed y)); [lia|]. congruence. }
        subst z. apply (loop_fuel_mono f); [lia|exact Hy].
      * unfold iterate_if_necessary in Hy. rewrite Es in Hy. injection Hy as <-. exists f.
        unfold tick, can_be_ticked in *. rewrite Es in *. simpl in *. unfold stopwatch_tick in *. rewrite Ep in *. exact Hz.
    + unfold stopwatch_tick in Hy. rewrite Ep in Hy. fold (add_time a x) in Hy.
      replace (state (add_time a x)) with Pending in Hy by (symmetry; exact Es).
      change (current_iteration_delay (add_time a x)) with (current_iteration_delay x) in Hy.
      change (elapsed (add_time a x)) with (elapsed x + a) in Hy.
      assert (Hgoal : forall f', tick f' (a + b) x =
         iterate_if_necessary f' (if current_iteration_delay x <=? elapsed x + (a + b) then with_state (add_time (a + b) x) Running else add_time (a + b) x)).
      { intros f'. unfold tick, can_be_ticked. rewrite Es. simpl negb. cbv iota. unfold stopwatch_tick. rewrite Ep.
        fold (add_time (a + b) x). replace (state (add_time (a + b) x)) with Pending by (symmetry; exact Es). reflexivity. }
      destruct (N.leb_spec (current_iteration_delay x) (elapsed x + a)) as [Hle|Hlt].
      * unfold iterate_if_necessary in Hy. simpl in Hy.
        destruct (loop_state _ _ _ Hy) as [E|E]; [simpl in E|congruence].
        assert (Hp : paused y = false) by (rewrite (loop_paused _ _ _ Hy); exact Ep).
        unfold tick, can_be_ticked in Hz. rewrite E in Hz. simpl in Hz. unfold stopwatch_tick in Hz. rewrite Hp in Hz.
        fold (add_time b y) in Hz. replace (state (add_time b y)) with Running in Hz by (symmetry; exact E).
        unfold iterate_if_necessary in Hz. replace (state (add_time b y)) with Running in Hz by (symmetry; exact E).
        exists (f + f)%nat. rewrite Hgoal. destruct (N.leb_spec (current_iteration_delay x) (elapsed x + (a + b))); [|lia].
        unfold iterate_if_necessary. simpl state. cbv iota.
        assert (H1 := loop_add f f (with_state (add_time a x) Running) y b z Hy ltac:(simpl; congruence) HJ Hz).
        rewrite <- H1. f_equal. unfold with_state, add_time, with_time. simpl. f_equal. lia.
      * unfold iterate_if_necessary in Hy. replace (state (add_time a x)) with Pending in Hy by (symmetry; exact Es).
        injection Hy as <-. exists f. rewrite Hgoal.
        unfold tick, can_be_ticked in Hz. replace (state (add_time a x)) with Pending in Hz by (symmetry; exact Es).
        simpl negb in Hz. cbv iota in Hz. unfold stopwatch_tick in Hz.
        replace (paused (add_time a x)) with false in Hz by (symmetry; exact Ep).
        fold (add_time b (add_time a x)) in Hz. rewrite add_time_add in Hz.
        replace (state (add_time (a + b) x)) with Pending in Hz by (symmetry; exact Es). exact Hz.
  - (* Running *)
    unfold tick in Hy. unfold can_be_ticked in Hy. rewrite Es in Hy. simpl in Hy.
    destruct (paused x) eqn:Ep.
    + unfold stopwatch_tick in Hy. rewrite Ep, Es in Hy. unfold iterate_if_necessary in Hy. rewrite Es in Hy.
      destruct (loop_state _ _ _ Hy) as [E|E]; [rewrite Es in E|congruence].
      assert (Hp : paused y = true) by (rewrite (loop_paused _ _ _ Hy); exact Ep).
      unfold tick, can_be_ticked in Hz. rewrite E in Hz. simpl in Hz. unfold stopwatch_tick in Hz. rewrite Hp, E in Hz.
      unfold iterate_if_necessary in Hz. rewrite E in Hz.
      assert (Hst : elapsed y < current_iteration_duration y) by (apply (loop_stable _ _ _ Hy); congruence).
      assert (z = y).
      { destruct f; [discriminate|]. simpl in Hz. destruct (N.leb_spec (current_iteration_duration y) (elapsed y)); [lia|]. congruence. }
      subst z. exists f. unfold tick, can_be_ticked. rewrite Es. simpl negb. cbv iota. unfold stopwatch_tick. rewrite Ep, Es.
      unfold iterate_if_necessary. rewrite Es. exact Hy.
    + unfold stopwatch_tick in Hy. rewrite Ep in Hy. fold (add_time a x) in Hy.
      replace (state (add_time a x)) with Running in Hy by (symmetry; exact Es).
      unfold iterate_if_necessary in Hy. replace (state (add_time a x)) with Running in Hy by (symmetry; exact Es).
      destruct (loop_state _ _ _ Hy) as [E|E]; [|congruence]. change (state (add_time a x)) with (state x) in E. rewrite Es in E.
      assert (Hp : paused y = false) by (rewrite (loop_paused _ _ _ Hy); exact Ep).
      unfold tick, can_be_ticked in Hz. rewrite E in Hz. simpl in Hz. unfold stopwatch_tick in Hz. rewrite Hp in Hz.
      fold (add_time b y) in Hz. replace (state (add_time b y)) with Running in Hz by (symmetry; exact E).
      unfold iterate_if_necessary in Hz. replace (state (add_time b y)) with Running in Hz by (symmetry; exact E).
      exists (f + f)%nat. unfold tick, can_be_ticked. rewrite Es. simpl negb. cbv iota. unfold stopwatch_tick. rewrite Ep.
      fold (add_time (a + b) x). replace (state (add_time (a + b) x)) with Running by (symmetry; exact Es).
      unfold iterate_if_necessary. replace (state (add_time (a + b) x)) with Running by (symmetry; exact Es).
      rewrite <- add_time_add. apply (loop_add f f (add_time a x) y b z Hy); auto.
      change (state (add_time a x)) with (state x). congruence.
  - (* JustFinished: the result is JustFinished or Finished *)
    exfalso. unfold tick, can_be_ticked in Hy. rewrite Es in Hy. simpl in Hy. injection Hy as <-.
    destruct (_ <? _); [apply HF; reflexivity|]. apply HJ. unfold stopwatch_tick. destruct (paused x); exact Es.
  - exfalso. unfold tick, can_be_ticked in Hy. rewrite Es in Hy. simpl in Hy. injection Hy as <-. congruence.
  - unfold tick, can_be_ticked in Hy. rewrite Es in Hy. simpl in Hy. injection Hy as <-.
    unfold tick, can_be_ticked in Hz. rewrite Es in Hz. simpl in Hz. injection Hz as <-. exists 0%nat.
    unfold tick, can_be_ticked. rewrite Es. reflexivity.
Qed.

From Coq Require Import NArith QArith Lia Lqa Bool.
From Verif Require Import Base AnimationSample Transition TransitionFloat TransitionSpec.

Section Timeline.
  Context {F V E : Type} (op : fops F) (veq : forall a b : V, {a = b} + {a <> b}).
  Variables (interp : V -> V -> F -> V) (ease : E -> F -> F) (vdefault : V).
  Local Open Scope N_scope.

  Definition fresh (x : transition F V E) : Prop := t_elapsed x = 0 /\ t_state x = TPending /\ t_end x = t_delay x + t_duration x.

  Lemma created_fresh o x : created op veq interp ease vdefault o x -> fresh x /\ t_delay x = to_delay o.
  Proof.
    intros H. destruct H as [from to o|o o' x from to y _ H].
    - unfold fresh. simpl. repeat split; lia.
    - unfold from_possibly_reversed, update_for_possibly_reversed in H.
      destruct (veq _ _); [|inversion H; unfold fresh; simpl; repeat split; lia].
      destruct (f_from_secs op _); [|discriminate]. inversion H. unfold fresh. simpl. repeat split; lia.
  Qed.

  (** the state after time T of ticking *)
  Definition aged (x0 : transition F V E) (T : N) (x : transition F V E) : Prop :=
    t_delay x = t_delay x0 /\ t_duration x = t_duration x0 /\ t_end x = t_end x0 /\
    t_from x = t_from x0 /\ t_to x = t_to x0 /\ t_easing x = t_easing x0 /\ t_curve_from x = t_curve_from x0 /\
    t_elapsed x = N.min T (t_delay x0 + t_duration x0) /\ t_state x = phase_at (t_delay x0) (t_duration x0) T.

  Lemma tick_first x0 d : fresh x0 -> aged x0 d (t_tick d x0).
  Proof.
    intros (He & Hs & Hn). unfold t_tick, t_is_active. rewrite Hs, He, Hn, N.add_0_l.
    unfold aged, phase_at. simpl. repeat split; auto;
    destruct (N.leb_spec (t_delay x0 + t_duration x0) d); try reflexivity; lia.
  Qed.

  Lemma tick_aged x0 T x d : t_end x0 = t_delay x0 + t_duration x0 -> aged x0 T x -> aged x0 (T + d) (t_tick d x).
  Proof.
    intros Hend (A & B & C & D & D' & D2 & D3 & G & H). rewrite Hend in C. unfold t_tick, t_is_active. rewrite H. unfold phase_at.
    destruct (N.leb_spec (t_delay x0 + t_duration x0) T) as [L|L].
    - unfold aged, phase_at. rewrite H, G. unfold phase_at.
      repeat split; auto; try congruence; try lia.
      rewrite (proj2 (N.leb_le _ _) L). rewrite (proj2 (N.leb_le _ _)) by lia. reflexivity.
    - rewrite N.min_l in G by lia. rewrite C, G.
      destruct (N.leb_spec (t_delay x0) T) as [L'|L'];
        unfold aged, phase_at; simpl; rewrite ?A, ?B, ?C, ?D; repeat split; auto;
        destruct (N.leb_spec (t_delay x0 + t_duration x0) (T + d)) as [L2|L2]; try lia; try reflexivity.
      rewrite (proj2 (N.leb_le _ _)) by lia. reflexivity.
  Qed.

  Lemma ticks_aged x0 : fresh x0 -> forall ds T x, aged x0 T x -> aged x0 (T + total ds) (t_ticks ds x).
  Proof.
    intros Hf. induction ds as [|d ds IH]; intros T x Hx; simpl.
    - rewrite N.add_0_r. exact Hx.
    - rewrite N.add_assoc. apply IH. apply tick_aged; [apply Hf|exact Hx].
  Qed.

  Lemma timeline o x d ds : created op veq interp ease vdefault o x -> let T := d + total ds in
    aged x T (t_ticks (d :: ds) x).
  Proof.
    intros H. destruct (created_fresh _ _ H) as [Hf _]. simpl. apply ticks_aged; [exact Hf|]. apply tick_first. exact Hf.
  Qed.

  Lemma pending_shows_start (x : transition F V E) : t_state x = TPending -> t_sample_value op interp ease x = Some (t_from x).
  Proof. unfold t_sample_value. intros ->. rewrite orb_true_r. reflexivity. Qed.
End Timeline.

(** ** exact arithmetic *)
Lemma round_le n d m : (0 < d)%N -> (n <= m * d)%N -> (round_half_even n d <= m)%N.
Proof.
  intros Hd H. unfold round_half_even. pose proof (N.div_mod n d ltac:(lia)) as E. pose proof (N.mod_lt n d ltac:(lia)) as L.
  set (q := (n / d)%N) in *. set (r := (n mod d)%N) in *.
  assert (H1 : (q <= m)%N) by nia. assert (H2 : (0 < r -> q < m)%N) by (intros Hr; nia).
  destruct (N.compare_spec (2 * r) d) as [C|C|C]; [destruct (N.even q)|..]; lia.
Qed.

Section Exact.
  Context {V E : Type} (veq : forall a b : V, {a = b} + {a <> b}).
  Variables (interp : V -> V -> ext -> V) (ease : E -> ext -> ext) (vdefault : V).
  Notation lives := (lives ideal veq interp ease vdefault).
  Notation from_possibly_reversed := (from_possibly_reversed ideal veq interp ease vdefault).

  Lemma clamp_01 f : in_01 (f_clamp ideal f (Fin 0) (Fin 1)) \/ f_clamp ideal f (Fin 0) (Fin 1) = NaN.
  Proof.
    unfold f_clamp. destruct f as [q| | |]; simpl; try (left; eexists; split; [reflexivity|]; split; lra).
    2:{ right. reflexivity. }
    destruct (Qle_bool 0 q) eqn:E1; simpl; [|left; exists 0%Q; split; [reflexivity|]; split; lra].
    destruct (Qle_bool q 1) eqn:E2; simpl; [|left; exists 1%Q; split; [reflexivity|]; split; lra].
    left. exists q. split; [reflexivity|]. apply Qle_bool_iff in E1, E2. split; assumption.
  Qed.

  Lemma from_secs_le n f d : in_01 f -> ideal_from_secs (ideal_mul (ideal_secs n) f) = Some d -> (d <= n)%N.
  Proof.
    intros (q & -> & H0 & H1) H. unfold ideal_secs, ideal_mul, ideal_from_secs in H. simpl in H.
    destruct q as [a b]. unfold Qle in H0, H1. simpl in *.
    assert (Ha : (0 <= a)%Z) by lia. assert (Hab : (a <= Zpos b)%Z) by lia.
    assert (Hd : d = round_half_even (Z.to_N (Z.of_N n * a) * 1000000000) (Npos (1000000000 * b))).
    { destruct (Z.of_N n * a)%Z eqn:Ez; [inversion H; reflexivity | inversion H; reflexivity | lia]. }
    subst d. apply round_le; [lia|]. nia.
  Qed.

  Lemma factor_of_reversed from to o x y : from_possibly_reversed from to o x = Some y ->
    in_01 (t_rev_factor y) /\ (t_duration y <= to_duration o)%N /\ t_delay y = to_delay o /\ t_to y = to.
  Proof.
    intros H. unfold Transition.from_possibly_reversed, update_for_possibly_reversed in H.
    destruct (veq _ _).
    2:{ inversion H. simpl. split; [exists 1%Q; split; [reflexivity|split; lra]|]. split; [lia|auto]. }
    destruct (f_from_secs ideal _) as [d|] eqn:Ed; [|discriminate]. inversion H; subst y; clear H. simpl.
    destruct (clamp_01 (f_abs ideal (f_add ideal (f_mul ideal (easing_output ideal ease x) (t_rev_factor x)) (f_sub ideal (f_one ideal) (t_rev_factor x))))) as [Hc|Hc].
    - split; [exact Hc|]. split; [|auto]. unfold new_transition in Ed. simpl in Ed. eapply from_secs_le; [exact Hc|exact Ed].
    - simpl in Ed. unfold reversing_factor in Ed. simpl in Hc, Ed. rewrite Hc in Ed. discriminate.
  Qed.

  Lemma lives_factor o x : lives o x -> in_01 (t_rev_factor x) /\ (t_duration x <= to_duration o)%N.
  Proof.
    induction 1 as [from to o|o x d _ IH|o x _ IH|o o' x from to y _ _ H].
    - simpl. split; [exists 1%Q; split; [reflexivity|split; lra]|lia].
    - unfold t_tick. destruct (t_is_active x); exact IH.
    - exact IH.
    - destruct (factor_of_reversed _ _ _ _ _ H) as (A & B & _). auto.
  Qed.

  (** a reversal does not panic when the replaced transition has a positive duration *)
  Lemma secs_diff x : f_sub ideal (f_secs ideal (t_elapsed (F:=ext) (V:=V) (E:=E) x)) (f_secs ideal (t_delay x)) = Fin ((Z.of_N (t_elapsed x) # 1000000000) - (Z.of_N (t_delay x) # 1000000000)).
  Proof. reflexivity. Qed.

  Lemma elapsed_fin (x : transition ext V E) : exists q, elapsed_secs ideal x = Fin q /\ (0 <= q)%Q.
  Proof.
    unfold elapsed_secs. rewrite secs_diff. unfold f_max. simpl.
    destruct (Qle_bool 0 _) eqn:L; simpl.
    - eexists. split; [reflexivity|]. apply Qle_bool_iff in L. exact L.
    - exists 0%Q. split; [reflexivity|lra].
  Qed.

  Lemma progress_fin (x : transition ext V E) : (0 < t_duration x)%N -> exists q, transition_progress ideal x = Fin q /\ (0 <= q)%Q /\ (q <= 1)%Q.
  Proof.
    intros H. unfold transition_progress. destruct (elapsed_fin x) as (q & -> & _).
    destruct (clamp_01 (f_div ideal (Fin q) (f_secs ideal (t_duration x)))) as [Hc|Hc]; [exact Hc|].
    exfalso. simpl in Hc. unfold ideal_div, ideal_secs in Hc.
    destruct (Qeq_bool (Z.of_N (t_duration x) # 1000000000) 0) eqn:Z0.
    - apply Qeq_bool_iff in Z0. unfold Qeq in Z0. simpl in Z0. lia.
    - unfold f_clamp in Hc. simpl in Hc. repeat match type of Hc with context [if ?b then _ else _] => destruct b end; discriminate.
  Qed.

  Lemma from_secs_some n f : in_01 f -> exists d, ideal_from_secs (ideal_mul (ideal_secs n) f) = Some d.
  Proof.
    intros (q & -> & H0 & _). simpl. unfold ideal_from_secs. simpl. destruct q as [a b]. unfold Qle in H0. simpl in *.
    destruct (Z.of_N n * a)%Z eqn:Em; [eauto | eauto |]. exfalso. nia.
  Qed.

  Lemma reversal_ok from to o o' x : lives o x -> (0 < t_duration x)%N ->
    (forall e q, (0 <= q)%Q -> (q <= 1)%Q -> exists r, ease e (Fin q) = Fin r) ->
    exists y, from_possibly_reversed from to o' x = Some y.
  Proof.
    intros Hl Hd He. unfold Transition.from_possibly_reversed, update_for_possibly_reversed.
    destruct (veq _ _); [|eauto]. destruct (progress_fin x Hd) as (q & Hq & Hq0 & Hq1).
    destruct (He (t_easing x) q Hq0 Hq1) as (r & Hr). destruct (lives_factor o x Hl) as [(g & Hg & _) _].
    assert (Hf : in_01 (reversing_factor ideal ease x)).
    { unfold reversing_factor. match goal with |- in_01 (f_clamp _ ?a _ _) => destruct (clamp_01 a) as [Hc|Hc]; [exact Hc|] end.
      exfalso. unfold easing_output in Hc. rewrite Hq, Hr, Hg in Hc. simpl in Hc. unfold f_clamp in Hc. simpl in Hc.
      repeat match type of Hc with context [if ?b then _ else _] => destruct b end; discriminate. }
    destruct (from_secs_some (to_duration o') _ Hf) as (d & Hdd).
    change (f_from_secs ideal _) with (ideal_from_secs (ideal_mul (ideal_secs (to_duration o')) (reversing_factor ideal ease x))).
    rewrite Hdd. eauto.
  Qed.

  (** the start value of a reversal is the displayed one *)
  Lemma running_bounds o x : lives o x -> t_end x = (t_delay x + t_duration x)%N /\
    (t_state x = TRunning -> t_delay x <= t_elapsed x < t_delay x + t_duration x)%N /\
    (t_state x = TPending -> t_elapsed x < t_delay x \/ t_elapsed x = 0)%N.
  Proof.
    induction 1 as [from to o|o x d Hl IH|o x _ IH|o o' x from to y Hl _ H].
    - simpl. split; [lia|]. split; [discriminate|]. auto.
    - destruct IH as (A & B & C). unfold t_tick. destruct (t_is_active x) eqn:Ea; [|auto]. simpl. split; [exact A|].
      rewrite A. destruct (N.leb_spec (t_delay x + t_duration x) (t_elapsed x + d)); [split; discriminate|].
      unfold t_is_active in Ea. destruct (t_state x) eqn:Es; try discriminate.
      + destruct (N.leb_spec (t_delay x) (t_elapsed x + d)); split; intros; try discriminate; lia.
      + split; [|discriminate]. intros _. specialize (B eq_refl). lia.
    - destruct IH as (A & B & C). simpl. split; [exact A|]. split; discriminate.
    - destruct (created_fresh ideal veq interp ease vdefault o' y) as [(F1 & F2 & F3) _].
      { econstructor; eauto. }
      rewrite F2. split; [exact F3|]. split; [discriminate|]. auto.
  Qed.

  Lemma secs_le a b : (a <= b)%N -> ((Z.of_N a # 1000000000) <= (Z.of_N b # 1000000000))%Q.
  Proof. intros H. unfold Qle. simpl. lia. Qed.

  Lemma from_of_reversed from to o x y v : from_possibly_reversed from to o x = Some y -> t_rev_start x = to ->
    curve_sample ideal interp (t_curve_from x) (t_to x) (easing_output ideal ease x) = Some v -> t_from y = v.
  Proof.
    intros H Hr Hs. unfold Transition.from_possibly_reversed, update_for_possibly_reversed in H.
    destruct (veq _ _) as [_|Hn]; [|contradiction Hn]. rewrite Hs in H.
    destruct (f_from_secs ideal _); [|discriminate]. inversion H. reflexivity.
  Qed.

  Lemma reversed_from_running from to o o' x y v : lives o x -> t_state x = TRunning -> t_rev_start x = to ->
    from_possibly_reversed from to o' x = Some y -> t_sample_value ideal interp ease x = Some v -> t_from y = v.
  Proof.
    intros Hl Hs Hr H Hv. destruct (running_bounds o x Hl) as (_ & B & _). specialize (B Hs).
    eapply from_of_reversed; [exact H|exact Hr|].
    unfold t_sample_value in Hv. rewrite Hs, orb_false_r in Hv.
    set (t := f_div ideal (f_sub ideal (f_secs ideal (t_elapsed x)) (f_secs ideal (t_delay x))) (f_secs ideal (t_duration x))) in *.
    assert (Ht : transition_progress ideal x = t /\ f_lt ideal t (f_zero ideal) = false).
    { assert (L : (0 <= (Z.of_N (t_elapsed x) # 1000000000) - (Z.of_N (t_delay x) # 1000000000))%Q).
      { pose proof (secs_le (t_delay x) (t_elapsed x) ltac:(lia)). lra. }
      assert (Ee : elapsed_secs ideal x = Fin ((Z.of_N (t_elapsed x) # 1000000000) - (Z.of_N (t_delay x) # 1000000000))).
      { unfold elapsed_secs. rewrite secs_diff. unfold f_max. apply Qle_bool_iff in L. cbn [f_nan ideal ideal_nan f_zero f_lt ideal_lt].
        rewrite L. reflexivity. }
      unfold transition_progress. rewrite Ee. unfold t. rewrite secs_diff. cbn [f_div f_secs f_zero f_one f_lt ideal].
      unfold ideal_div, ideal_secs.
      assert (Hz : Qeq_bool (Z.of_N (t_duration x) # 1000000000) 0 = false).
      { destruct (Qeq_bool _ _) eqn:Z0; [|reflexivity]. apply Qeq_bool_iff in Z0. unfold Qeq in Z0. simpl in Z0. lia. }
      rewrite Hz.
      assert (Hp : (0 < (Z.of_N (t_duration x) # 1000000000))%Q) by (unfold Qlt; simpl; lia).
      assert (L0 : (0 <= ((Z.of_N (t_elapsed x) # 1000000000) - (Z.of_N (t_delay x) # 1000000000)) / (Z.of_N (t_duration x) # 1000000000))%Q).
      { apply Qle_shift_div_l; [exact Hp|]. lra. }
      assert (L1 : (((Z.of_N (t_elapsed x) # 1000000000) - (Z.of_N (t_delay x) # 1000000000)) / (Z.of_N (t_duration x) # 1000000000) <= 1)%Q).
      { apply Qle_shift_div_r; [exact Hp|]. pose proof (secs_le (t_elapsed x) (t_delay x + t_duration x) ltac:(lia)) as L1.
        assert (Ea : ((Z.of_N (t_delay x + t_duration x) # 1000000000) == (Z.of_N (t_delay x) # 1000000000) + (Z.of_N (t_duration x) # 1000000000))%Q).
        { unfold Qeq. simpl. lia. }
        lra. }
      apply Qle_bool_iff in L0, L1. unfold f_clamp. cbn [f_lt ideal ideal_lt]. rewrite L0, L1. split; reflexivity. }
    destruct Ht as [Ht1 Ht2]. rewrite Ht2 in Hv. unfold easing_output. rewrite Ht1. exact Hv.
  Qed.

  Lemma reversed_from_pending from to o o' x y : lives o x -> t_state x = TPending -> t_rev_start x = to -> (0 < t_duration x)%N ->
    (forall e q, (q == 0)%Q -> exists r, ease e (Fin q) = Fin r /\ (r == 0)%Q) ->
    (forall a b q, (q == 0)%Q -> interp a b (Fin q) = a) ->
    from_possibly_reversed from to o' x = Some y -> t_sample_value ideal interp ease x = Some (t_from x) -> t_from y = t_curve_from x.
  Proof.
    intros Hl Hs Hr Hd He Hi H Hv. destruct (running_bounds o x Hl) as (_ & _ & B). specialize (B Hs).
    assert (Hp : exists q, transition_progress ideal x = Fin q /\ (q == 0)%Q).
    { unfold transition_progress. assert (He0 : exists z, elapsed_secs ideal x = Fin z /\ (z == 0)%Q).
      { unfold elapsed_secs. rewrite secs_diff. unfold f_max. cbn [f_nan ideal ideal_nan f_zero f_lt ideal_lt].
        destruct (Qle_bool 0 _) eqn:L; simpl; [|exists 0%Q; split; [reflexivity|lra]].
        eexists. split; [reflexivity|]. apply Qle_bool_iff in L.
        assert (t_elapsed x = 0%N /\ t_delay x = 0%N \/ t_elapsed x < t_delay x)%N as [[-> ->]|Hlt] by lia; [lra|].
        exfalso. assert (((Z.of_N (t_elapsed x) # 1000000000) < (Z.of_N (t_delay x) # 1000000000))%Q) by (unfold Qlt; simpl; lia). lra. }
      destruct He0 as (z & -> & Hz). cbn [f_div f_secs f_zero f_one ideal]. unfold ideal_div, ideal_secs.
      assert (Hn : Qeq_bool (Z.of_N (t_duration x) # 1000000000) 0 = false).
      { destruct (Qeq_bool _ _) eqn:Z0; [|reflexivity]. apply Qeq_bool_iff in Z0. unfold Qeq in Z0. simpl in Z0. lia. }
      rewrite Hn. assert (Hq : (z / (Z.of_N (t_duration x) # 1000000000) == 0)%Q) by (rewrite Hz; reflexivity).
      unfold f_clamp. cbn [f_lt ideal ideal_lt].
      assert (L0 : Qle_bool 0 (z / (Z.of_N (t_duration x) # 1000000000)) = true) by (apply Qle_bool_iff; rewrite Hq; lra).
      assert (L1 : Qle_bool (z / (Z.of_N (t_duration x) # 1000000000)) 1 = true) by (apply Qle_bool_iff; rewrite Hq; lra).
      rewrite L0, L1. simpl. eauto. }
    destruct Hp as (q & Hq & Hq0). destruct (He (t_easing x) q Hq0) as (r & Hr1 & Hr0).
    eapply from_of_reversed; [exact H|exact Hr|]. unfold easing_output. rewrite Hq, Hr1.
    unfold curve_sample. cbn [f_le f_zero f_one ideal ideal_le].
    assert (M0 : Qle_bool 0 r = true) by (apply Qle_bool_iff; rewrite Hr0; lra).
    assert (M1 : Qle_bool r 1 = true) by (apply Qle_bool_iff; rewrite Hr0; lra).
    rewrite M0, M1. simpl. rewrite (Hi _ _ r Hr0). reflexivity.
  Qed.

  Lemma from_is_curve_from o x : (forall a b q, (q == 0)%Q -> interp a b (Fin q) = a) -> lives o x -> t_from x = t_curve_from x.
  Proof.
    intros Hi. induction 1 as [from to o|o x d Hl IH|o x _ IH|o o' x from to y Hl _ H].
    - simpl. unfold curve_sample_clamped. simpl. unfold f_clamp. simpl. apply Hi. reflexivity.
    - unfold t_tick. destruct (t_is_active x); exact IH.
    - exact IH.
    - unfold Transition.from_possibly_reversed, update_for_possibly_reversed in H.
      destruct (veq _ _); [|inversion H; simpl; unfold curve_sample_clamped; simpl; unfold f_clamp; simpl; apply Hi; reflexivity].
      destruct (f_from_secs ideal _); [|discriminate]. inversion H. reflexivity.
  Qed.
End Exact.

(** the value shown while running *)
Lemma running_value {V E} (interp : V -> V -> ext -> V) (ease : E -> ext -> ext) x0 x T :
  aged x0 T x -> t_state x = TRunning ->
  exists q, (q == (Z.of_N (T - t_delay x0) # 1) / (Z.of_N (t_duration x0) # 1))%Q /\
    t_sample_value ideal interp ease x = curve_sample ideal interp (t_curve_from x0) (t_to x0) (ease (t_easing x0) (Fin q)).
Proof.
  intros (A & B & C & D & D' & D2 & D3 & G & H) Hs. rewrite H in Hs. unfold phase_at in Hs.
  destruct (N.leb_spec (t_delay x0 + t_duration x0) T); [discriminate|].
  destruct (N.leb_spec (t_delay x0) T); [|discriminate]. rewrite N.min_l in G by lia.
  unfold t_sample_value. rewrite A, B, G, D', D2, D3, H. unfold phase_at.
  rewrite (proj2 (N.leb_gt _ _)) by lia. rewrite (proj2 (N.leb_le _ _)) by lia. rewrite orb_false_r.
  cbn [f_div f_sub f_secs f_lt f_zero ideal ideal_sub ideal_secs ideal_div].
  assert (Hz : Qeq_bool (Z.of_N (t_duration x0) # 1000000000) 0 = false).
  { destruct (Qeq_bool _ _) eqn:Z0; [|reflexivity]. apply Qeq_bool_iff in Z0. unfold Qeq in Z0. simpl in Z0. lia. }
  rewrite Hz. cbn [ideal_lt].
  set (q := (((Z.of_N T # 1000000000) - (Z.of_N (t_delay x0) # 1000000000)) / (Z.of_N (t_duration x0) # 1000000000))%Q).
  assert (Hp : (0 < (Z.of_N (t_duration x0) # 1000000000))%Q) by (unfold Qlt; simpl; lia).
  assert (Hq : (0 <= q)%Q).
  { apply Qle_shift_div_l; [exact Hp|]. pose proof (secs_le (t_delay x0) T ltac:(lia)). lra. }
  exists q. split.
  - unfold q. assert (E1 : ((Z.of_N T # 1000000000) - (Z.of_N (t_delay x0) # 1000000000) == (Z.of_N (T - t_delay x0) # 1) * (1 # 1000000000))%Q).
    { unfold Qeq. simpl. lia. }
    assert (E2 : ((Z.of_N (t_duration x0) # 1000000000) == (Z.of_N (t_duration x0) # 1) * (1 # 1000000000))%Q).
    { unfold Qeq. simpl. lia. }
    rewrite E1, E2. field. repeat split; unfold Qeq; simpl; lia.
  - apply Qle_bool_iff in Hq. rewrite Hq. reflexivity.
Qed.

Lemma clamp_zero : f_clamp ideal (f_zero ideal) (f_zero ideal) (f_one ideal) = Fin 0.
Proof. reflexivity. Qed.

Lemma timeline_new {V E} (interp : V -> V -> ext -> V) (vdefault : V) a b (o : transition_options E) d ds :
  aged (new_transition ideal interp vdefault (Some a) b o) (d + total ds)%N (t_ticks (d :: ds) (new_transition ideal interp vdefault (Some a) b o)).
Proof.
  assert (F0 : fresh (new_transition ideal interp vdefault (Some a) b o)).
  { unfold fresh, new_transition. simpl. repeat split; try reflexivity. lia. }
  exact (ticks_aged _ F0 ds d _ (tick_first _ d F0)).
Qed.

Lemma reversed_to {F V E} (op : fops F) (veq : forall a b : V, {a = b} + {a <> b}) interp (ease : E -> F -> F) vdefault from to o x y :
  from_possibly_reversed op veq interp ease vdefault from to o x = Some y -> t_to y = to.
Proof.
  unfold from_possibly_reversed, update_for_possibly_reversed. destruct (veq _ _).
  - destruct (f_from_secs _ _); [|discriminate]. intros H. injection H as <-. reflexivity.
  - intros H. injection H as <-. reflexivity.
Qed.

Lemma toggled_facts {V E} (veq : forall a b : V, {a = b} + {a <> b}) interp (ease : E -> ext -> ext) vdefault a b towards back x :
  (forall q, (q == 0)%Q -> interp a b (Fin q) = a) ->
  toggled ideal veq interp ease vdefault a b towards back x ->
  t_to x = towards /\ t_rev_start x = back /\ exists o, lives ideal veq interp ease vdefault o x.
Proof.
  intros Hi H. induction H as [o|towards back x d H IH|towards back x from o y H IH E1].
  - split; [reflexivity|]. split; [|exists o; apply born]. change (interp a b (f_clamp ideal (f_zero ideal) (f_zero ideal) (f_one ideal)) = a). rewrite clamp_zero. apply Hi. reflexivity.
  - destruct IH as (A & B & o & C). unfold t_tick. destruct (t_is_active x) eqn:Ea; simpl.
    + split; [exact A|]. split; [exact B|]. exists o. pose proof (ticked _ _ _ _ _ _ _ d C) as K. unfold t_tick in K. rewrite Ea in K. exact K.
    + split; [exact A|]. split; [exact B|]. exists o. exact C.
  - destruct IH as (A & B & o' & C). split; [exact (reversed_to ideal _ _ _ _ _ _ _ _ _ E1)|]. split.
    + unfold from_possibly_reversed, update_for_possibly_reversed in E1. simpl in E1. destruct (veq (t_rev_start x) back); [|congruence].
      destruct (ideal_from_secs _); [|discriminate]. injection E1 as <-. simpl. exact A.
    + exists o. exact (replaced _ _ _ _ _ _ _ _ _ _ _ C E1).
Qed.

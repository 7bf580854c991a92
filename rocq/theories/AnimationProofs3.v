(** C18-C22. *)
From Coq Require Import NArith.
From Verif Require Import Base Animation AnimationSpec AnimationProofs AnimationProofs2.
Local Open Scope N_scope.

Lemma tick_forward f d x y : tick f d x = Some y ->
  (phase_rank (state x) <= phase_rank (state y))%nat /\
  (state y = Finished -> state x = JustFinished \/ state x = Finished) /\
  (state y = Canceled -> state x = Canceled).
Proof.
  unfold tick, can_be_ticked. destruct (state x) eqn:Es; simpl; intros H.
  - unfold iterate_if_necessary in H. match type of H with match state ?zz with _ => _ end = _ => set (z := zz) in H end.
    assert (Hz : state z = Pending \/ state z = Running).
    { unfold z. assert (E : state (stopwatch_tick d x) = Pending) by (unfold stopwatch_tick; destruct (paused x); exact Es).
      rewrite E. destruct (_ <=? _); [right; reflexivity|left; exact E]. }
    destruct Hz as [Hz|Hz]; rewrite Hz in H.
    + injection H as <-. rewrite Hz. simpl. repeat split; try lia; discriminate.
    + apply loop_state in H. rewrite Hz in H. destruct H as [->| ->]; simpl; repeat split; try lia; discriminate.
  - assert (E : state (stopwatch_tick d x) = Running) by (unfold stopwatch_tick; destruct (paused x); exact Es).
    rewrite E in H. unfold iterate_if_necessary in H. rewrite E in H.
    apply loop_state in H. rewrite E in H. destruct H as [->| ->]; simpl; repeat split; try lia; discriminate.
  - injection H as <-. destruct (_ <? _); simpl.
    + repeat split; auto. discriminate.
    + assert (E : state (stopwatch_tick d x) = JustFinished) by (unfold stopwatch_tick; destruct (paused x); exact Es).
      rewrite E. simpl. repeat split; auto; discriminate.
  - injection H as <-. rewrite Es. simpl. repeat split; auto; discriminate.
  - injection H as <-. rewrite Es. simpl. repeat split; auto; discriminate.
Qed.

Lemma reset_on_track o : playable o -> on_track o 0 (reset_options o) /\ paused (reset_options o) = false /\ state (reset_options o) = Pending.
Proof.
  intros Hp. assert (Hs : state (reset_options o) = Pending).
  { unfold reset_options. simpl. destruct (o_iteration_count o) as [n|] eqn:E; [|reflexivity].
    destruct n; [|reflexivity]. specialize (Hp 0 E). lia. }
  split; [|split; [reflexivity|exact Hs]].
  split; [repeat split; unfold max_of; simpl; destruct (o_iteration_count o); reflexivity|].
  split; [unfold cnt_ok; simpl; destruct (o_iteration_count o) as [n|] eqn:E; [specialize (Hp n E); lia|unfold u32_max; lia]|].
  split; [unfold get_current_iteration; simpl; destruct (o_iteration_count o); destruct (o_direction o); reflexivity|].
  rewrite Hs. split; [unfold get_current_iteration; simpl; destruct (o_iteration_count o); reflexivity|].
  split; [reflexivity|auto].
Qed.

Lemma total_on_track o T x : playable o -> on_track o T x -> total_elapsed x = clamp o T.
Proof.
  intros Hp (Ho & Hc & Hd & Hs). pose proof Ho as (E1 & E2 & _ & _ & E5). unfold total_elapsed, clamp, end_time.
  destruct (state x).
  - destruct Hs as (G & E & HT). rewrite G. unfold current_iteration_duration, current_iteration_delay. rewrite G, E, E1, E2. simpl.
    destruct (o_iteration_count o); lia.
  - destruct Hs as (P & L & De & NP). rewrite N.min_l by lia. fold (pos x). rewrite P.
    unfold past_end, end_time in NP. destruct (o_iteration_count o); lia.
  - destruct Hs as (n & Ec & Hn & G & E). rewrite Ec, E, N.min_id. specialize (Hp n Ec).
    unfold current_iteration_duration, current_iteration_delay. rewrite G, E1, E2.
    destruct (N.eqb_spec (n - 1) 0) as [E0|Hne].
    + rewrite E0. assert (n = 1) by lia. subst n. destruct (N.ltb_spec 0 0); lia.
    + destruct (N.ltb_spec 0 (n - 1)); [|lia].
      replace (n * o_duration o) with ((n - 1) * o_duration o + o_duration o) in * by (replace n with (n - 1 + 1) at 2 by lia; lia). lia.
  - destruct Hs as (n & Ec & Hn & G & E). rewrite Ec, N.min_r by exact E. specialize (Hp n Ec).
    unfold current_iteration_duration, current_iteration_delay. rewrite G, E1, E2.
    destruct (N.eqb_spec (n - 1) 0) as [E0|Hne].
    + rewrite E0. assert (n = 1) by lia. subst n. destruct (N.ltb_spec 0 0); lia.
    + destruct (N.ltb_spec 0 (n - 1)); [|lia].
      replace (n * o_duration o) with ((n - 1) * o_duration o + o_duration o) in * by (replace n with (n - 1 + 1) at 2 by lia; lia). lia.
  - destruct Hs.
Qed.

Lemma on_track_paused o T x p : on_track o T x -> on_track o T (with_paused x p).
Proof. intros (H1 & H2 & H3 & H4). split; [exact H1|]. split; [exact H2|]. split; [exact H3|]. exact H4. Qed.

Lemma update_on_track f o x y : playable o -> counter_fits o (total_elapsed x) -> update_options f o x = Some y ->
  on_track o (total_elapsed x) y /\ paused y = (match o_play_state o with PlayPaused => true | PlayRunning => false end) /\
  (state y = Pending -> total_elapsed x = 0 \/ total_elapsed x < o_initial_delay o) /\
  (state y = JustFinished -> state x <> Finished) /\ (state y = Finished -> state x = Finished) /\
  (total_elapsed x = 0 -> state y = Pending).
Proof.
  intros Hp Hf H. unfold update_options in H.
  destruct (reset_on_track o Hp) as (R1 & R2 & R3). set (y0 := reset_options o) in *.
  destruct (if 0 <? total_elapsed x then tick f (total_elapsed x) y0 else Some y0) as [y1|] eqn:E1; [|discriminate].
  assert (K : on_track o (total_elapsed x) y1 /\ paused y1 = false /\ (state y1 = Pending -> total_elapsed x = 0 \/ total_elapsed x < o_initial_delay o)
              /\ state y1 <> Finished /\ (total_elapsed x = 0 -> state y1 = Pending)).
  { destruct (N.ltb_spec 0 (total_elapsed x)) as [Hlt|Hge].
    - pose proof (tick_on_track f (total_elapsed x) o 0 y0 y1 R1 Hp) as Ht. rewrite R2 in Ht. cbv zeta in Ht. rewrite N.add_0_l in Ht.
      destruct (Ht Hf E1) as (A & B & C). split; [exact A|]. split; [destruct B as (_ & _ & _ & _ & B & _); congruence|].
      split; [auto|]. split; [|lia].
      apply tick_forward in E1 as (_ & E1 & _). intros K. destruct (E1 K); congruence.
    - injection E1 as <-. assert (total_elapsed x = 0) as E0 by lia. rewrite E0. split; [exact R1|]. split; [exact R2|]. split; [auto|]. split; [congruence|auto]. }
  destruct K as (A & B & C & D & Z).
  destruct (match state x, state y1 with Finished, JustFinished => tick f 1000000 y1 | _, _ => Some y1 end) as [y2|] eqn:E2; [|discriminate].
  injection H as <-.
  assert (K2 : (y2 = y1 /\ ~ (state x = Finished /\ state y1 = JustFinished)) \/
               (state x = Finished /\ state y1 = JustFinished /\ y2 = with_state (with_time y1 (elapsed y1 + 1000000)) Finished)).
  { destruct (state x) eqn:Ex; try (injection E2 as <-; left; split; [reflexivity|intros [? ?]; congruence]).
    destruct (state y1) eqn:Ey; try (injection E2 as <-; left; split; [reflexivity|intros [? ?]; congruence]).
    right. split; [reflexivity|]. split; [reflexivity|]. unfold tick, can_be_ticked in E2. rewrite Ey in E2. simpl in E2.
    unfold stopwatch_tick in E2. rewrite B in E2. simpl in E2. destruct (N.ltb_spec (elapsed y1) (elapsed y1 + 1000000)); [|lia]. congruence. }
  destruct K2 as [[-> Hn]|(Ex & Ey & ->)].
  - split; [apply on_track_paused, A|]. split; [reflexivity|]. simpl.
    split; [exact C|]. split; [intros H1 H2; apply Hn; auto|]. split; [intros; congruence|exact Z].
  - split; [|split; [reflexivity|simpl; split; [intros; congruence|split; [intros; congruence|split; [auto|intros E0; specialize (Z E0); congruence]]]]].
    apply on_track_paused. destruct A as (A1 & A2 & A3 & A4). rewrite Ey in A4. destruct A4 as (n & N1 & N2 & N3 & N4).
    split; [exact A1|]. split; [exact A2|]. split; [exact A3|]. simpl. exists n. split; [exact N1|]. split; [exact N2|]. split; [exact N3|].
    change (current_iteration_duration y1 <= elapsed y1 + 1000000). lia.
Qed.

Lemma fits_zero o : playable o -> counter_fits o 0.
Proof.
  intros Hp. unfold counter_fits. destruct (o_iteration_count o) eqn:E; [apply Hp, E|].
  replace (0 - o_initial_delay o) with 0 by lia.
  destruct (N.eq_dec (o_duration o) 0) as [->|H]; [reflexivity|]. rewrite N.div_0_l by exact H. reflexivity.
Qed.

Lemma plays_inv o T x : plays o T x ->
  playable o /\ on_track o T x /\ paused x = (match o_play_state o with PlayPaused => true | PlayRunning => false end).
Proof.
  induction 1 as [f o x Hp H|f d o T x y Hpl IH T' Hf H|f o o' T x y Hpl IH Hp' Hf H].
  - unfold new_animation in H. apply update_on_track in H as (A & B & _); auto.
    apply fits_zero, Hp.
  - destruct IH as (A & B & C).
    pose proof (tick_on_track f d o T x y B A) as Ht.
    assert (ET : (if paused x then T else T + d) = T') by (rewrite C; unfold T'; destruct (o_play_state o); reflexivity).
    rewrite ET in Ht. destruct (Ht Hf H) as (D & E & _). split; [exact A|]. split; [exact D|].
    destruct E as (_ & _ & _ & _ & E & _). congruence.
  - destruct IH as (A & B & C). rewrite <- (total_on_track o T x A B) in *.
    destruct (update_on_track f o' x y Hp' Hf H) as (D & E & _). auto.
Qed.

(** from [on_track] to the declarative timeline *)
Lemma on_track_timeline o T x : playable o -> on_track o T x -> (state x = Pending -> T < o_initial_delay o) ->
  timeline o T (state x) (get_current_iteration x) (iteration_time x) /\
  cur_dir x = dir_at (o_direction o) (get_current_iteration x).
Proof.
  intros Hp (Ho & Hc & Hd & Hs) HP. destruct Ho as (E1 & E2 & E3 & E4 & E5).
  split; [|rewrite Hd, E3; reflexivity]. unfold iteration_time. destruct (state x) eqn:Es.
  - destruct Hs as (G & E & HT). rewrite G. specialize (HP eq_refl).
    unfold current_iteration_delay. rewrite G. simpl. rewrite E, E1.
    replace (T - o_initial_delay o) with 0 by lia. rewrite N.min_0_l. constructor. exact HP.
  - destruct Hs as (P & L & De & NP). destruct (decode x De L) as (D1 & D2 & D3).
    rewrite N.min_l by (unfold current_iteration_duration in L; lia).
    rewrite D3. rewrite D2. rewrite P, E1, E2 in *. constructor; [exact D1|exact NP].
  - destruct Hs as (n & Ec & Hn & G & E). rewrite G.
    replace (N.min (elapsed x - current_iteration_delay x) (duration x)) with (o_duration o)
      by (rewrite E; unfold current_iteration_duration; lia).
    econstructor; eauto.
  - destruct Hs as (n & Ec & Hn & G & E). rewrite G.
    replace (N.min (elapsed x - current_iteration_delay x) (duration x)) with (o_duration o)
      by (unfold current_iteration_duration in E; lia).
    econstructor; eauto.
  - destruct Hs.
Qed.

Lemma timeline_after_tick f d o T x y :
  plays o T x -> tick f d x = Some y ->
  let T' := match o_play_state o with PlayPaused => T | PlayRunning => T + d end in
  counter_fits o T' ->
  timeline o T' (state y) (get_current_iteration y) (iteration_time y) /\
  cur_dir y = dir_at (o_direction o) (get_current_iteration y) /\ total_elapsed y = clamp o T'.
Proof.
  intros Hpl H T' Hf. destruct (plays_inv _ _ _ Hpl) as (A & B & C).
  pose proof (tick_on_track f d o T x y B A) as Ht.
  assert (ET : (if paused x then T else T + d) = T') by (rewrite C; unfold T'; destruct (o_play_state o); reflexivity).
  rewrite ET in Ht. destruct (Ht Hf H) as (D & E & F).
  destruct (on_track_timeline o T' y A D F). split; [assumption|]. split; [assumption|]. apply total_on_track; assumption.
Qed.

(** ** C19 *)
Lemma infinite_never_finishes o T x : plays o T x -> o_iteration_count o = Infinite -> state x = Pending \/ state x = Running.
Proof.
  intros H Hi. destruct (plays_inv _ _ _ H) as (_ & (_ & _ & _ & Hs) & _).
  destruct (state x); auto; try (destruct Hs as (n & E & _); congruence). destruct Hs.
Qed.

(** ** C20 *)
Lemma loop_terminates_finite c : forall x k m, iteration x = IterFinite k m -> m <= u32_max -> m - k <= N.of_nat c ->
  exists y, iterate_loop (S c) x = Some y.
Proof.
  induction c as [|c IH]; intros x k m Ei Hm Hk.
  - simpl. destruct (_ <=? _); [|eauto]. unfold is_on_last_iteration. rewrite Ei.
    destruct (N.leb_spec (m - 1) k); [eauto|lia].
  - change (iterate_loop (S (S c)) x) with
      (if current_iteration_duration x <=? elapsed x then
        if is_on_last_iteration x then Some (with_state (with_time x (current_iteration_duration x)) JustFinished)
        else iterate_loop (S c) (iterate (with_time x (elapsed x - current_iteration_duration x))) else Some x).
    destruct (_ <=? _); [|eauto]. unfold is_on_last_iteration. rewrite Ei.
    destruct (N.leb_spec (m - 1) k); [eauto|].
    apply (IH _ (k + 1) m); [|exact Hm|lia]. unfold iterate, with_time. simpl. rewrite Ei. f_equal. lia.
Qed.

Lemma loop_terminates_positive c : forall x, duration x <> 0 -> elapsed x <= N.of_nat c -> exists y, iterate_loop (S c) x = Some y.
Proof.
  induction c as [|c IH]; intros x HL He.
  - simpl. destruct (N.leb_spec (current_iteration_duration x) (elapsed x)); [|eauto].
    unfold current_iteration_duration in *. lia.
  - change (iterate_loop (S (S c)) x) with
      (if current_iteration_duration x <=? elapsed x then
        if is_on_last_iteration x then Some (with_state (with_time x (current_iteration_duration x)) JustFinished)
        else iterate_loop (S c) (iterate (with_time x (elapsed x - current_iteration_duration x))) else Some x).
    destruct (N.leb_spec (current_iteration_duration x) (elapsed x)); [|eauto].
    destruct (is_on_last_iteration x); [eauto|].
    apply IH; [exact HL|]. change (elapsed x - current_iteration_duration x <= N.of_nat c).
    unfold current_iteration_duration in *. lia.
Qed.

Lemma tick_terminates x d :
  (forall c, iteration x = IterInfinite c -> duration x <> 0) ->
  (forall c m, iteration x = IterFinite c m -> m <= u32_max) ->
  exists f0 y, forall f, (f0 <= f)%nat -> tick f d x = Some y.
Proof.
  intros Hi Hf.
  assert (Hl : forall z, iteration z = iteration x -> duration z = duration x -> exists f y, iterate_loop f z = Some y).
  { intros z Ez Ed. destruct (iteration x) as [c|c m] eqn:Ei.
    - destruct (loop_terminates_positive (N.to_nat (elapsed z)) z) as [y Hy]; [rewrite Ed; eapply Hi; eauto|lia|eauto].
    - destruct (loop_terminates_finite (N.to_nat m) z c m Ez) as [y Hy]; [eapply Hf; eauto|lia|eauto]. }
  assert (K : exists f0 y, tick f0 d x = Some y).
  { unfold tick. destruct (negb _); [exists 0%nat; eauto|].
    assert (Hsw : forall e, iteration (with_time x e) = iteration x /\ duration (with_time x e) = duration x) by auto.
    set (x1 := stopwatch_tick d x).
    assert (H1 : iteration x1 = iteration x /\ duration x1 = duration x) by (unfold x1, stopwatch_tick; destruct (paused x); auto).
    match goal with |- context [iterate_if_necessary _ ?zz] => set (x2 := zz) end.
    assert (H2 : iteration x2 = iteration x /\ duration x2 = duration x) by (unfold x2; destruct (state x1); auto; destruct (_ <=? _); auto).
    destruct (Hl x2) as (f & y & Hy); [apply H2|apply H2|].
    exists f. unfold iterate_if_necessary. destruct (state x); eauto; destruct (state x2); eauto. }
  destruct K as (f0 & y & Hy). exists f0, y. intros f Hle. eapply tick_fuel_mono; eauto.
Qed.

Lemma tick_diverges f d x :
  max_of x = None -> duration x = 0 -> (state x = Pending \/ state x = Running) ->
  current_iteration_delay x <= (if paused x then elapsed x else elapsed x + d) -> tick f d x = None.
Proof.
  intros Hm HL Hs He. unfold tick, can_be_ticked.
  assert (Hsw : exists e', stopwatch_tick d x = with_time x e' /\ e' = if paused x then elapsed x else elapsed x + d).
  { unfold stopwatch_tick. destruct (paused x); [exists (elapsed x)|exists (elapsed x + d)]; split; try reflexivity.
    destruct x; reflexivity. }
  destruct Hsw as (e' & -> & Ee). rewrite <- Ee in He.
  destruct Hs as [Es|Es]; rewrite Es; simpl; rewrite Es.
  - change (current_iteration_delay (with_time x e')) with (current_iteration_delay x).
    destruct (N.leb_spec (current_iteration_delay x) e'); [|lia].
    unfold iterate_if_necessary. simpl. apply loop_diverges; assumption.
  - unfold iterate_if_necessary. simpl. rewrite Es. apply loop_diverges; assumption.
Qed.

(** ** C22 *)
Lemma loop_id f x y : iterate_loop f x = Some y -> elapsed x < current_iteration_duration x -> y = x.
Proof.
  destruct f; simpl; [discriminate|]. destruct (N.leb_spec (current_iteration_duration x) (elapsed x)); [lia|]. congruence.
Qed.

Lemma paused_tick f d o T x y :
  plays o T x -> o_play_state o = PlayPaused -> (state x = Pending -> T < o_initial_delay o) ->
  tick f d x = Some y -> y = x.
Proof.
  intros Hpl Hps HP H. destruct (plays_inv _ _ _ Hpl) as (A & (Ho & _ & _ & Hs) & C). rewrite Hps in C.
  unfold tick, can_be_ticked in H. unfold stopwatch_tick in H. rewrite C in H. destruct (state x) eqn:Es; simpl in H.
  - destruct Hs as (G & E & HT). specialize (HP eq_refl).
    assert (Hcd : current_iteration_delay x = o_initial_delay o) by (unfold current_iteration_delay; rewrite G; simpl; apply Ho).
    destruct (N.leb_spec (current_iteration_delay x) (elapsed x)); [lia|].
    unfold iterate_if_necessary in H. rewrite Es in H. congruence.
  - unfold iterate_if_necessary in H. rewrite Es in H. destruct Hs as (_ & L & _).
    eapply loop_id; eauto.
  - rewrite N.ltb_irrefl in H. congruence.
  - congruence.
  - congruence.
Qed.

Lemma animation_state_eq_pending s : {s = Pending} + {s <> Pending}.
Proof. destruct s; [left; reflexivity | right; discriminate ..]. Qed.

Lemma paused_tick_any f d o T x y :
  plays o T x -> o_play_state o = PlayPaused -> 0 < o_duration o -> tick f d x = Some y ->
  y = x \/ (state x = Pending /\ T = 0 /\ o_initial_delay o = 0 /\ y = with_state x Running).
Proof.
  intros Hpl Hps HL H. destruct (N.ltb_spec T (o_initial_delay o)) as [HT|HT].
  { left. eapply paused_tick; eauto. }
  destruct (animation_state_eq_pending (state x)) as [Es|Es].
  2:{ left. eapply paused_tick; eauto. intros E. contradiction. }
  right. destruct (plays_inv _ _ _ Hpl) as (A & (Ho & _ & _ & Hs) & C). rewrite Hps in C.
  rewrite Es in Hs. destruct Hs as (G & E & Hz). assert (Hd0 : T = 0 /\ o_initial_delay o = 0) by lia.
  destruct Hd0 as [-> Hd0]. repeat split; auto.
  assert (Hcd : current_iteration_delay x = 0) by (unfold current_iteration_delay; rewrite G; simpl; destruct Ho; congruence).
  unfold tick, can_be_ticked in H. unfold stopwatch_tick in H. rewrite C, Es in H. simpl in H. rewrite Hcd, E in H. simpl in H.
  unfold iterate_if_necessary in H. simpl in H.
  apply loop_id in H; [exact H|].
  change (elapsed (with_state x Running)) with (elapsed x).
  change (current_iteration_duration (with_state x Running)) with (current_iteration_duration x).
  unfold current_iteration_duration. rewrite Hcd, E. destruct Ho as (_ & Hdu & _). lia.
Qed.

(** the position on the timeline determines the animation *)
Lemma on_track_unique o T x y : on_track o T x -> on_track o T y -> state x = state y -> state x <> Finished ->
  y = with_paused x (paused y).
Proof.
  intros (Ho & Hc & Hd & Hs) (Ho' & Hc' & Hd' & Hs') E HF.
  assert (Hiter : get_current_iteration x = get_current_iteration y -> elapsed x = elapsed y -> y = with_paused x (paused y)).
  { intros H1 H2. destruct Ho as (A1 & A2 & A3 & A4 & A5), Ho' as (B1 & B2 & B3 & B4 & B5).
    unfold max_of in A5, B5. rewrite H1, A3 in Hd. rewrite B3 in Hd'. unfold get_current_iteration in H1.
    destruct x, y. unfold with_paused. simpl in *. f_equal; try congruence.
    destruct iteration as [c|c m], iteration0 as [c'|c' m']; destruct (o_iteration_count o); simpl in *; congruence. }
  rewrite <- E in Hs'. destruct (state x).
  - destruct Hs as (G & Ee & _), Hs' as (G' & Ee' & _). apply Hiter; congruence.
  - destruct Hs as (P & L & De & _), Hs' as (P' & L' & De' & _).
    destruct (decode x De L) as (D1 & D2 & D3), (decode y De' L') as (D1' & D2' & D3').
    destruct Ho as (A1 & A2 & _), Ho' as (B1 & B2 & _). rewrite P, A1, A2 in *. rewrite P', B1, B2 in *.
    assert (G : get_current_iteration x = get_current_iteration y) by congruence.
    apply Hiter; [exact G|]. rewrite pos_split in P, P'.
    assert (current_iteration_delay x = current_iteration_delay y) by (unfold current_iteration_delay; rewrite G, A1, B1; reflexivity).
    lia.
  - destruct Hs as (n & Ec & Hn & G & Ee), Hs' as (n' & Ec' & Hn' & G' & Ee').
    assert (n = n') by congruence. subst n'.
    apply Hiter; [congruence|]. rewrite Ee, Ee'. unfold current_iteration_duration, current_iteration_delay.
    destruct Ho as (A1 & A2 & _), Ho' as (B1 & B2 & _). rewrite G, G', A1, A2, B1, B2. reflexivity.
  - congruence.
  - destruct Hs.
Qed.

Lemma timeline_fun o T s k e s' k' e' : timeline o T s k e -> timeline o T s' k' e' -> k = k' /\ e = e'.
Proof.
  intros [H1|H1 H2|n s0 H1 H2 H3] [H1'|H1' H2'|n' s0' H1' H2' H3']; auto; try lia.
  - exfalso. apply H2. unfold past_end, end_time. rewrite H1'. exact H2'.
  - exfalso. apply H2'. unfold past_end, end_time. rewrite H1. exact H2.
  - assert (n = n') by congruence. subst. auto.
Qed.

Lemma tick_additive_any f a b o T x y z w :
  plays o T x -> o_play_state o = PlayRunning -> counter_fits o (T + (a + b)) -> counter_fits o (T + a) ->
  tick f a x = Some y -> tick f b y = Some z -> tick f (a + b) x = Some w ->
  get_current_iteration z = get_current_iteration w /\ cur_dir z = cur_dir w /\
  iteration_time z = iteration_time w /\ total_elapsed z = total_elapsed w.
Proof.
  intros Hpl Hps Hf Hf1 Hy Hz Hw.
  assert (Hpy : plays o (T + a) y).
  { pose proof (plays_tick f a o T x y Hpl) as K. rewrite Hps in K. apply K; assumption. }
  pose proof (timeline_after_tick f b o (T + a) y z Hpy Hz) as Kz. rewrite Hps in Kz. cbv zeta in Kz.
  pose proof (timeline_after_tick f (a + b) o T x w Hpl Hw) as Kw. rewrite Hps in Kw. cbv zeta in Kw.
  rewrite <- N.add_assoc in Kz. destruct (Kz Hf) as (A1 & A2 & A3). destruct (Kw Hf) as (B1 & B2 & B3).
  destruct (timeline_fun _ _ _ _ _ _ _ _ A1 B1) as [E1 E2].
  split; [exact E1|]. split; [congruence|]. split; [exact E2|congruence].
Qed.

Lemma update_timeline f o o' T x y :
  plays o T x -> playable o' -> counter_fits o' (clamp o T) -> update_options f o' x = Some y ->
  total_elapsed x = clamp o T /\ total_elapsed y = clamp o' (clamp o T) /\
  cur_dir y = dir_at (o_direction o') (get_current_iteration y) /\
  (clamp o T = 0 -> state y = Pending /\ get_current_iteration y = 0 /\ elapsed y = 0) /\
  (0 < clamp o T -> timeline o' (clamp o T) (state y) (get_current_iteration y) (iteration_time y)) /\
  (state y = Finished -> state x = Finished) /\ (state x = Finished -> state y <> JustFinished).
Proof.
  intros Hpl Hp' Hf H. destruct (plays_inv _ _ _ Hpl) as (A & B & C).
  pose proof (total_on_track o T x A B) as Et. rewrite <- Et in Hf |- *.
  destruct (update_on_track f o' x y Hp' Hf H) as (D & E & F & G & I & Z).
  split; [reflexivity|]. split; [apply total_on_track; assumption|].
  split; [destruct D as ((_ & _ & D3 & _) & _ & D & _); rewrite <- D3; exact D|].
  split; [|split; [|split; [exact I|intros K1 K2; apply (G K2), K1]]].
  - intros E0. specialize (Z E0). split; [exact Z|]. destruct D as (_ & _ & _ & D). rewrite Z in D. destruct D as (D1 & D2 & _).
    split; [exact D1|congruence].
  - intros H0. apply (on_track_timeline o' (total_elapsed x) y Hp' D). intros K. destruct (F K); [lia|assumption].
Qed.

Lemma finish_exact f d o T x y :
  plays o T x -> tick f d x = Some y ->
  let T' := match o_play_state o with PlayPaused => T | PlayRunning => T + d end in
  counter_fits o T' ->
  (past_end o T' <-> state y = JustFinished \/ state y = Finished) /\
  (state y = JustFinished \/ state y = Finished -> end_time o = Some (total_elapsed y) /\ iteration_time y = o_duration o /\
     forall n, o_iteration_count o = Count n -> get_current_iteration y = n - 1).
Proof.
  intros Hpl H T' Hf. destruct (timeline_after_tick f d o T x y Hpl H Hf) as (A & B & C). fold T' in A, C.
  destruct (plays_inv _ _ _ Hpl) as (Hp & _ & _).
  inversion A as [H1 Es Ek Ee|H1 H2 Es Ek Ee|n s H1 H2 H3 Es Ek Ee].
  - split; [|intros [K|K]; discriminate]. split; [|intros [K|K]; discriminate].
    unfold past_end, end_time. destruct (o_iteration_count o); [lia|tauto].
  - split; [|intros [K|K]; discriminate]. split; [tauto|intros [K|K]; discriminate].
  - split; [split; [intros _; exact H3|]|].
    + intros _. unfold past_end, end_time. rewrite H1. exact H2.
    + intros _. split; [|split; [reflexivity|intros n' Hn'; congruence]].
      unfold end_time. rewrite H1. f_equal. rewrite C. unfold clamp, end_time. rewrite H1. lia.
Qed.

Lemma timeline_clamp o T s k e : timeline o T s k e -> timeline o (clamp o T) s k e.
Proof.
  intros H. pose proof H as H0. unfold clamp, end_time.
  destruct H as [H1|H1 H2|n s H1 H2 H3].
  - destruct (o_iteration_count o) as [n|]; [|exact H0]. rewrite N.min_l by lia. exact H0.
  - unfold past_end, end_time in H2. destruct (o_iteration_count o) as [n|]; [|exact H0]. rewrite N.min_l by lia. exact H0.
  - rewrite H1. rewrite N.min_r by exact H2. econstructor; eauto. lia.
Qed.

Lemma timeline_state o T s k e s' k' e' : timeline o T s k e -> timeline o T s' k' e' ->
  s = s' \/ ((s = JustFinished \/ s = Finished) /\ (s' = JustFinished \/ s' = Finished)).
Proof.
  intros [H1|H1 H2|n s0 H1 H2 H3] [H1'|H1' H2'|n' s0' H1' H2' H3']; auto; try lia.
  - exfalso. apply H2. unfold past_end, end_time. rewrite H1'. exact H2'.
  - exfalso. apply H2'. unfold past_end, end_time. rewrite H1. exact H2.
Qed.

Lemma clamp_idem o T : clamp o (clamp o T) = clamp o T.
Proof. unfold clamp. destruct (end_time o); lia. Qed.

Lemma resume_same f o p T x y :
  plays o T x -> 0 < total_elapsed x -> counter_fits o (total_elapsed x) -> (state x = Pending -> T < o_initial_delay o) ->
  let o' := mk_options (o_initial_delay o) (o_duration o) (o_direction o) (o_iteration_count o) (o_fill_mode o) p in
  update_options f o' x = Some y ->
  state y = state x /\ get_current_iteration y = get_current_iteration x /\ cur_dir y = cur_dir x /\
  iteration_time y = iteration_time x /\ total_elapsed y = total_elapsed x.
Proof.
  intros Hpl HT Hf HP o' H. destruct (plays_inv _ _ _ Hpl) as (A & B & C).
  pose proof (total_on_track o T x A B) as Et.
  destruct (on_track_timeline o T x A B HP) as [Tx Dx]. apply timeline_clamp in Tx.
  rewrite Et in HT, Hf.
  destruct (update_timeline f o o' T x y Hpl A Hf H) as (U1 & U2 & U3 & _ & U5 & U6 & U7).
  specialize (U5 HT).
  assert (U5' : timeline o (clamp o T) (state y) (get_current_iteration y) (iteration_time y)).
  { inversion U5; [constructor|constructor|econstructor]; eauto. }
  destruct (timeline_fun _ _ _ _ _ _ _ _ U5' Tx) as [E1 E2].
  split.
  - destruct (timeline_state _ _ _ _ _ _ _ _ U5' Tx) as [E|[E E']]; [exact E|].
    destruct E as [E|E]; [|specialize (U6 E); congruence].
    destruct E' as [E'|E']; [congruence|]. exfalso. apply U7; assumption.
  - split; [exact E1|]. split; [rewrite U3, Dx, E1; reflexivity|]. split; [exact E2|].
    rewrite U2, Et. change (clamp o' (clamp o T)) with (clamp o (clamp o T)). apply clamp_idem.
Qed.

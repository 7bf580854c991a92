(** C17-C23: the life of one animation under ticks, option changes, pauses, and what it displays. *)
From Coq Require Import NArith QArith.
From Verif Require Import Base Animation AnimationSpec AnimationSample
  AnimationProofs AnimationProofs2 AnimationProofs3 AnimationProofs4.
Local Open Scope N_scope.

Module Ex.
  Definition ms (n : N) : N := n * 1000000.
  (** 3 alternating iterations of 200 ms after 100 ms *)
  Definition o : options := mk_options (ms 100) (ms 200) DirAlternate (Count 3) FillBoth PlayRunning.
  Definition o_paused : options := mk_options (ms 100) (ms 200) DirAlternate (Count 3) FillBoth PlayPaused.
  Definition get {A} (d : A) (x : option A) : A := match x with Some a => a | None => d end.
  Definition x0 : animation := get (reset_options o) (new_animation 10 o).
  Definition x1 : animation := get x0 (tick 10 (ms 350) x0).     (* iteration 1, 50 ms in *)
  Definition x2 : animation := get x0 (update_options 10 o_paused x1).
  Lemma playable_o : playable o.
  Proof. intros n H. inversion H. split; discriminate. Qed.
  Lemma plays_x0 : plays o 0 x0.
  Proof. apply (plays_new 10); [exact playable_o | vm_compute; reflexivity]. Qed.
  Lemma plays_x1 : plays o (0 + ms 350) x1.
  Proof. apply (plays_tick 10 (ms 350) o 0 x0 x1); [exact plays_x0 | discriminate | vm_compute; reflexivity]. Qed.
  Lemma plays_x2 : plays o_paused (ms 350) x2.
  Proof.
    change (ms 350) with (clamp o (0 + ms 350)).
    apply (plays_update 10 o o_paused _ x1 x2); [exact plays_x1 | intros n H; inversion H; split; discriminate | discriminate | vm_compute; reflexivity].
  Qed.
End Ex.

(** C17.  Two ticks are the one tick of the total time, as long as the first does not reach the end:
    the whole animation is the same, so is anything sampled from it. *)
Theorem C17_tick_additive :
  forall f a b x y z,
  tick f a x = Some y -> state y <> JustFinished -> state y <> Finished -> tick f b y = Some z ->
  exists f', tick f' (a + b) x = Some z.
Proof. exact tick_additive. Qed.
Print Assumptions C17_tick_additive.

(** C17, also across the end: iteration, direction and position agree (only the split between
    JustFinished and Finished depends on the number of ticks). *)
Theorem C17_tick_additive_position :
  forall f a b o T x y z w,
  plays o T x -> o_play_state o = PlayRunning -> counter_fits o (T + (a + b)) -> counter_fits o (T + a) ->
  tick f a x = Some y -> tick f b y = Some z -> tick f (a + b) x = Some w ->
  get_current_iteration z = get_current_iteration w /\ cur_dir z = cur_dir w /\
  iteration_time z = iteration_time w /\ total_elapsed z = total_elapsed w.
Proof. exact tick_additive_any. Qed.
Print Assumptions C17_tick_additive_position.

Example C17_witness :
  exists y z, tick 10 (Ex.ms 350) Ex.x0 = Some y /\ state y = Running /\ get_current_iteration y = 1 /\
    tick 10 (Ex.ms 200) y = Some z /\ tick 10 (Ex.ms 350 + Ex.ms 200) Ex.x0 = Some z /\ get_current_iteration z = 2.
Proof. eexists. eexists. split; [vm_compute; reflexivity|]. repeat (split; [vm_compute; reflexivity|]); vm_compute; reflexivity. Qed.

(** C18.  After any history of ticks and option changes, the phase, the iteration number and the time
    inside the iteration are those of the timeline for the total time played, and the direction is
    the one the declared direction gives to that iteration. *)
Theorem C18_timeline :
  forall f d o T x y,
  plays o T x -> tick f d x = Some y ->
  let T' := match o_play_state o with PlayPaused => T | PlayRunning => T + d end in
  counter_fits o T' ->
  timeline o T' (state y) (get_current_iteration y) (iteration_time y) /\
  cur_dir y = dir_at (o_direction o) (get_current_iteration y) /\ total_elapsed y = clamp o T'.
Proof. exact timeline_after_tick. Qed.
Print Assumptions C18_timeline.

Example C18_witness :
  plays Ex.o (0 + Ex.ms 350) Ex.x1 /\ get_current_iteration Ex.x1 = 1 /\ iteration_time Ex.x1 = Ex.ms 50 /\
  cur_dir Ex.x1 = CurReverse.
Proof. split; [exact Ex.plays_x1 | vm_compute; auto]. Qed.

(** C19.  Ticking only moves the phase forward; Finished is only entered from JustFinished. *)
Theorem C19_phases_forward :
  forall f d x y, tick f d x = Some y ->
  (phase_rank (state x) <= phase_rank (state y))%nat /\
  (state y = Finished -> state x = JustFinished \/ state x = Finished) /\
  (state y = Canceled -> state x = Canceled).
Proof. exact tick_forward. Qed.
Print Assumptions C19_phases_forward.

(** C19.  The end is reached exactly when the time played passes it, however large the tick, and the
    animation then stands exactly at the end of its last iteration. *)
Theorem C19_finish_exact :
  forall f d o T x y,
  plays o T x -> tick f d x = Some y ->
  let T' := match o_play_state o with PlayPaused => T | PlayRunning => T + d end in
  counter_fits o T' ->
  (past_end o T' <-> state y = JustFinished \/ state y = Finished) /\
  (state y = JustFinished \/ state y = Finished -> end_time o = Some (total_elapsed y) /\ iteration_time y = o_duration o /\
     forall n, o_iteration_count o = Count n -> get_current_iteration y = n - 1).
Proof. exact finish_exact. Qed.
Print Assumptions C19_finish_exact.

Theorem C19_infinite_never_finishes :
  forall o T x, plays o T x -> o_iteration_count o = Infinite -> state x = Pending \/ state x = Running.
Proof. exact infinite_never_finishes. Qed.
Print Assumptions C19_infinite_never_finishes.

Example C19_witness :
  exists y z, tick 10 (Ex.ms 100000) Ex.x0 = Some y /\ state y = JustFinished /\ iteration_time y = Ex.ms 200 /\
    tick 10 1 y = Some z /\ state z = Finished.
Proof. eexists. eexists. split; [vm_compute; reflexivity|]. repeat (split; [vm_compute; reflexivity|]); vm_compute; reflexivity. Qed.

(** C20, partial: ticking terminates unless the animation is infinite with a zero duration. *)
Theorem C20_tick_terminates_partial :
  forall x d,
  (forall c, iteration x = IterInfinite c -> duration x <> 0) ->
  (forall c m, iteration x = IterFinite c m -> m <= u32_max) ->
  exists f0 y, forall f, (f0 <= f)%nat -> tick f d x = Some y.
Proof. exact tick_terminates. Qed.
Print Assumptions C20_tick_terminates_partial.

(** What is missing is false: `animation: name infinite` (duration 0 by default) hangs at its first
    tick, whatever the number of loop turns allowed. *)
Theorem C20_tick_terminates_refuted :
  exists o x, new_animation 1 o = Some x /\ o_iteration_count o = Infinite /\ o_initial_delay o = 0 /\
  forall f d, tick f d x = None.
Proof.
  exists (mk_options 0 0 DirNormal Infinite FillNone PlayRunning). eexists.
  split; [vm_compute; reflexivity|]. split; [reflexivity|]. split; [reflexivity|].
  intros f d. apply tick_diverges; [reflexivity | reflexivity | left; reflexivity |].
  simpl. apply N.le_0_l.
Qed.
Print Assumptions C20_tick_terminates_refuted.

Example C20_witness :
  (forall c, iteration Ex.x1 = IterInfinite c -> duration Ex.x1 <> 0) /\
  (forall c m, iteration Ex.x1 = IterFinite c m -> m <= u32_max).
Proof.
  split; [intros c H; vm_compute in H; discriminate|]. intros c m H. vm_compute in H. inversion H. discriminate.
Qed.

(** C21, partial: options with at least one iteration. New options keep the elapsed time (up to the
    end): the animation stands where the new options' timeline puts that time. A finished animation
    does not fire its end again. *)
Theorem C21_update_options_partial :
  forall f o o' T x y,
  plays o T x -> playable o' -> counter_fits o' (clamp o T) -> update_options f o' x = Some y ->
  total_elapsed x = clamp o T /\ total_elapsed y = clamp o' (clamp o T) /\
  cur_dir y = dir_at (o_direction o') (get_current_iteration y) /\
  (clamp o T = 0 -> state y = Pending /\ get_current_iteration y = 0 /\ elapsed y = 0) /\
  (0 < clamp o T -> timeline o' (clamp o T) (state y) (get_current_iteration y) (iteration_time y)) /\
  (state y = Finished -> state x = Finished) /\ (state x = Finished -> state y <> JustFinished).
Proof. exact update_timeline. Qed.
Print Assumptions C21_update_options_partial.

(** What is missing is false: passing through `animation-iteration-count: 0` forgets the time, and
    the next change of options starts the animation again. *)
Theorem C21_zero_iterations_refuted :
  let zero := mk_options (o_initial_delay Ex.o) (o_duration Ex.o) (o_direction Ex.o) (Count 0) (o_fill_mode Ex.o) PlayRunning in
  exists y z, plays Ex.o (0 + Ex.ms 350) Ex.x1 /\ update_options 10 zero Ex.x1 = Some y /\
    update_options 10 Ex.o y = Some z /\ total_elapsed Ex.x1 = Ex.ms 350 /\ total_elapsed y = 0 /\ total_elapsed z = 0 /\ state z = Pending.
Proof.
  eexists. eexists. split; [exact Ex.plays_x1|]. split; [vm_compute; reflexivity|].
  repeat (split; [vm_compute; reflexivity|]); vm_compute; reflexivity.
Qed.
Print Assumptions C21_zero_iterations_refuted.

Example C21_witness :
  let faster := mk_options 0 (Ex.ms 100) DirNormal (Count 5) FillNone PlayRunning in
  exists y, plays Ex.o (0 + Ex.ms 350) Ex.x1 /\ playable faster /\ counter_fits faster (clamp Ex.o (0 + Ex.ms 350)) /\
    update_options 10 faster Ex.x1 = Some y /\ get_current_iteration y = 3 /\ elapsed y = Ex.ms 50.
Proof.
  eexists. split; [exact Ex.plays_x1|]. split; [intros n H; inversion H; split; discriminate|].
  split; [discriminate|]. split; [vm_compute; reflexivity|]. vm_compute. split; reflexivity.
Qed.

(** C22, partial: ticking a paused animation does nothing, except that one without delay that was
    never ticked goes from Pending to Running (standing at its start). *)
Theorem C22_paused_tick_partial :
  forall f d o T x y,
  plays o T x -> o_play_state o = PlayPaused -> 0 < o_duration o -> tick f d x = Some y ->
  y = x \/ (state x = Pending /\ T = 0 /\ o_initial_delay o = 0 /\ y = with_state x Running).
Proof. exact paused_tick_any. Qed.
Print Assumptions C22_paused_tick_partial.

(** That exception is real: the displayed value changes from nothing to the first frame. *)
Theorem C22_paused_tick_refuted :
  exists o x y, o_play_state o = PlayPaused /\ plays o 0 x /\ tick 5 (Ex.ms 16) x = Some y /\
    ideal_sample (fun t => t) x = None /\ ideal_sample (fun t => t) y <> None.
Proof.
  exists (mk_options 0 (Ex.ms 100) DirNormal (Count 1) FillBackwards PlayPaused). eexists. eexists.
  split; [reflexivity|]. split.
  { eapply (plays_new 5); [intros n H; inversion H; split; discriminate | vm_compute; reflexivity]. }
  split; [vm_compute; reflexivity|]. vm_compute. split; [reflexivity | discriminate].
Qed.
Print Assumptions C22_paused_tick_refuted.

(** C22.  Pausing or resuming (a change of the play state only) keeps phase, iteration, direction and
    position. *)
Theorem C22_pause_resume :
  forall f o p T x y,
  plays o T x -> 0 < total_elapsed x -> counter_fits o (total_elapsed x) -> (state x = Pending -> T < o_initial_delay o) ->
  let o' := mk_options (o_initial_delay o) (o_duration o) (o_direction o) (o_iteration_count o) (o_fill_mode o) p in
  update_options f o' x = Some y ->
  state y = state x /\ get_current_iteration y = get_current_iteration x /\ cur_dir y = cur_dir x /\
  iteration_time y = iteration_time x /\ total_elapsed y = total_elapsed x.
Proof. exact resume_same. Qed.
Print Assumptions C22_pause_resume.

Example C22_witness :
  plays Ex.o_paused (Ex.ms 350) Ex.x2 /\ state Ex.x2 = Running /\ tick 10 (Ex.ms 1000) Ex.x2 = Some Ex.x2 /\
  update_options 10 Ex.o Ex.x2 = Some Ex.x1.
Proof. split; [exact Ex.plays_x2|]. vm_compute. repeat split; reflexivity. Qed.

(** C23, partial: exact arithmetic, positive duration, at least one iteration, not canceled, and
    started (a Pending animation still waits). Then a value is emitted exactly when the animation is
    active, and it is the curve at the displayed fraction, mirrored when playing in reverse. *)
Theorem C23_emits_when_active_partial :
  forall (V : Type) (curve : ext -> V) o T x,
  plays o T x -> (state x = Pending -> T < o_initial_delay o) -> 0 < o_duration o ->
  (is_active x = true <-> ideal_sample curve x <> None) /\
  (forall v, ideal_sample curve x = Some v ->
     exists p q, shown x = Some p /\ (q == directed (cur_dir x) p)%Q /\ v = curve (Fin q)).
Proof. exact (@sample_plays). Qed.
Print Assumptions C23_emits_when_active_partial.

Example C23_witness :
  plays Ex.o (0 + Ex.ms 350) Ex.x1 /\ is_active Ex.x1 = true /\ ideal_sample (fun t => t) Ex.x1 <> None.
Proof. split; [exact Ex.plays_x1|]. vm_compute. split; [reflexivity|discriminate]. Qed.

(** What is missing is false, in four ways. Canceled animations still emit during their delay: *)
Theorem C23_canceled_emits_refuted :
  exists o T x, plays o T x /\ reachable (cancel x) /\ is_active (cancel x) = false /\
    ideal_sample (fun t => t) (cancel x) <> None /\ f32_sample (fun t => t) (cancel x) <> None.
Proof.
  exists Ex.o, 0, Ex.x0. split; [exact Ex.plays_x0|]. split.
  - apply r_cancel. apply (r_new 10 Ex.o); [intros n H; inversion H; discriminate | vm_compute; reflexivity].
  - vm_compute. repeat split; try discriminate.
Qed.
Print Assumptions C23_canceled_emits_refuted.

(** animations of zero iterations emit although Finished without forward fill: *)
Theorem C23_zero_iterations_emits_refuted :
  exists f o x, new_animation f o = Some x /\ is_active x = false /\
    ideal_sample (fun t => t) x <> None /\ f32_sample (fun t => t) x <> None.
Proof.
  exists 1%nat, (mk_options (Ex.ms 100) (Ex.ms 100) DirNormal (Count 0) FillBackwards PlayRunning). eexists.
  split; [vm_compute; reflexivity|]. vm_compute. repeat split; discriminate.
Qed.
Print Assumptions C23_zero_iterations_emits_refuted.

(** an animation of zero duration is active, and fills, but emits nothing (0/0): *)
Theorem C23_zero_duration_silent_refuted :
  exists o x y, new_animation 5 o = Some x /\ tick 5 0 x = Some y /\ is_active y = true /\
    ideal_sample (fun t => t) y = None /\ f32_sample (fun t => t) y = None.
Proof.
  exists (mk_options 0 0 DirNormal (Count 1) FillBoth PlayRunning). eexists. eexists.
  split; [vm_compute; reflexivity|]. split; [vm_compute; reflexivity|]. vm_compute. repeat split; reflexivity.
Qed.
Print Assumptions C23_zero_duration_silent_refuted.

(** in binary32 the last frame can be lost to rounding: delay 50 ms and duration 100 ms give
    (0.15 - 0.05) / 0.1 > 1, so JustFinished, although active, emits nothing without forward fill. *)
Theorem C23_rounding_loses_last_frame_refuted :
  exists o x y, new_animation 5 o = Some x /\ tick 5 (Ex.ms 150) x = Some y /\ state y = JustFinished /\
    is_active y = true /\ ideal_sample (fun t => t) y <> None /\ f32_sample (fun t => t) y = None.
Proof.
  exists (mk_options (Ex.ms 50) (Ex.ms 100) DirNormal (Count 1) FillNone PlayRunning). eexists. eexists.
  split; [vm_compute; reflexivity|]. split; [vm_compute; reflexivity|]. vm_compute. repeat split; try reflexivity. discriminate.
Qed.
Print Assumptions C23_rounding_loses_last_frame_refuted.

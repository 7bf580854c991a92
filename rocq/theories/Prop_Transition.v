(** C24, C25, C42, C43: transitions. *)
From Coq Require Import NArith QArith SpecFloat.
From Verif Require Import Base AnimationSample Transition TransitionFloat TransitionSpec TransitionProofs.

(** C24.  However time is split into ticks, the phase of a transition is a function of the time
    passed since its creation, and it stands at that time (up to its end). Any arithmetic, any
    easing, new transitions and reversed ones alike. *)
Theorem C24_timeline :
  forall F V E (op : fops F) (veq : forall a b : V, {a = b} + {a <> b}) interp (ease : E -> F -> F) vdefault o x d ds,
  created op veq interp ease vdefault o x ->
  let T := total (d :: ds) in let y := t_ticks (d :: ds) x in
  t_state y = phase_at (to_delay o) (t_duration x) T /\ t_elapsed y = N.min T (to_delay o + t_duration x).
Proof.
  intros F V E op veq interp ease vdefault o x d ds H T y.
  pose proof (timeline op veq interp ease vdefault o x d ds H) as (_ & _ & _ & _ & _ & _ & _ & G & K).
  destruct (created_fresh _ _ _ _ _ _ _ H) as [_ <-]. split; assumption.
Qed.
Print Assumptions C24_timeline.

(** C24.  While waiting, the start value is shown. *)
Theorem C24_pending_shows_start :
  forall F V E (op : fops F) interp (ease : E -> F -> F) (x : transition F V E),
  t_state x = TPending -> t_sample_value op interp ease x = Some (t_from x).
Proof. exact (@pending_shows_start). Qed.
Print Assumptions C24_pending_shows_start.

(** C24.  While running (exact arithmetic) the value shown is the interpolation at the eased fraction
    (T - delay) / duration - if the easing stays inside [0,1], see C43. *)
Theorem C24_running_value :
  forall V E (veq : forall a b : V, {a = b} + {a <> b}) interp (ease : E -> ext -> ext) vdefault o x d ds,
  created ideal veq interp ease vdefault o x ->
  let T := total (d :: ds) in let y := t_ticks (d :: ds) x in
  t_state y = TRunning ->
  exists q, (q == (Z.of_N (T - to_delay o) # 1) / (Z.of_N (t_duration x) # 1))%Q /\
    forall r, ease (t_easing x) (Fin q) = Fin r -> (0 <= r)%Q -> (r <= 1)%Q ->
      t_sample_value ideal interp ease y = Some (interp (t_curve_from x) (t_to x) (Fin r)).
Proof.
  intros V E veq interp ease vdefault o x d ds H T y Hs.
  pose proof (timeline ideal veq interp ease vdefault o x d ds H) as Ha.
  destruct (running_value interp ease x _ _ Ha Hs) as (q & Hq & Hv).
  destruct (created_fresh _ _ _ _ _ _ _ H) as [_ <-]. exists q. split; [exact Hq|].
  intros r Hr H0 H1. subst y. rewrite Hv, Hr. unfold curve_sample. simpl. apply Qle_bool_iff in H0, H1. rewrite H0, H1. reflexivity.
Qed.
Print Assumptions C24_running_value.

(** C24.  The same for a new transition from [a] to [b], in terms of [a] and [b] only: [a] until the
    delay has passed, then the interpolation from [a] to [b] at the eased fraction of the declared
    duration. *)
Theorem C24_new_transition_values :
  forall V E (interp : V -> V -> ext -> V) (ease : E -> ext -> ext) vdefault a b delay duration e d ds,
  (forall q, (q == 0)%Q -> interp a b (Fin q) = a) ->
  let T := total (d :: ds) in
  let y := t_ticks (d :: ds) (new_transition ideal interp vdefault (Some a) b (mk_topt delay duration e)) in
  ((T < delay)%N -> t_sample_value ideal interp ease y = Some a) /\
  ((delay <= T < delay + duration)%N ->
     exists q, (q == (Z.of_N (T - delay) # 1) / (Z.of_N duration # 1))%Q /\
       forall r, ease e (Fin q) = Fin r -> (0 <= r)%Q -> (r <= 1)%Q ->
         t_sample_value ideal interp ease y = Some (interp a b (Fin r))).
Proof.
  intros V E interp ease vdefault a b delay duration e d ds Hi T y.
  set (x := new_transition ideal interp vdefault (Some a) b (mk_topt delay duration e)).
  pose proof (timeline_new interp vdefault a b (mk_topt delay duration e) d ds) as Ha. fold x in Ha. change (t_ticks (d :: ds) x) with y in Ha.
  change (d + total ds)%N with T in Ha.
  pose proof Ha as (A1 & A2 & A3 & A4 & A5 & A6 & A7 & A8 & A9).
  split.
  - intros HT. rewrite pending_shows_start.
    + f_equal. rewrite A4. change (interp a b (f_clamp ideal (f_zero ideal) (f_zero ideal) (f_one ideal)) = a). rewrite clamp_zero. apply Hi. reflexivity.
    + rewrite A9. unfold phase_at. simpl t_delay. simpl t_duration.       destruct (N.leb_spec (delay + duration) T); [lia|]. destruct (N.leb_spec delay T); [lia|reflexivity].
  - intros HT. assert (Hs : t_state y = TRunning).
    { rewrite A9. unfold phase_at. simpl t_delay. simpl t_duration. destruct (N.leb_spec (delay + duration) T); [lia|]. destruct (N.leb_spec delay T); [reflexivity|lia]. }
    destruct (running_value interp ease x y T Ha Hs) as (q & Hq & Hv). exists q. split; [exact Hq|].
    intros r Hr H0 H1. rewrite Hv. simpl t_easing. simpl t_curve_from. simpl t_to. rewrite Hr. unfold curve_sample. simpl.
    apply Qle_bool_iff in H0, H1. rewrite H0, H1. reflexivity.
Qed.
Print Assumptions C24_new_transition_values.

(** C25.  Over every history of ticks, replacements and reversals (exact arithmetic, any easing, even
    one leaving [0,1]): the shortening factor lies in [0,1] and the duration never exceeds the
    declared one. *)
Theorem C25_reversal_bounds :
  forall V E (veq : forall a b : V, {a = b} + {a <> b}) interp (ease : E -> ext -> ext) vdefault o x,
  lives ideal veq interp ease vdefault o x -> in_01 (t_rev_factor x) /\ (t_duration x <= to_duration o)%N.
Proof. exact (@lives_factor). Qed.
Print Assumptions C25_reversal_bounds.

(** C25.  Reversing a running transition starts from the value it displays. *)
Theorem C25_starts_from_displayed :
  forall V E (veq : forall a b : V, {a = b} + {a <> b}) interp (ease : E -> ext -> ext) vdefault from to o o' x y v,
  lives ideal veq interp ease vdefault o x -> t_state x = TRunning -> t_rev_start x = to ->
  from_possibly_reversed ideal veq interp ease vdefault from to o' x = Some y ->
  t_sample_value ideal interp ease x = Some v ->
  t_from y = v /\ t_sample_value ideal interp ease y = Some v.
Proof.
  intros V E veq interp ease vdefault from to o o' x y v H1 H2 H3 H4 H5.
  pose proof (reversed_from_running veq interp ease vdefault from to o o' x y v H1 H2 H3 H4 H5) as Hf. split; [exact Hf|].
  rewrite <- Hf. apply pending_shows_start.
  destruct (created_fresh ideal veq interp ease vdefault o' y (created_replacing _ _ _ _ _ _ _ _ _ _ _ H1 H4)) as [(_ & Hp & _) _]. exact Hp.
Qed.
Print Assumptions C25_starts_from_displayed.

(** C25.  Toggling a property between two values [a] and [b] any number of times, at any times: every
    replacement counts as a reversal, so each one taken while running starts at the value displayed. *)
Theorem C25_toggling_starts_from_displayed :
  forall V E (veq : forall a b : V, {a = b} + {a <> b}) interp (ease : E -> ext -> ext) vdefault a b x towards back from o y v,
  (forall q, (q == 0)%Q -> interp a b (Fin q) = a) ->
  toggled ideal veq interp ease vdefault a b towards back x ->
  t_state x = TRunning ->
  from_possibly_reversed ideal veq interp ease vdefault from back o x = Some y ->
  t_sample_value ideal interp ease x = Some v ->
  t_to x = towards /\ t_to y = back /\ t_from y = v /\ t_sample_value ideal interp ease y = Some v /\ (t_duration y <= to_duration o)%N.
Proof.
  intros V E veq interp ease vdefault a b x towards back from o y v Hi Ht Hs Hy Hv.
  destruct (toggled_facts veq interp ease vdefault a b towards back x Hi Ht) as (H1 & H2 & o0 & Hl).
  split; [exact H1|]. split; [exact (reversed_to ideal veq interp ease vdefault _ _ _ _ _ Hy)|].
  destruct (C25_starts_from_displayed V E veq interp ease vdefault from back o0 o x y v Hl Hs H2 Hy Hv) as [A B].
  split; [exact A|]. split; [exact B|].
  exact (proj2 (C25_reversal_bounds V E veq interp ease vdefault o y (replaced _ _ _ _ _ _ _ _ _ _ _ Hl Hy))).
Qed.
Print Assumptions C25_toggling_starts_from_displayed.

(** C25, still in its delay: the same, for easings that start at 0 and interpolations that start at
    their first value. *)
Theorem C25_starts_from_displayed_pending_partial :
  forall V E (veq : forall a b : V, {a = b} + {a <> b}) interp (ease : E -> ext -> ext) vdefault from to o o' x y,
  (forall e q, (q == 0)%Q -> exists r, ease e (Fin q) = Fin r /\ (r == 0)%Q) ->
  (forall a b q, (q == 0)%Q -> interp a b (Fin q) = a) ->
  lives ideal veq interp ease vdefault o x -> t_state x = TPending -> t_rev_start x = to -> (0 < t_duration x)%N ->
  from_possibly_reversed ideal veq interp ease vdefault from to o' x = Some y ->
  t_sample_value ideal interp ease x = Some (t_from y).
Proof.
  intros V E veq interp ease vdefault from to o o' x y He Hi Hl Hs Hr Hd H.
  pose proof (pending_shows_start ideal interp ease x Hs) as Hv. rewrite Hv. f_equal.
  rewrite (from_is_curve_from veq interp ease vdefault o x Hi Hl). symmetry.
  exact (reversed_from_pending veq interp ease vdefault from to o o' x y Hl Hs Hr Hd He Hi H Hv).
Qed.
Print Assumptions C25_starts_from_displayed_pending_partial.

(** C42 (partial): replacing a transition of positive duration never panics (exact arithmetic, easing
    finite on [0,1]). *)
Theorem C42_reversal_no_panic_partial :
  forall V E (veq : forall a b : V, {a = b} + {a <> b}) interp (ease : E -> ext -> ext) vdefault from to o o' x,
  lives ideal veq interp ease vdefault o x -> (0 < t_duration x)%N ->
  (forall e q, (0 <= q)%Q -> (q <= 1)%Q -> exists r, ease e (Fin q) = Fin r) ->
  exists y, from_possibly_reversed ideal veq interp ease vdefault from to o' x = Some y.
Proof. exact (@reversal_ok). Qed.
Print Assumptions C42_reversal_no_panic_partial.

(** ** Binary32 witnesses *)
Module Ex.
  Definition sf_eq_dec (a b : spec_float) : {a = b} + {a <> b}.
  Proof. decide equality; [apply Bool.bool_dec | apply Bool.bool_dec | apply Z.eq_dec | apply Pos.eq_dec | apply Bool.bool_dec]. Defined.
  (** f32::lerp *)
  Definition lerp (a b t : spec_float) : spec_float := SFadd 24 128 a (SFmul 24 128 (SFsub 24 128 b a) t).
  (** easing.rs:70 Linear *)
  Definition linear (_ : unit) (t : spec_float) : spec_float := f_clamp f32 t f32_zero f32_one.
  Definition ms (n : N) : N := (n * 1000000)%N.
  Definition num (z : Z) : spec_float := f32_of_Z z.
  Definition o : transition_options unit := mk_topt (ms 500) (ms 1000) tt.
  Definition a : transition spec_float spec_float unit := new_transition f32 lerp (num 0) (Some (num 0)) (num 10) o.
End Ex.

(** C42, what is missing is false: in binary32, a plain `transition: ... 1s linear 0.5s` toggled three
    times during its delay panics. The second toggle gives a transition of duration 0; the third
    computes 0/0. *)
Theorem C42_reversal_panics_refuted :
  exists b, from_possibly_reversed f32 Ex.sf_eq_dec Ex.lerp Ex.linear (Ex.num 0) (Some (Ex.num 10)) (Ex.num 0) Ex.o
              (t_tick (Ex.ms 16) Ex.a) = Some b /\
    t_state b = TPending /\ t_duration b = 0%N /\
    lives f32 Ex.sf_eq_dec Ex.lerp Ex.linear (Ex.num 0) Ex.o (t_tick (Ex.ms 16) b) /\
    t_state (t_tick (Ex.ms 16) b) = TPending /\
    from_possibly_reversed f32 Ex.sf_eq_dec Ex.lerp Ex.linear (Ex.num 0) (Some (Ex.num 0)) (Ex.num 10) Ex.o
              (t_tick (Ex.ms 16) b) = None.
Proof.
  eexists. split; [vm_compute; reflexivity|]. split; [reflexivity|]. split; [reflexivity|].
  split; [|split; [vm_compute; reflexivity | vm_compute; reflexivity]].
  apply ticked. apply (replaced f32 Ex.sf_eq_dec Ex.lerp Ex.linear (Ex.num 0) Ex.o Ex.o (t_tick (Ex.ms 16) Ex.a) (Some (Ex.num 10)) (Ex.num 0));
    [apply ticked; apply born | vm_compute; reflexivity].
Qed.
Print Assumptions C42_reversal_panics_refuted.

(** C25 in binary32 is off by rounding: reversing after the whole 0.1 s have nearly elapsed gives a
    transition of 100000001 ns. *)
Theorem C25_duration_rounding_refuted :
  let o := mk_topt 0%N (Ex.ms 100) tt in
  let x := t_tick 99999999%N (new_transition f32 Ex.lerp (Ex.num 0) (Some (Ex.num 0)) (Ex.num 10) o) in
  exists y, t_state x = TRunning /\
    from_possibly_reversed f32 Ex.sf_eq_dec Ex.lerp Ex.linear (Ex.num 0) (Some (Ex.num 10)) (Ex.num 0) o x = Some y /\
    (to_duration o < t_duration y)%N.
Proof. eexists. split; [vm_compute; reflexivity|]. split; [vm_compute; reflexivity|]. vm_compute. reflexivity. Qed.
Print Assumptions C25_duration_rounding_refuted.

(** C25, easings that do not start at 0 (steps(1, start), constantly 1): the transition shows 0 during
    its delay, yet its reversal starts from 10. *)
Theorem C25_pending_jump_refuted :
  let ease (_ : unit) (_ : spec_float) := f32_one in
  let x := t_tick (Ex.ms 16) Ex.a in
  exists y, t_sample_value f32 Ex.lerp ease x = Some (Ex.num 0) /\
    from_possibly_reversed f32 Ex.sf_eq_dec Ex.lerp ease (Ex.num 0) (Some (Ex.num 10)) (Ex.num 0) Ex.o x = Some y /\
    t_from y = Ex.num 10.
Proof. eexists. split; [vm_compute; reflexivity|]. split; [vm_compute; reflexivity|]. vm_compute. reflexivity. Qed.
Print Assumptions C25_pending_jump_refuted.

(** C43 (partial): an active transition displays a value, if its easing stays in [0,1]
    (any arithmetic). *)
Theorem C43_active_displays_partial :
  forall F V E (op : fops F) interp (ease : E -> F -> F) (x : transition F V E),
  (forall e t, f_le op (f_zero op) (ease e t) = true /\ f_le op (ease e t) (f_one op) = true) ->
  t_sample_value op interp ease x <> None.
Proof.
  intros F V E op interp ease x He. unfold t_sample_value. destruct (orb _ _); [discriminate|].
  unfold curve_sample. destruct (He (t_easing x) (f_div op (f_sub op (f_secs op (t_elapsed x)) (f_secs op (t_delay x))) (f_secs op (t_duration x)))) as [H1 H2].
  rewrite H1, H2. discriminate.
Qed.
Print Assumptions C43_active_displays_partial.

(** C43, what is missing is false: with an easing that overshoots (cubic-bezier with a control point
    above 1) a running transition displays nothing while the easing is above 1. *)
Theorem C43_overshoot_shows_nothing_refuted :
  let ease (_ : unit) (_ : spec_float) := SFdiv 24 128 (Ex.num 5) (Ex.num 4) in
  let x := t_tick (Ex.ms 800) Ex.a in
  t_state x = TRunning /\ t_is_active x = true /\ t_sample_value f32 Ex.lerp ease x = None.
Proof. vm_compute. repeat split; reflexivity. Qed.
Print Assumptions C43_overshoot_shows_nothing_refuted.

(** ** Non-vacuity *)
Module ExQ.
  Definition lerp (a b : Q) (t : ext) : Q := match t with Fin q => (a + (b - a) * q)%Q | _ => a end.
  Definition q_eq_dec (a b : Q) : {a = b} + {a <> b}.
  Proof. decide equality; [apply Pos.eq_dec | apply Z.eq_dec]. Defined.
  Definition linear (_ : unit) (t : ext) : ext := t.
  Definition o : transition_options unit := mk_topt (Ex.ms 100) (Ex.ms 1000) tt.
  Definition a : transition ext Q unit := new_transition ideal lerp 0 (Some 0%Q) 10%Q o.
End ExQ.

(** a transition, 350 ms in (of which 100 ms of delay), reversed: it starts at 2.5 and lasts 250 ms *)
Example C24_C25_witness :
  exists y, created ideal ExQ.q_eq_dec ExQ.lerp ExQ.linear 0 ExQ.o ExQ.a /\
    let x := t_ticks [Ex.ms 50; Ex.ms 300] ExQ.a in
    t_state x = TRunning /\ lives ideal ExQ.q_eq_dec ExQ.lerp ExQ.linear 0 ExQ.o x /\ (0 < t_duration x)%N /\
    from_possibly_reversed ideal ExQ.q_eq_dec ExQ.lerp ExQ.linear 0 (Some 10%Q) (t_rev_start x) ExQ.o x = Some y /\
    (t_from y == 5 # 2)%Q /\ t_duration y = Ex.ms 250 /\ t_state y = TPending.
Proof.
  eexists. split; [constructor|]. split; [vm_compute; reflexivity|].
  split; [apply ticked; apply ticked; apply born|]. split; [vm_compute; reflexivity|].
  split; [vm_compute; reflexivity|]. vm_compute. repeat split; reflexivity.
Qed.
Example C25_toggle_witness :
  exists y z, toggled ideal ExQ.q_eq_dec ExQ.lerp ExQ.linear 0 0%Q 10%Q 0%Q 10%Q y /\
    let x := t_ticks [Ex.ms 50; Ex.ms 150] y in
    t_state x = TRunning /\
    from_possibly_reversed ideal ExQ.q_eq_dec ExQ.lerp ExQ.linear 0 (Some 0%Q) 10%Q ExQ.o x = Some z /\
    (t_from z == 3 # 2)%Q /\ t_duration z = Ex.ms 850.
Proof.
  eexists. eexists. split.
  - apply (toggle_again _ _ _ _ _ _ _ 10%Q 0%Q (t_ticks [Ex.ms 50; Ex.ms 300] ExQ.a) (Some 10%Q) ExQ.o).
    + apply toggle_tick. apply toggle_tick. apply toggle_start.
    + vm_compute; reflexivity.
  - split; [vm_compute; reflexivity|]. split; [vm_compute; reflexivity|]. split; vm_compute; reflexivity.
Qed.

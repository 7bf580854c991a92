(** Model of crates/bevy_flair_style/src/animations/animation.rs (struct Animation, non-test part).

    Durations are natural numbers of nanoseconds (N, no overflow panics: Rust's [Duration] overflows
    after 5.8e11 years).  u32 iteration counters saturate as in the code.  The name and the keyframes
    curve are not touched by the code below; the curve is the parameter [curve] of [sample_value]. *)
From Coq Require Import NArith.
From Verif Require Import Base.
Local Open Scope N_scope.

Definition u32_max : N := 4294967295.

(** animation.rs:15-26 *)
Inductive animation_direction := DirNormal | DirReverse | DirAlternate | DirAlternateReverse.
(** animation.rs:30-37 *)
Inductive iteration_count := Count (n : N) | Infinite.
(** animation.rs:57-78 *)
Inductive animation_state := Pending | Running | JustFinished | Finished | Canceled.
(** animation.rs:83-90 *)
Inductive play_state := PlayRunning | PlayPaused.
(** animation.rs:94-108 *)
Inductive fill_mode := FillNone | FillForwards | FillBackwards | FillBoth.
(** animation.rs:112-120 *)
Definition is_forwards (f : fill_mode) : bool := match f with FillForwards | FillBoth => true | _ => false end.
Definition is_backwards (f : fill_mode) : bool := match f with FillBackwards | FillBoth => true | _ => false end.

(** animation.rs:124-138 AnimationOptions *)
Record options := mk_options {
  o_initial_delay : N; o_duration : N; o_direction : animation_direction;
  o_iteration_count : iteration_count; o_fill_mode : fill_mode; o_play_state : play_state }.

(** animation.rs:163-168 *)
Inductive iteration_state := IterInfinite (current : N) | IterFinite (current max : N).
(** animation.rs:177-180 *)
Inductive current_direction := CurNormal | CurReverse.

(** animation.rs:200-236 Animation ([elapsed], [paused] are the Stopwatch's fields) *)
Record animation := mk_animation {
  initial_delay : N; duration : N; elapsed : N; paused : bool;
  iteration : iteration_state; cur_dir : current_direction;
  state : animation_state; direction : animation_direction; fill : fill_mode }.

Definition with_time (x : animation) (e : N) : animation :=
  mk_animation (initial_delay x) (duration x) e (paused x) (iteration x) (cur_dir x) (state x) (direction x) (fill x).
Definition with_state (x : animation) (s : animation_state) : animation :=
  mk_animation (initial_delay x) (duration x) (elapsed x) (paused x) (iteration x) (cur_dir x) s (direction x) (fill x).
Definition with_iteration (x : animation) (i : iteration_state) (d : current_direction) : animation :=
  mk_animation (initial_delay x) (duration x) (elapsed x) (paused x) i d (state x) (direction x) (fill x).
Definition with_paused (x : animation) (p : bool) : animation :=
  mk_animation (initial_delay x) (duration x) (elapsed x) p (iteration x) (cur_dir x) (state x) (direction x) (fill x).

(** bevy_time Stopwatch::tick: nothing happens while paused *)
Definition stopwatch_tick (d : N) (x : animation) : animation :=
  if paused x then x else with_time x (elapsed x + d).

(** animation.rs:346-355 is_on_last_iteration ([max > 0] is a debug assertion) *)
Definition is_on_last_iteration (x : animation) : bool :=
  match iteration x with IterFinite c m => m - 1 <=? c | IterInfinite _ => false end.
(** animation.rs:357-362 max_iterations *)
Definition max_iterations (x : animation) : N :=
  match iteration x with IterFinite _ m => m | IterInfinite _ => u32_max end.
(** animation.rs:365-370 get_current_iteration *)
Definition get_current_iteration (x : animation) : N :=
  match iteration x with IterFinite c _ => c | IterInfinite c => c end.
(** animation.rs:372-382 *)
Definition current_iteration_delay (x : animation) : N :=
  if get_current_iteration x =? 0 then initial_delay x else 0.
Definition current_iteration_duration (x : animation) : N := duration x + current_iteration_delay x.

(** animation.rs:385-399 total_elapsed *)
Definition total_elapsed (x : animation) : N :=
  get_current_iteration x * duration x +
  (if 0 <? get_current_iteration x then initial_delay x else 0) +
  N.min (elapsed x) (current_iteration_duration x).

(** animation.rs:403-410 is_active *)
Definition is_active (x : animation) : bool :=
  match state x with
  | Running | JustFinished => true
  | Pending => is_backwards (fill x)
  | Finished => is_forwards (fill x)
  | Canceled => false
  end.

(** animation.rs:422-431 set_play_state *)
Definition set_play_state (p : play_state) (x : animation) : animation :=
  with_paused x (match p with PlayPaused => true | PlayRunning => false end).

(** animation.rs:434-436 cancel *)
Definition cancel (x : animation) : animation := with_state x Canceled.

(** animation.rs:438-443 can_be_ticked *)
Definition can_be_ticked (x : animation) : bool :=
  match state x with Pending | Running | JustFinished => true | _ => false end.

Definition flip (d : current_direction) : current_direction :=
  match d with CurNormal => CurReverse | CurReverse => CurNormal end.

(** animation.rs:492-516 iterate *)
Definition iterate (x : animation) : animation :=
  with_iteration x
    (match iteration x with
     | IterInfinite c => IterInfinite (N.min (c + 1) u32_max)
     | IterFinite c m => IterFinite (N.min (N.min (c + 1) u32_max) m) m
     end)
    (match direction x with
     | DirAlternate | DirAlternateReverse => flip (cur_dir x)
     | _ => cur_dir x
     end).

(** animation.rs:479-489: the while loop.  [None] = the fuel ran out; the code terminates on [x] iff
    some fuel gives [Some]. *)
Fixpoint iterate_loop (fuel : nat) (x : animation) : option animation :=
  match fuel with
  | O => None
  | S fuel =>
      if current_iteration_duration x <=? elapsed x then
        if is_on_last_iteration x
        then Some (with_state (with_time x (current_iteration_duration x)) JustFinished)
        else iterate_loop fuel (iterate (with_time x (elapsed x - current_iteration_duration x)))
      else Some x
  end.

(** animation.rs:473-490 iterate_if_necessary *)
Definition iterate_if_necessary (fuel : nat) (x : animation) : option animation :=
  match state x with Running => iterate_loop fuel x | _ => Some x end.

(** animation.rs:446-470 tick *)
Definition tick (fuel : nat) (d : N) (x : animation) : option animation :=
  if negb (can_be_ticked x) then Some x
  else match state x with
  | JustFinished =>
      let x' := stopwatch_tick d x in
      Some (if elapsed x <? elapsed x' then with_state x' Finished else x')
  | _ =>
      let x1 := stopwatch_tick d x in
      let x2 := match state x1 with
                | Pending => if current_iteration_delay x1 <=? elapsed x1 then with_state x1 Running else x1
                | _ => x1
                end in
      iterate_if_necessary fuel x2
  end.

(** animation.rs:301-331: the state set by update_options before the elapsed time is replayed *)
Definition reset_options (o : options) : animation :=
  mk_animation (o_initial_delay o) (o_duration o) 0 false
    (match o_iteration_count o with Count n => IterFinite 0 n | Infinite => IterInfinite 0 end)
    (match o_direction o with DirNormal | DirAlternate => CurNormal | _ => CurReverse end)
    (match o_iteration_count o with Count 0 => Finished | _ => Pending end)
    (o_direction o) (o_fill_mode o).

(** animation.rs:296-343 update_options *)
Definition update_options (fuel : nat) (o : options) (x : animation) : option animation :=
  let total := total_elapsed x in
  let y := reset_options o in
  match (if 0 <? total then tick fuel total y else Some y) with
  | None => None
  | Some y1 =>
      match (match state x, state y1 with
             | Finished, JustFinished => tick fuel 1000000 y1
             | _, _ => Some y1
             end) with
      | None => None
      | Some y2 => Some (set_play_state (o_play_state o) y2)
      end
  end.

(** animation.rs:266-291 new: an empty animation updated with the options *)
Definition new_animation (fuel : nat) (o : options) : option animation :=
  update_options fuel o
    (mk_animation 0 0 0 false (IterInfinite u32_max) CurNormal Canceled DirNormal FillNone).

(** Animations obtainable through the API (the [pub] fields are not written by the crate). *)
Inductive reachable : animation -> Prop :=
| r_new : forall f o x, (forall n, o_iteration_count o = Count n -> n <= u32_max) ->
    new_animation f o = Some x -> reachable x
| r_tick : forall f d x y, reachable x -> tick f d x = Some y -> reachable y
| r_update : forall f o x y, (forall n, o_iteration_count o = Count n -> n <= u32_max) ->
    reachable x -> update_options f o x = Some y -> reachable y
| r_cancel : forall x, reachable x -> reachable (cancel x).

(** Ticking by a sequence of deltas. *)
Fixpoint ticks (fuel : nat) (ds : list N) (x : animation) : option animation :=
  match ds with
  | [] => Some x
  | d :: r => match tick fuel d x with Some y => ticks fuel r y | None => None end
  end.

(** animation.rs:519-545 sample_value.  The f32 computations are parameters, instantiated below once
    with exact extended rationals and once with IEEE binary32. *)
Section Sample.
  Context {F V : Type}.
  Variables (as_secs : N -> F) (fsub fdiv : F -> F -> F) (in_unit lt0 ge1 : F -> bool) (f0 f1 : F) (curve : F -> V).

  Definition sample_t (x : animation) : F :=
    fdiv (fsub (as_secs (elapsed x)) (as_secs (current_iteration_delay x))) (as_secs (duration x)).
  (** animation.rs:183-189 transform_t *)
  Definition transform_t (d : current_direction) (t : F) : F :=
    match d with CurNormal => t | CurReverse => fsub f1 t end.
  Definition sample_value (x : animation) : option V :=
    let t := sample_t x in
    let running := match state x with Running | JustFinished => true | _ => false end in
    if in_unit t && running then Some (curve (transform_t (cur_dir x) t))
    else if lt0 t && is_backwards (fill x) then Some (curve (transform_t (cur_dir x) f0))
    else if ge1 t && is_forwards (fill x) then Some (curve (transform_t (cur_dir x) f1))
    else None.
End Sample.

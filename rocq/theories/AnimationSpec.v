(** Specification of the animation timeline, as a function of the total time only. *)
From Coq Require Import NArith QArith.
From Verif Require Import Base Animation.
Local Open Scope N_scope.

(** Direction in which iteration [k] plays. *)
Definition dir_at (d : animation_direction) (k : N) : current_direction :=
  match d with
  | DirNormal => CurNormal
  | DirReverse => CurReverse
  | DirAlternate => if N.even k then CurNormal else CurReverse
  | DirAlternateReverse => if N.even k then CurReverse else CurNormal
  end.

(** When the animation ends ([None]: never). *)
Definition end_time (o : options) : option N :=
  match o_iteration_count o with
  | Count n => Some (o_initial_delay o + n * o_duration o)
  | Infinite => None
  end.

Definition past_end (o : options) (T : N) : Prop :=
  match end_time o with Some e => e <= T | None => False end.

(** What an animation with options [o] shows once time [T] has passed: its phase, its iteration and
    the time inside the iteration. *)
Inductive timeline (o : options) (T : N) : animation_state -> N -> N -> Prop :=
| tl_pending : T < o_initial_delay o -> timeline o T Pending 0 0
| tl_running : o_initial_delay o <= T -> ~ past_end o T ->
    timeline o T Running ((T - o_initial_delay o) / o_duration o) ((T - o_initial_delay o) mod o_duration o)
| tl_finished : forall n s, o_iteration_count o = Count n -> o_initial_delay o + n * o_duration o <= T ->
    (s = JustFinished \/ s = Finished) ->
    timeline o T s (n - 1) (o_duration o).

(** Time inside the current iteration, delay excluded. *)
Definition iteration_time (x : animation) : N :=
  N.min (elapsed x - current_iteration_delay x) (duration x).

(** The u32 iteration counter has not overflowed. *)
Definition counter_fits (o : options) (T : N) : Prop :=
  match o_iteration_count o with
  | Count n => n <= u32_max
  | Infinite => (T - o_initial_delay o) / o_duration o < u32_max
  end.

Definition sum (ds : list N) : N := fold_right N.add 0 ds.

Definition phase_rank (s : animation_state) : nat :=
  match s with Pending => 0 | Running => 1 | JustFinished => 2 | Finished => 3 | Canceled => 4 end.

(** Options with at least one iteration, in the range of the u32 counter. *)
Definition playable (o : options) : Prop := forall n, o_iteration_count o = Count n -> 1 <= n <= u32_max.

(** [T] clamped at the end of the animation with options [o]. *)
Definition clamp (o : options) (T : N) : N :=
  match end_time o with Some e => N.min T e | None => T end.

(** [plays o T x]: [x] was obtained through the API, its current options are [o] and the time it has
    been playing (not paused, and counted up to the end when options are replaced) is [T]. *)
Inductive plays : options -> N -> animation -> Prop :=
| plays_new : forall f o x, playable o -> new_animation f o = Some x -> plays o 0 x
| plays_tick : forall f d o T x y, plays o T x ->
    let T' := match o_play_state o with PlayPaused => T | PlayRunning => T + d end in
    counter_fits o T' -> tick f d x = Some y -> plays o T' y
| plays_update : forall f o o' T x y, plays o T x -> playable o' ->
    counter_fits o' (clamp o T) -> update_options f o' x = Some y -> plays o' (clamp o T) y.

(** ** What is displayed *)
Definition progress (num den : N) : Q := ((Z.of_N num # 1) / (Z.of_N den # 1))%Q.
(** The fraction of the iteration shown in each phase: nothing when not active. *)
Definition shown (x : animation) : option Q :=
  match state x with
  | Running | JustFinished => Some (progress (iteration_time x) (duration x))
  | Pending => if is_backwards (fill x) then Some 0%Q else None
  | Finished => if is_forwards (fill x) then Some 1%Q else None
  | Canceled => None
  end.
(** The same fraction on the curve, once the direction is taken into account. *)
Definition directed (d : current_direction) (q : Q) : Q :=
  match d with CurNormal => q | CurReverse => (1 - q)%Q end.

(** Model of crates/bevy_flair_style/src/animations/transition.rs (non-test part).

    Durations are natural numbers of nanoseconds.  The f32 operations are the fields of [fops]; they
    are instantiated with exact extended rationals and with IEEE binary32 in TransitionFloat.v.
    Values, easing curves and interpolation are parameters: [interp a b t] is the reflect-based
    interpolation (reflect.rs), [ease o t] the easing curve built from the options (easing.rs). *)
From Coq Require Import NArith Bool.
From Verif Require Import Base.
Local Open Scope N_scope.

Record fops (F : Type) := mk_fops {
  f_secs : N -> F;               (* Duration::as_secs_f32 *)
  f_from_secs : F -> option N;   (* Duration::from_secs_f32; None = panic *)
  f_add : F -> F -> F; f_sub : F -> F -> F; f_mul : F -> F -> F; f_div : F -> F -> F;
  f_abs : F -> F; f_lt : F -> F -> bool; f_le : F -> F -> bool; f_nan : F -> bool;
  f_zero : F; f_one : F }.
Arguments mk_fops {F}. Arguments f_secs {F}. Arguments f_from_secs {F}. Arguments f_add {F}. Arguments f_sub {F}.
Arguments f_mul {F}. Arguments f_div {F}. Arguments f_abs {F}. Arguments f_lt {F}. Arguments f_le {F}. Arguments f_nan {F}.
Arguments f_zero {F}. Arguments f_one {F}.

(** transition.rs:22-33 TransitionState *)
Inductive transition_state := TPending | TRunning | TFinished | TCanceled.

Section Transition.
  Context {F V E : Type} (op : fops F) (veq : forall a b : V, {a = b} + {a <> b}).
  Variables (interp : V -> V -> F -> V) (ease : E -> F -> F) (vdefault : V).

  (** f32::clamp and f32::max *)
  Definition f_clamp (x lo hi : F) : F := if f_lt op x lo then lo else if f_lt op hi x then hi else x.
  Definition f_max (x y : F) : F := if f_nan op x then y else if f_nan op y then x else if f_lt op x y then y else x.

  (** transition.rs:11-19 TransitionOptions *)
  Record transition_options := mk_topt { to_delay : N; to_duration : N; to_easing : E }.

  (** transition.rs:36-74 Transition.  The [Timer] (TimerMode::Once) is its [elapsed] and [t_end]
      (its duration); the interpolation curve is determined by [t_curve_from] and [t_to]. *)
  Record transition := mk_transition {
    t_delay : N; t_duration : N; t_end : N; t_elapsed : N;
    t_from : V; t_to : V; t_easing : E; t_curve_from : V; t_state : transition_state;
    t_rev_start : V; t_rev_factor : F }.

  (** bevy_math Curve::sample / sample_clamped on curves over the unit interval (curves.rs:62-95) *)
  Definition curve_sample (a b : V) (t : F) : option V :=
    if f_le op (f_zero op) t && f_le op t (f_one op) then Some (interp a b t) else None.
  Definition curve_sample_clamped (a b : V) (t : F) : V := interp a b (f_clamp t (f_zero op) (f_one op)).

  (** transition.rs:96-126 Transition::new *)
  Definition new_transition (from : option V) (to : V) (o : transition_options) : transition :=
    let start := match from with Some v => v | None => vdefault end in
    let from' := curve_sample_clamped start to (f_zero op) in
    mk_transition (to_delay o) (to_duration o) (to_duration o + to_delay o) 0
      from' to (to_easing o) start TPending from' (f_one op).

  (** transition.rs:141-143 elapsed_secs *)
  Definition elapsed_secs (x : transition) : F :=
    f_max (f_sub op (f_secs op (t_elapsed x)) (f_secs op (t_delay x))) (f_zero op).

  (** transition.rs:147-152 is_active, 231-236 can_be_ticked *)
  Definition t_is_active (x : transition) : bool := match t_state x with TPending | TRunning => true | _ => false end.

  (** transition.rs:180-182 *)
  Definition transition_progress (x : transition) : F :=
    f_clamp (f_div op (elapsed_secs x) (f_secs op (t_duration x))) (f_zero op) (f_one op).
  Definition easing_output (x : transition) : F := ease (t_easing x) (transition_progress x).
  (** transition.rs:188-193 *)
  Definition reversing_factor (x : transition) : F :=
    f_clamp (f_abs op (f_add op (f_mul op (easing_output x) (t_rev_factor x)) (f_sub op (f_one op) (t_rev_factor x))))
            (f_zero op) (f_one op).

  (** transition.rs:154-215 update_for_possibly_reversed_transition ([None] = panic) *)
  Definition update_for_possibly_reversed (self replaced : transition) : option transition :=
    if veq (t_rev_start replaced) (t_to self) then
      let factor := reversing_factor replaced in
      match f_from_secs op (f_mul op (f_secs op (t_duration self)) factor) with
      | None => None
      | Some d =>
          let from' := match curve_sample (t_curve_from replaced) (t_to replaced) (easing_output replaced) with
                       | Some v => v | None => t_from self end in
          Some (mk_transition (t_delay self) d (d + t_delay self) 0 from' (t_to self) (t_easing self) from'
                  (t_state self) (t_to replaced) factor)
      end
    else Some self.

  (** transition.rs:128-138 from_possibly_reversed_transition *)
  Definition from_possibly_reversed (from : option V) (to : V) (o : transition_options) (replaced : transition) : option transition :=
    update_for_possibly_reversed (new_transition from to o) replaced.

  (** transition.rs:218-228 sample_value *)
  Definition t_sample_value (x : transition) : option V :=
    let t := f_div op (f_sub op (f_secs op (t_elapsed x)) (f_secs op (t_delay x))) (f_secs op (t_duration x)) in
    if f_lt op t (f_zero op) || (match t_state x with TPending => true | _ => false end)
    then Some (t_from x)
    else curve_sample (t_curve_from x) (t_to x) (ease (t_easing x) t).

  (** transition.rs:239-254 tick; bevy_time Timer::tick (Once): a finished timer does not move, and
      the elapsed time is set to the duration when it finishes *)
  Definition t_tick (delta : N) (x : transition) : transition :=
    if t_is_active x then
      let e := if t_end x <=? t_elapsed x + delta then t_end x else t_elapsed x + delta in
      let fin := t_end x <=? t_elapsed x + delta in
      let s := if fin then TFinished
               else match t_state x with
                    | TPending => if t_delay x <=? e then TRunning else TPending
                    | s => s
                    end in
      mk_transition (t_delay x) (t_duration x) (t_end x) e (t_from x) (t_to x) (t_easing x) (t_curve_from x) s
        (t_rev_start x) (t_rev_factor x)
    else x.

  (** components.rs:857-861 the state set when the transition option disappears *)
  Definition t_cancel (x : transition) : transition :=
    mk_transition (t_delay x) (t_duration x) (t_end x) (t_elapsed x) (t_from x) (t_to x) (t_easing x) (t_curve_from x) TCanceled
      (t_rev_start x) (t_rev_factor x).
End Transition.
Arguments transition : clear implicits.
Arguments transition_options : clear implicits.

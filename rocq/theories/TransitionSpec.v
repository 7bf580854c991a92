(** Specification vocabulary for transitions. *)
From Coq Require Import NArith QArith.
From Verif Require Import Base AnimationSample Transition TransitionFloat.

Section Spec.
  Context {F V E : Type} (op : fops F) (veq : forall a b : V, {a = b} + {a <> b}).
  Variables (interp : V -> V -> F -> V) (ease : E -> F -> F) (vdefault : V).

  (** [lives o x]: [x] is a transition obtained by any history of creation, ticks and replacements;
      [o] are the options it was created with. *)
  Inductive lives : transition_options E -> transition F V E -> Prop :=
  | born : forall from to o, lives o (new_transition op interp vdefault from to o)
  | ticked : forall o x d, lives o x -> lives o (t_tick d x)
  | canceled : forall o x, lives o x -> lives o (t_cancel x)
  | replaced : forall o o' x from to y, lives o x ->
      from_possibly_reversed op veq interp ease vdefault from to o' x = Some y -> lives o' y.

  (** Just created, in one of the two ways. *)
  Inductive created : transition_options E -> transition F V E -> Prop :=
  | created_new : forall from to o, created o (new_transition op interp vdefault from to o)
  | created_replacing : forall o o' x from to y, lives o x ->
      from_possibly_reversed op veq interp ease vdefault from to o' x = Some y -> created o' y.

  (** [toggled a b towards back x]: [x] comes from a transition from [a] to [b] whose target was then
      switched to and fro any number of times, at any times; it now runs towards [towards] (one of the
      two) and [back] is the other. *)
  Inductive toggled (a b : V) : V -> V -> transition F V E -> Prop :=
  | toggle_start : forall o, toggled a b b a (new_transition op interp vdefault (Some a) b o)
  | toggle_tick : forall towards back x d, toggled a b towards back x -> toggled a b towards back (t_tick d x)
  | toggle_again : forall towards back x from o y, toggled a b towards back x ->
      from_possibly_reversed op veq interp ease vdefault from back o x = Some y -> toggled a b back towards y.
End Spec.

Definition total (ds : list N) : N := fold_right N.add 0%N ds.
Definition t_ticks {F V E} (ds : list N) (x : transition F V E) : transition F V E := fold_left (fun x d => t_tick d x) ds x.

(** The phase after time [T]. *)
Definition phase_at (delay duration T : N) : transition_state :=
  if (delay + duration <=? T)%N then TFinished else if (delay <=? T)%N then TRunning else TPending.

(** [factor] is a rational in [0, 1]. *)
Definition in_01 (f : ext) : Prop := exists q, f = Fin q /\ (0 <= q)%Q /\ (q <= 1)%Q.

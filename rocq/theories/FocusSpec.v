(** Histories for focus synchronisation. *)
From Verif Require Import Base Focus.

(** One frame: the focused entity, whether focus is visible, the change flags, the entities with style
    data and those that got it since the last frame. *)
Record fframe := mk_fframe { focus_of : option nat; focus_changed : bool; visible_of : bool; visible_changed : bool;
                             styled : nat -> bool; fresh : nat -> bool }.
(** Change detection never misses a change; data that is not fresh was there before. *)
Definition faithful (f0 f : fframe) : Prop :=
  (focus_of f <> focus_of f0 -> focus_changed f = true) /\ (visible_of f <> visible_of f0 -> visible_changed f = true) /\
  (forall e, styled f e = true -> fresh f e = false -> styled f0 e = true).
(** An entity does not get its style data while it keeps the focus. *)
Definition styled_before_focus (f0 f : fframe) : Prop :=
  forall e, fresh f e = true -> focus_of f = Some e -> focus_of f0 <> Some e.

Definition data_at (f : fframe) (d : styles) : styles :=
  fun e => if styled f e then (if fresh f e then Some (mk_focus false false) else d e) else None.
Definition focus_frame (f : fframe) (s : styles * option nat) : styles * option nat :=
  sync_input_focus (Some (focus_of f, focus_changed f)) (Some (visible_of f, visible_changed f)) (data_at f (fst s)) (snd s).
Definition no_focus : fframe := mk_fframe None false false false (fun _ => false) (fun _ => false).
Fixpoint chained (R : fframe -> fframe -> Prop) (f0 : fframe) (fs : list fframe) : Prop :=
  match fs with [] => True | f :: fs => R f0 f /\ chained R f fs end.
Definition after_frames (fs : list fframe) : styles := fst (fold_left (fun s f => focus_frame f s) fs (fun _ => None, None)).

(** The same frame in an application without the [InputFocusVisible] resource (systems.rs:308-310) or without [InputFocus] (304-306). *)
Definition focus_frame_without_visible (f : fframe) (s : styles * option nat) : styles * option nat :=
  sync_input_focus (Some (focus_of f, focus_changed f)) None (data_at f (fst s)) (snd s).
Definition focus_frame_without_focus (visible : resource bool) (f : fframe) (s : styles * option nat) : styles * option nat :=
  sync_input_focus None visible (data_at f (fst s)) (snd s).
Definition after_frames_by (step : fframe -> styles * option nat -> styles * option nat) (fs : list fframe) : styles :=
  fst (fold_left (fun s f => step f s) fs (fun _ => None, None)).

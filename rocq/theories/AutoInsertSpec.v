(** Specification vocabulary for automatic insertion and removal of components. *)
From Verif Require Import Base Inherit NodeProps AutoInsert.

(** The properties of a component: a range of ids *)
Definition belongs {V} (r : registration V) (p : nat) : Prop := r_start r <= p < r_end r.
(** Registered component types are distinct and no property belongs to two of them (C15). *)
Definition good_registry {V} (regs : list (registration V)) : Prop :=
  NoDup (map r_type regs) /\
  forall r r' p, In r regs -> In r' regs -> belongs r p -> belongs r' p -> r = r'.
Definition has_value {V} (c : nat -> cvalue V) (r : registration V) : Prop := exists p v, belongs r p /\ c p = CVal v.
Definition present {V} (e : entity V) (t : nat) : Prop := comps e t <> None.

(** ** Histories *)
(** What the user does with components between frames *)
Inductive user_op (V : Type) := UInsert (t : nat) (c : nat -> V) | UChange (t : nat) (c : nat -> V) | URemove (t : nat).
Arguments UInsert {V}.
Arguments UChange {V}.
Arguments URemove {V}.
(** An entity together with the types of the components that the user inserted (and did not remove) *)
Record owned (V : Type) := mk_owned { o_entity : entity V; o_mine : list nat }.
Arguments mk_owned {V}.
Arguments o_entity {V}.
Arguments o_mine {V}.
Definition put {V} (e : entity V) (t : nat) (o : option (nat -> V)) : entity V :=
  mk_entity (fun a => if Nat.eqb a t then o else comps e a) (auto e) (e_computed e) (e_last_anim e).
Definition user_step {V} (u : user_op V) (s : owned V) : owned V :=
  match u with
  | UInsert t c => mk_owned (put (o_entity s) t (Some c)) (t :: o_mine s)
  | UChange t c => mk_owned (match comps (o_entity s) t with Some _ => put (o_entity s) t (Some c) | None => o_entity s end) (o_mine s)
  | URemove t => mk_owned (put (o_entity s) t None) (filter (fun a => negb (Nat.eqb a t)) (o_mine s))
  end.
Inductive event (V : Type) := User (u : user_op V) | Frame (f : aframe V).
Arguments User {V}.
Arguments Frame {V}.
Definition event_step {V} (accepts : nat -> V -> bool) veq (regs : list (registration V)) (ev : event V) (s : owned V) : owned V :=
  match ev with
  | User u => user_step u s
  | Frame f => mk_owned (aframe_step accepts veq regs f (o_entity s)) (o_mine s)
  end.
Definition play {V} (accepts : nat -> V -> bool) veq (regs : list (registration V)) (evs : list (event V)) (s : owned V) : owned V :=
  fold_left (fun s ev => event_step accepts veq regs ev s) evs s.
(** A spawned entity with the user's components [m] (of types [mine]) *)
Definition spawned {V} (m : nat -> option (nat -> V)) (mine : list nat) : owned V :=
  mk_owned (mk_entity m [] (fun _ => CNone) (fun _ => CNone)) mine.

(** The user leaves to the style what the style inserted: inserts only components that are absent and removes none. *)
Definition polite {V} (u : user_op V) (s : owned V) : Prop :=
  match u with UInsert t _ => comps (o_entity s) t = None | UChange _ _ => True | URemove _ => False end.
(** Weaker: the user may remove the own components (and put them back), but does not insert over or remove a component
    that the style inserted. *)
Definition considerate {V} (u : user_op V) (s : owned V) : Prop :=
  match u with UInsert t _ => comps (o_entity s) t = None | UChange _ _ => True | URemove t => In t (o_mine s) end.
(** What the rest of the frame guarantees: values are only computed in frames with a change; the values that the new ones are compared
    with are those of the previous frame, or nothing after a reset, or those that a new transition set (only where a
    style value existed); values have the type of their property. *)
Definition sound_frame {V} (accepts : nat -> V -> bool) (f : aframe V) (e : entity V) : Prop :=
  (a_changed f = false -> forall p, a_pending f p = e_computed e p) /\
  (forall p, (a_base f p = CNone /\ a_last f p = CNone) \/ (a_base f p = e_computed e p /\ a_last f p = e_last_anim e p) \/ e_computed e p <> CNone) /\
  (forall p v, a_pending f p = CVal v \/ a_panim f p = CVal v -> accepts p v = true).
(** Animated components also have a style value. *)
Definition styled_animations {V} (regs : list (registration V)) (f : aframe V) : Prop :=
  forall r, In r regs -> has_value (a_panim f) r -> has_value (a_pending f) r.
(** Conditions along a history *)
Fixpoint along {V} (accepts : nat -> V -> bool) veq (regs : list (registration V)) (P : event V -> owned V -> Prop) (evs : list (event V)) (s : owned V) : Prop :=
  match evs with [] => True | ev :: evs => P ev s /\ along accepts veq regs P evs (event_step accepts veq regs ev s) end.

(** The value in effect: the animation's, or else the style's *)
Definition effective {V} (anim style : cvalue V) : cvalue V := match anim with CVal v => CVal v | CNone => style end.

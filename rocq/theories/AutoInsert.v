(** Model of how property values reach the components of an entity, and of the automatic insertion and removal
    of components: crates/bevy_flair_core/src/component_properties.rs (ComponentPropertiesRegistration) and
    crates/bevy_flair_style/src/systems.rs:1179-1335 (apply_computed_properties, observe_on_component_auto_inserted,
    auto_remove_components).

    A component is the function from property ids to the values of its fields (the reflection paths of
    component_property.rs are not modelled).  [V]: values. *)
From Verif Require Import Base Inherit NodeProps.

(** component_properties.rs:72-79; [r_default]: ComponentFns::default *)
Record registration (V : Type) := mk_registration {
  r_type : nat; r_start : nat; r_end : nat; r_auto : bool; r_mutable : bool; r_default : nat -> V }.
Arguments mk_registration {V}.
Arguments r_type {V}.
Arguments r_start {V}.
Arguments r_end {V}.
Arguments r_auto {V}.
Arguments r_mutable {V}.
Arguments r_default {V}.
Definition r_range {V} (r : registration V) : list nat := seq (r_start r) (r_end r - r_start r).

(** Commands queued for the entity: insert a component, trigger ComponentAutoInserted, remove a component *)
Inductive command (V : Type) := Insert (t : nat) (c : nat -> V) | Event (t : nat) | Remove (t : nat).
Arguments Insert {V}.
Arguments Event {V}.
Arguments Remove {V}.

(** One entity: its components and the part of [NodeProperties] that matters here (442-463) *)
Record entity (V : Type) := mk_entity {
  comps : nat -> option (nat -> V); auto : list nat; e_computed : nat -> cvalue V; e_last_anim : nat -> cvalue V }.
Arguments mk_entity {V}.
Arguments comps {V}.
Arguments auto {V}.
Arguments e_computed {V}.
Arguments e_last_anim {V}.

Section AutoInsert.
  Context {V : Type}.
  (** whether [property.apply_value] accepts the value (component_property.rs:33-47 try_apply) *)
  Variable accepts : nat -> V -> bool.
  Variable veq : forall a b : V, {a = b} + {a <> b}.

  Definition set_field (c : nat -> V) (p : nat) (v : V) : nat -> V := fun q => if Nat.eqb q p then v else c q.
  Definition set_comp (m : nat -> option (nat -> V)) (t : nat) (o : option (nat -> V)) : nat -> option (nat -> V) :=
    fun a => if Nat.eqb a t then o else m a.
  (** PropertyMap::take *)
  Definition take (vals : nat -> option V) (p : nat) : nat -> option V := fun q => if Nat.eqb q p then None else vals q.

  (** component_properties.rs:123-143 internal_apply_values.  The result: the component, the remaining values, and
      [Some any_property_set] or [None] for an error. *)
  Fixpoint internal_apply (ids : list nat) (c : nat -> V) (vals : nat -> option V) (any : bool) : (nat -> V) * (nat -> option V) * option bool :=
    match ids with
    | [] => (c, vals, Some any)
    | p :: ids =>
        match vals p with
        | None => internal_apply ids c vals any
        | Some v => if accepts p v then internal_apply ids (set_field c p v) (take vals p) true
                    else (c, take vals p, None)
        end
    end.

  (** component_properties.rs:251-285 apply_values_ref: components and values after it, and what it queues *)
  Definition apply_values_ref (r : registration V) (m : nat -> option (nat -> V)) (vals : nat -> option V) : (nat -> option V) * list (command V) :=
    match m (r_type r) with
    | Some c => match internal_apply (r_range r) c vals false with
                | (c', vals', Some true) => (vals', [Insert (r_type r) c'])
                | (_, vals', _) => (vals', [])
                end
    | None => if r_auto r then
                match internal_apply (r_range r) (r_default r) vals false with
                | (c', vals', Some true) => (vals', [Insert (r_type r) c'; Event (r_type r)])
                | (_, vals', _) => (vals', [])
                end
              else (vals, [])
    end.
  (** component_properties.rs:206-246 apply_values_mut.  An error leaves the fields applied before it. *)
  Definition apply_values_mut (r : registration V) (m : nat -> option (nat -> V)) (vals : nat -> option V) : (nat -> option (nat -> V)) * (nat -> option V) * list (command V) :=
    if negb (r_mutable r) then let (vals', q) := apply_values_ref r m vals in (m, vals', q)
    else match m (r_type r) with
         | Some c => let '(c', vals', _) := internal_apply (r_range r) c vals false in (set_comp m (r_type r) (Some c'), vals', [])
         | None => if r_auto r then
                     match internal_apply (r_range r) (r_default r) vals false with
                     | (c', vals', Some true) => (m, vals', [Insert (r_type r) c'; Event (r_type r)])
                     | (_, vals', _) => (m, vals', [])
                     end
                   else (m, vals, [])
         end.
  (** systems.rs:1254-1268, the loop over the registrations *)
  Fixpoint apply_all (regs : list (registration V)) (m : nat -> option (nat -> V)) (vals : nat -> option V) : (nat -> option (nat -> V)) * list (command V) :=
    match regs with
    | [] => (m, [])
    | r :: regs => let '(m', vals', q) := apply_values_mut r m vals in
                   let (m'', q') := apply_all regs m' vals' in (m'', q ++ q')
    end.

  (** CommandQueue::apply; [Event] runs observe_on_component_auto_inserted (systems.rs:1279-1288) *)
  Definition run_command (c : command V) (s : (nat -> option (nat -> V)) * list nat) : (nat -> option (nat -> V)) * list nat :=
    match c with
    | Insert t x => (set_comp (fst s) t (Some x), snd s)
    | Event t => (fst s, t :: snd s)
    | Remove t => (set_comp (fst s) t None, snd s)
    end.
  Definition run_commands (q : list (command V)) (s : (nat -> option (nat -> V)) * list nat) : (nat -> option (nat -> V)) * list nat :=
    fold_left (fun s c => run_command c s) q s.

  (** systems.rs:1310-1333 with component_properties.rs:316-342 auto_remove_deferred: what is queued and what is left of
      auto_inserted_components *)
  Fixpoint auto_remove_loop (regs : list (registration V)) (m : nat -> option (nat -> V)) (computed : nat -> cvalue V) (a : list nat) : list (command V) * list nat :=
    match regs with
    | [] => ([], a)
    | r :: regs =>
        if negb (existsb (Nat.eqb (r_type r)) a) then auto_remove_loop regs m computed a
        else if r_auto r && (match m (r_type r) with Some _ => true | None => false end) && forallb (fun p => negb (is_value (computed p))) (r_range r)
             then let (q, a') := auto_remove_loop regs m computed (filter (fun t => negb (Nat.eqb t (r_type r))) a) in (Remove (r_type r) :: q, a')
             else auto_remove_loop regs m computed a
    end.
  Definition auto_remove (regs : list (registration V)) (e : entity V) : entity V :=
    match auto e with
    | [] => e
    | _ => let (q, a) := auto_remove_loop regs (comps e) (e_computed e) (auto e) in
           let (m, a') := run_commands q (comps e, a) in mk_entity m a' (e_computed e) (e_last_anim e)
    end.

  (** What a frame brings to the entity.  [a_changed]: some node of the app got new property values
      (GlobalChangeDetection::any_property_value_changed); [a_pending], [a_panim]: the pending computed and animation
      values; [a_base], [a_last]: computed_values and last_computed_animation_values as NodeProperties::reset and
      create_transitions (components.rs:599-682) left them in this frame. *)
  Record aframe := mk_aframe { a_changed : bool; a_pending : nat -> cvalue V; a_panim : nat -> cvalue V; a_base : nat -> cvalue V; a_last : nat -> cvalue V }.

  (** systems.rs:1179-1335: the changes of the properties (components.rs:747-818, NodeProps.new_value), their
      application, the queue, then auto_remove_components if something changed *)
  Definition aframe_step (regs : list (registration V)) (f : aframe) (e : entity V) : entity V :=
    let changes p := match new_value veq (a_pending f p) (a_base f p) (a_panim f p) (a_last f p) with Some (CVal v) => Some v | _ => None end in
    let (m, q) := apply_all regs (comps e) changes in
    let (m', a') := run_commands q (m, auto e) in
    let e' := mk_entity m' a' (a_pending f) (a_panim f) in
    if a_changed f then auto_remove regs e' else e'.
End AutoInsert.
Arguments mk_aframe {V}.
Arguments aframe : clear implicits.
Arguments a_base {V}.
Arguments a_changed {V}.
Arguments a_pending {V}.
Arguments a_panim {V}.
Arguments a_last {V}.

(** Model of a whole update, from the rules that match to the components, without animations and transitions:
    crates/bevy_flair_style/src/lib.rs:356-445 (the order of the systems), systems.rs:39-51 (reset_properties), 542-612
    (mark_as_changed_on_style_sheet_change, with the components it resets), 755-911 (VarFlow.v), 916-1083 (Inherit.v), 1179-1277
    (apply_computed_properties), components.rs:738-818.
    The parts are the models of VarFlow.v (declared values) and Inherit.v (computed values), run in the order of the schedule; new here is what is
    handed over between them, and the components.
    - A property value of VarFlow.v is a number; [decode] says which PropertyValue it is.
    - [shown n p]: the field of the component of node [n] that property [p] stands for; every node has all components (AutoInsert.v has the
      insertion), nothing else writes to them, and all values are of the right type (Registry.v).  Placeholders are in Placeholder.v.
    - No property has transition options, and there are no animations (NodeProps.v has them). *)
From Verif Require Import Base Tree Vars.
From Verif Require VarFlow Inherit.

Section Pipeline.
  Context {V : Type} (veq : forall a b : V, {a = b} + {a <> b}).
  (** the registry: number of properties, initial values, and numbers for the unset values; [nodes]: all nodes there ever are *)
  Variables (np : nat) (initial : nat -> V) (decode : nat -> Inherit.pvalue V) (unset_code : nat -> nat) (nodes : list nat) (fuel : nat).
  Definition unset (p : nat) : Inherit.pvalue V := decode (unset_code p).

  (** [p_alive]: the nodes that exist; [p_reset]: those that need a reset (NodeStyleMarker) or were just added *)
  Record frame := mk_frame { p_flow : VarFlow.frame; p_alive : list nat; p_reset : nat -> bool }.
  Record state := mk_state { flow : VarFlow.state; world : Inherit.world V; shown : nat -> nat -> V }.

  (** nodes that do not exist ([p_alive] says it; [p_flow] is not asked) have no components; those they will have are the default ones *)
  Definition gone (f : frame) (n : nat) : bool := negb (VarFlow.mem n (p_alive f)).
  (** systems.rs:39-51: a reset marks the node *)
  Definition flow_frame (f : frame) : VarFlow.frame :=
    let g := p_flow f in
    VarFlow.mk_frame (VarFlow.f_forest g) (VarFlow.f_sheet g) (VarFlow.f_rules g) (VarFlow.f_inline g) (VarFlow.f_modified g) (VarFlow.f_changed g)
      (fun n => (VarFlow.f_marked g n || p_reset f n)%bool) (gone f).
  Definition roots (f : frame) : list nat := filter (fun n => match parent (VarFlow.f_forest (p_flow f)) n with None => true | Some _ => false end) (p_alive f).
  (** systems.rs:578-606: before a modified sheet is applied again, what had a value gets its initial value *)
  Definition initial_again (f : frame) (s : state) : nat -> nat -> V := fun n p =>
    if (VarFlow.f_modified (p_flow f) n && Inherit.is_value (Inherit.computed (world s n) p))%bool then initial p else shown s n p.
  (** the nodes set_property_values gives new values (systems.rs:860-871), [s2]: after calculate_style_and_set_vars *)
  Definition restyles (f : frame) (s2 : VarFlow.state) (n : nat) : bool := (VarFlow.calculated (p_flow f) s2 n && VarFlow.mem n nodes)%bool.
  Definition computing (f : frame) (s2 s3 : VarFlow.state) (visits : list (option nat * nat)) : Inherit.frame V :=
    Inherit.mk_frame (fun n => (VarFlow.f_modified (p_flow f) n || p_reset f n || gone f n)%bool)
      (fun n => if restyles f s2 n then Some ((fun p => decode (VarFlow.v_values s3 n p)), (fun _ => false)) else None) visits.
  (** systems.rs:929-937, 1206-1240 with components.rs:747-818: what is written, given the node before it is applied *)
  Definition written (n : Inherit.node V) (p : nat) : option V :=
    if Inherit.same n then None
    else if Inherit.ceqb veq (Inherit.computed n p) (Inherit.pending n p) then None
    else match Inherit.pending n p with Inherit.CVal v => Some v | Inherit.CNone => None end.
  (** the world right before apply_computed_properties (Inherit.run_frame without its last step) *)
  Definition to_apply (g : Inherit.frame V) (w : Inherit.world V) : Inherit.world V :=
    let w1 := Inherit.begin_frame g w in
    if Inherit.restyled g then fold_left (Inherit.visit veq np unset initial) (Inherit.f_visits g) w1 else fun n => Inherit.keep_node (w1 n).
  Definition update (s : state) (f : frame) : option state :=
    let ff := flow_frame f in
    match VarFlow.calculate_style_and_set_vars nodes fuel ff (VarFlow.mark ff (VarFlow.on_modified ff (flow s))), Inherit.visits_of (VarFlow.f_forest ff) fuel (roots f) with
    | Some s2, Some visits =>
        let s3 := VarFlow.set_property_values unset_code nodes fuel ff s2 in
        let w := to_apply (computing f s2 s3 visits) (world s) in
        Some (mk_state s3 (fun n => Inherit.apply_node veq np (w n))
                       (fun n p => match written (w n) p with Some v => v | None => initial_again f s n p end))
    | _, _ => None
    end.
  Fixpoint updates (fs : list frame) (s : state) : option state :=
    match fs with [] => Some s | f :: fs => match update s f with Some s => updates fs s | None => None end end.
  (** components as they are spawned: [before] *)
  Definition start (before : nat -> nat -> V) : state :=
    mk_state VarFlow.fresh_nodes (fun _ => Inherit.mk_node None None (fun _ => Inherit.CNone) true (fun _ => Inherit.CNone) false (fun _ => false)) before.
End Pipeline.
Arguments mk_frame : clear implicits. Arguments mk_state {V}. Arguments state : clear implicits.
Arguments flow {V}. Arguments world {V}. Arguments shown {V}.

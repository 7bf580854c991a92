(** Model of the systems that copy what the components of an entity say into its [NodeStyleData], which selectors look at:
    crates/bevy_flair_style/src/systems.rs:238-300 (calculate_is_root, apply_classes, apply_attributes, track_name_changes) and
    342-382 (sync_marker_component_system, sync_hovered_system, sync_interaction_system).  (sync_input_focus: Focus.v.)
    The systems handle every entity on its own, so this is the model of one entity.  Names, classes and attributes are
    numbers.  Not modelled: `experimental_ghost_nodes`. *)
From Verif Require Import Base.

(** A component of the entity with bevy's change detection: the value, and what happened since the systems ran last.
    [RemovedComponents] is a queue of messages; one entity's messages are either there or not. *)
Record cell (A : Type) := mk_cell { value : option A; added : bool; changed : bool; removed : bool }.
Arguments mk_cell {A}. Arguments value {A}. Arguments added {A}. Arguments changed {A}. Arguments removed {A}.
Definition empty {A} : cell A := mk_cell None false false false.
(** inserting a component, or mutable access to one that is there *)
Definition put {A} (v : A) (c : cell A) : cell A :=
  match value c with None => mk_cell (Some v) true true (removed c) | Some _ => mk_cell (Some v) (added c) true (removed c) end.
Definition take {A} (c : cell A) : cell A := match value c with None => c | Some _ => mk_cell None false false true end.
Definition settle {A} (c : cell A) : cell A := mk_cell (value c) false false false.
Definition has {A} (c : cell A) : bool := match value c with Some _ => true | None => false end.

(** bevy_ui::Interaction *)
Inductive interaction := Pressed | Hovered | NoInteraction.
(** components.rs NodeStyleData and lib.rs:59-72 NodePseudoState, without the fields written elsewhere *)
Record style_data := mk_data { d_root : bool; d_id : option nat; d_classes : list nat; d_attributes : list (nat * nat);
  d_pressed : bool; d_hovered : bool; d_disabled : bool; d_checked : bool }.
Definition default_data : style_data := mk_data false None [] [] false false false false.
Definition set_root b d := mk_data b (d_id d) (d_classes d) (d_attributes d) (d_pressed d) (d_hovered d) (d_disabled d) (d_checked d).
Definition set_id i d := mk_data (d_root d) i (d_classes d) (d_attributes d) (d_pressed d) (d_hovered d) (d_disabled d) (d_checked d).
Definition set_classes l d := mk_data (d_root d) (d_id d) l (d_attributes d) (d_pressed d) (d_hovered d) (d_disabled d) (d_checked d).
Definition set_attributes l d := mk_data (d_root d) (d_id d) (d_classes d) l (d_pressed d) (d_hovered d) (d_disabled d) (d_checked d).
Definition set_pressed b d := mk_data (d_root d) (d_id d) (d_classes d) (d_attributes d) b (d_hovered d) (d_disabled d) (d_checked d).
Definition set_hovered b d := mk_data (d_root d) (d_id d) (d_classes d) (d_attributes d) (d_pressed d) b (d_disabled d) (d_checked d).
Definition set_disabled b d := mk_data (d_root d) (d_id d) (d_classes d) (d_attributes d) (d_pressed d) (d_hovered d) b (d_checked d).
Definition set_checked b d := mk_data (d_root d) (d_id d) (d_classes d) (d_attributes d) (d_pressed d) (d_hovered d) (d_disabled d) b.

(** The entity.  The fields: NodeStyleData; Node; ChildOf; Name; ClassList; AttributeList; the markers bevy_ui::Pressed,
    InteractionDisabled and Checked; Hovered; Interaction. *)
Record entity := mk_entity { e_data : cell style_data; e_node : cell unit; e_parent : cell nat; e_name : cell nat; e_classes : cell (list nat);
  e_attributes : cell (list (nat * nat)); e_pressed : cell unit; e_disabled : cell unit; e_checked : cell unit; e_hovered : cell bool; e_interaction : cell interaction }.
Definition spawned : entity := mk_entity empty empty empty empty empty empty empty empty empty empty empty.

(** What a program may do to the entity between two updates: insert, change or remove components.  [Node] and [TextSpan] bring
    [NodeStyleSheet] and with it [NodeStyleData] (lib.rs:342-343, components.rs:360-368), if it is not there yet. *)
Inductive op :=
| AddNode | RemoveNode | AddTextSpan | RemoveData
| SetParent (p : nat) | RemoveParent | SetName (n : nat) | RemoveName | SetClasses (l : list nat) | RemoveClasses
| SetAttributes (l : list (nat * nat)) | RemoveAttributes
| AddPressed | RemovePressed | AddDisabled | RemoveDisabled | AddChecked | RemoveChecked
| SetHovered (b : bool) | RemoveHovered | SetInteraction (i : interaction) | RemoveInteraction.
Definition on_data f e := mk_entity (f (e_data e)) (e_node e) (e_parent e) (e_name e) (e_classes e) (e_attributes e) (e_pressed e) (e_disabled e) (e_checked e) (e_hovered e) (e_interaction e).
Definition on_node f e := mk_entity (e_data e) (f (e_node e)) (e_parent e) (e_name e) (e_classes e) (e_attributes e) (e_pressed e) (e_disabled e) (e_checked e) (e_hovered e) (e_interaction e).
Definition on_parent f e := mk_entity (e_data e) (e_node e) (f (e_parent e)) (e_name e) (e_classes e) (e_attributes e) (e_pressed e) (e_disabled e) (e_checked e) (e_hovered e) (e_interaction e).
Definition on_name f e := mk_entity (e_data e) (e_node e) (e_parent e) (f (e_name e)) (e_classes e) (e_attributes e) (e_pressed e) (e_disabled e) (e_checked e) (e_hovered e) (e_interaction e).
Definition on_classes f e := mk_entity (e_data e) (e_node e) (e_parent e) (e_name e) (f (e_classes e)) (e_attributes e) (e_pressed e) (e_disabled e) (e_checked e) (e_hovered e) (e_interaction e).
Definition on_attributes f e := mk_entity (e_data e) (e_node e) (e_parent e) (e_name e) (e_classes e) (f (e_attributes e)) (e_pressed e) (e_disabled e) (e_checked e) (e_hovered e) (e_interaction e).
Definition on_pressed f e := mk_entity (e_data e) (e_node e) (e_parent e) (e_name e) (e_classes e) (e_attributes e) (f (e_pressed e)) (e_disabled e) (e_checked e) (e_hovered e) (e_interaction e).
Definition on_disabled f e := mk_entity (e_data e) (e_node e) (e_parent e) (e_name e) (e_classes e) (e_attributes e) (e_pressed e) (f (e_disabled e)) (e_checked e) (e_hovered e) (e_interaction e).
Definition on_checked f e := mk_entity (e_data e) (e_node e) (e_parent e) (e_name e) (e_classes e) (e_attributes e) (e_pressed e) (e_disabled e) (f (e_checked e)) (e_hovered e) (e_interaction e).
Definition on_hovered f e := mk_entity (e_data e) (e_node e) (e_parent e) (e_name e) (e_classes e) (e_attributes e) (e_pressed e) (e_disabled e) (e_checked e) (f (e_hovered e)) (e_interaction e).
Definition on_interaction f e := mk_entity (e_data e) (e_node e) (e_parent e) (e_name e) (e_classes e) (e_attributes e) (e_pressed e) (e_disabled e) (e_checked e) (e_hovered e) (f (e_interaction e)).
Definition add_data (c : cell style_data) : cell style_data := if has c then c else put default_data c.
Definition do (o : op) (e : entity) : entity :=
  match o with
  | AddNode => on_data add_data (on_node (put tt) e) | RemoveNode => on_node take e
  | AddTextSpan => on_data add_data e | RemoveData => on_data take e
  | SetParent p => on_parent (put p) e | RemoveParent => on_parent take e
  | SetName n => on_name (put n) e | RemoveName => on_name take e
  | SetClasses l => on_classes (put l) e | RemoveClasses => on_classes take e
  | SetAttributes l => on_attributes (put l) e | RemoveAttributes => on_attributes take e
  | AddPressed => on_pressed (put tt) e | RemovePressed => on_pressed take e
  | AddDisabled => on_disabled (put tt) e | RemoveDisabled => on_disabled take e
  | AddChecked => on_checked (put tt) e | RemoveChecked => on_checked take e
  | SetHovered b => on_hovered (put b) e | RemoveHovered => on_hovered take e
  | SetInteraction i => on_interaction (put i) e | RemoveInteraction => on_interaction take e
  end.

(** The systems.  Writing to the data of an entity that has none does nothing (it is not in the query). *)
Definition write (f : style_data -> style_data) (e : entity) : entity :=
  on_data (fun c => match value c with Some d => mk_cell (Some (f d)) (added c) true (removed c) | None => c end) e.
Inductive system := IsRoot | ApplyClasses | ApplyAttributes | SyncPressed | SyncDisabled | SyncChecked | SyncHovered | SyncInteraction | TrackName.
(** systems.rs:342-362 sync_marker_component_system: entities with [Added<C>] or a removal message *)
Definition sync_marker {A} (c : cell A) (action : bool -> style_data -> style_data) (e : entity) : entity :=
  if (added c || removed c)%bool then write (action (has c)) e else e.
Definition run (s : system) (e : entity) : entity :=
  match s with
  | IsRoot => (* 238-264; UiRootNodes: with [Node], without [ChildOf] *)
      if (added (e_data e) || changed (e_parent e) || removed (e_parent e))%bool then write (set_root (has (e_node e) && negb (has (e_parent e)))) e else e
  | ApplyClasses => (* 266-273 *) match value (e_classes e) with Some l => if changed (e_classes e) then write (set_classes l) e else e | None => e end
  | ApplyAttributes => (* 275-281 *) match value (e_attributes e) with Some l => if changed (e_attributes e) then write (set_attributes l) e else e | None => e end
  | SyncPressed => sync_marker (e_pressed e) set_pressed e
  | SyncDisabled => sync_marker (e_disabled e) set_disabled e
  | SyncChecked => sync_marker (e_checked e) set_checked e
  | SyncHovered => (* 364-371 *) match value (e_hovered e) with Some b => if changed (e_hovered e) then write (set_hovered b) e else e | None => e end
  | SyncInteraction => (* 373-381 *)
      match value (e_interaction e) with
      | Some i => if changed (e_interaction e)
                  then write (fun d => set_hovered (match i with Hovered => true | _ => false end) (set_pressed (match i with Pressed => true | _ => false end) d)) e
                  else e
      | None => e
      end
  | TrackName => (* 283-300 *)
      let e1 := match value (e_name e) with
                | Some n => if (changed (e_name e) || added (e_data e))%bool then write (set_id (Some n)) e else e
                | None => e
                end in
      if removed (e_name e) then write (set_id None) e1 else e1
  end.
Definition all_systems : list system := [IsRoot; ApplyClasses; ApplyAttributes; SyncPressed; SyncDisabled; SyncChecked; SyncHovered; SyncInteraction; TrackName].
(** lib.rs:401-413: the systems of one update run one after the other (they all write [NodeStyleData]), in an order that is not
    given (there is no `.chain()`). *)
Definition settle_all (e : entity) : entity :=
  mk_entity (settle (e_data e)) (settle (e_node e)) (settle (e_parent e)) (settle (e_name e)) (settle (e_classes e)) (settle (e_attributes e))
    (settle (e_pressed e)) (settle (e_disabled e)) (settle (e_checked e)) (settle (e_hovered e)) (settle (e_interaction e)).
Definition systems_run (order : list system) (e : entity) : entity := fold_left (fun e s => run s e) order e.
(** one update: what the program does, then the systems *)
Definition update (e : entity) (u : list op * list system) : entity := settle_all (systems_run (snd u) (fold_left (fun e o => do o e) (fst u) e)).
Definition updates (h : list (list op * list system)) : entity := fold_left update h spawned.

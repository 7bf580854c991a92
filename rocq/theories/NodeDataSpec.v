(** What the data of a node should say: C81. *)
From Coq Require Import Permutation.
From Verif Require Import Base NodeData.

(** every update runs every system once, in some order *)
Definition runs_all (h : list (list op * list system)) : Prop := forall u, In u h -> Permutation (snd u) all_systems.
Definition does (h : list (list op * list system)) (o : op) : Prop := exists u, In u h /\ In o (fst u).

(** The components an entity has after a list of operations, by themselves *)
Fixpoint last_set {A} (set : op -> option A) (unset : op) (dec : forall a b : op, {a = b} + {a <> b}) (l : list op) (v : option A) : option A :=
  match l with
  | [] => v
  | o :: r => last_set set unset dec r (match set o with Some a => Some a | None => if dec o unset then None else v end)
  end.
Definition all_ops (h : list (list op * list system)) : list op := flat_map fst h.
Definition op_dec (a b : op) : {a = b} + {a <> b}.
Proof. repeat decide equality. Defined.
Definition component {A} (set : op -> option A) (unset : op) (h : list (list op * list system)) : option A := last_set set unset op_dec (all_ops h) None.
Definition the_node := component (fun o => match o with AddNode => Some tt | _ => None end) RemoveNode.
Definition the_parent := component (fun o => match o with SetParent p => Some p | _ => None end) RemoveParent.
Definition the_name := component (fun o => match o with SetName p => Some p | _ => None end) RemoveName.
Definition the_classes := component (fun o => match o with SetClasses p => Some p | _ => None end) RemoveClasses.
Definition the_attributes := component (fun o => match o with SetAttributes p => Some p | _ => None end) RemoveAttributes.
Definition is_pressed := component (fun o => match o with AddPressed => Some tt | _ => None end) RemovePressed.
Definition is_disabled := component (fun o => match o with AddDisabled => Some tt | _ => None end) RemoveDisabled.
Definition is_checked := component (fun o => match o with AddChecked => Some tt | _ => None end) RemoveChecked.
Definition the_hovered := component (fun o => match o with SetHovered p => Some p | _ => None end) RemoveHovered.
Definition the_interaction := component (fun o => match o with SetInteraction p => Some p | _ => None end) RemoveInteraction.
Definition present {A} (v : option A) : bool := match v with Some _ => true | None => false end.

(** The entity is a node from its first update on, and stays one *)
Definition node_from_start (h : list (list op * list system)) : Prop :=
  (exists ops order h', h = (ops, order) :: h' /\ (In AddNode ops \/ In AddTextSpan ops)) /\ ~ does h RemoveData.
(** no update in which a name is removed and then there is one again *)
Definition no_rename (h : list (list op * list system)) : Prop :=
  forall u l1 l2 n, In u h -> fst u = l1 ++ RemoveName :: l2 -> ~ In (SetName n) l2.
(** [Interaction] as pseudo-states *)
Definition interaction_pressed (i : option interaction) : bool := match i with Some Pressed => true | _ => false end.
Definition interaction_hovered (i : option interaction) : bool := match i with Some Hovered => true | _ => false end.
(** the program never uses [Interaction]; or neither [Hovered] nor [Pressed] *)
Definition no_interaction (h : list (list op * list system)) : Prop := forall i, ~ does h (SetInteraction i).
Definition only_interaction (h : list (list op * list system)) : Prop := (forall b, ~ does h (SetHovered b)) /\ ~ does h AddPressed.
(** a UI node (not a text span) from its first update on, and it stays one *)
Definition ui_node_from_start (h : list (list op * list system)) : Prop :=
  (exists ops order h', h = (ops, order) :: h' /\ In AddNode ops) /\ ~ does h RemoveNode.

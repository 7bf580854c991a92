(** Structural pseudo-classes: C83. *)
From Verif Require Import Base Tree TreeSpec Structural.

Definition holds (w : forest) (data : nat -> list nat) (n : nat) (x : test) : Prop :=
  match x with
  | HasClass c => In c (data n)
  | FirstChild => forall p, parent w n = Some p -> exists l, children w p = n :: l
  | LastChild => forall p, parent w n = Some p -> exists l, children w p = l ++ [n]
  | NthChild sel => match parent w n with None => sel 1 = true | Some p => exists l1 l2, children w p = l1 ++ n :: l2 /\ sel (S (length l1)) = true end
  | NthLastChild sel => match parent w n with None => sel 1 = true | Some p => exists l1 l2, children w p = l1 ++ n :: l2 /\ sel (S (length l2)) = true end
  | IsEmpty => children w n = []
  end.
(** the rules that are active on [n] are those that match it in the hierarchy of the frame *)
Definition matched (f : frame) (rs : list rule) (n : nat) (active : list bool) : Prop :=
  Forall2 (fun r b => b = true <-> Forall (holds (g_forest f) (g_data f) n) r) rs active.

(** [nodes] are all entities; hierarchies are well formed; changes are reported.  A change of the parent is a change of the data
    of the node (calculate_is_root writes it, C81). *)
Definition in_nodes (nodes : list nat) (w : forest) : Prop := forall n p, parent w n = Some p -> In n nodes /\ In p nodes.
Definition reported (w : forest) (data : nat -> list nat) (f : frame) : Prop :=
  (forall p, children (g_forest f) p <> children w p -> g_children f p = true \/ g_removed f p = true) /\
  (forall n, parent (g_forest f) n <> parent w n \/ g_data f n <> data n -> g_changed f n = true).
Fixpoint history (nodes : list nat) (w : forest) (data : nat -> list nat) (fs : list frame) : Prop :=
  match fs with
  | [] => True
  | f :: fs => wf_forest (g_forest f) /\ in_nodes nodes (g_forest f) /\ reported w data f /\ history nodes (g_forest f) (g_data f) fs
  end.
Definition no_tree : forest := {| children := fun _ => []; parent := fun _ => None |}.

Definition positional (x : test) : bool := match x with FirstChild | LastChild | NthChild _ | NthLastChild _ => true | _ => false end.
(** some rule starts with a child-indexed pseudo-class, or no rule has any *)
Definition tested_everywhere (rs : list rule) : Prop := exists r x l, In r rs /\ r = x :: l /\ positional x = true.
Definition never_tested (rs : list rule) : Prop := forall r x, In r rs -> In x r -> positional x = false.

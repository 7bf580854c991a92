(** Hierarchy vocabulary, independent of the iterators. *)
From Verif Require Import Base Tree.

(** [descendant w r e]: [e] is below [r] (at least one step). *)
Inductive descendant (w : forest) (r : nat) : nat -> Prop :=
| desc_child : forall e, parent w e = Some r -> descendant w r e
| desc_step : forall p e, descendant w r p -> parent w e = Some p -> descendant w r e.

(** [ancestor_chain w e l]: [l] is the list of all ancestors of [e], nearest first. *)
Inductive ancestor_chain (w : forest) : nat -> list nat -> Prop :=
| chain_root : forall e, parent w e = None -> ancestor_chain w e []
| chain_up : forall e p l, parent w e = Some p -> ancestor_chain w p l -> ancestor_chain w e (p :: l).

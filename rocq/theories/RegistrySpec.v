(** Specification vocabulary for the registries. *)
From Verif Require Import Base Inherit Registry.

(** The properties a sequence of operations registers, in order. *)
Definition registered_by {V} (o : reg_op V) : list (name * V) :=
  match o with RegProps ps => ps | RegComponent _ ps => ps | SetUnset _ _ => [] end.
Definition registered {V} (os : list (reg_op V)) : list (name * V) := flat_map registered_by os.
(** ... through components only. *)
Definition only_components {V} (os : list (reg_op V)) : Prop :=
  Forall (fun o => match o with RegProps _ => False | _ => True end) os.

(** The unset value a property ends up with: the last one set under its id or its name, else none. *)
Definition refers {V} (os : list (reg_op V)) (p : property_ref) (i : nat) : bool :=
  match p with
  | RefId j => Nat.eqb i j
  | RefName n => match nth_error (map fst (registered os)) i with Some m => Nat.eqb m n | None => false end
  end.
Definition last_unset {V} (all os : list (reg_op V)) (i : nat) : pvalue V :=
  fold_left (fun acc o => match o with SetUnset p v => if refers all p i then v else acc | _ => acc end) os PNone.

(** No property is registered under a name already taken by a shorthand. *)
Definition no_reuse (os : list css_op) : Prop :=
  forall l1 n p l2, os = l1 ++ RegProperty n p :: l2 -> forall ps, ~ In (RegShorthand n ps) l1.

Definition css_name_of (o : css_op) : name := match o with RegProperty n _ => n | RegShorthand n _ => n end.

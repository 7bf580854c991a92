(** Class lists and attribute lists as the user thinks of them. *)
From Verif Require Import Base ClassList.

Section S.
  Context {A V : Type} (eq_dec : forall a b : A, {a = b} + {a <> b}).
  (** whether class [c] is set after some operations, starting from [b] *)
  Definition member_step (c : A) (b : bool) (o : class_op A) : bool :=
    match o with
    | Add d => if eq_dec d c then true else b
    | Remove d => if eq_dec d c then false else b
    | Toggle d => if eq_dec d c then negb b else b
    end.
  Definition member_after (c : A) (ops : list (class_op A)) (b : bool) : bool := fold_left (member_step c) ops b.
  (** the value of attribute [n] after some operations *)
  Definition attr_step (n : A) (b : option V) (o : attr_op A V) : option V :=
    match o with SetAttr m v => if eq_dec m n then Some v else b | RemoveAttr m => if eq_dec m n then None else b end.
  Definition attr_after (n : A) (ops : list (attr_op A V)) : option V := fold_left (attr_step n) ops None.
  (** the operations that leave class [c] alone keep its place: order of the surviving classes *)
  Definition op_class (o : class_op A) : A := match o with Add c | Remove c | Toggle c => c end.
  (** each class once, in order of first appearance *)
  Fixpoint distinct_in_order (seen l : list A) : list A :=
    match l with
    | [] => []
    | c :: l => if in_dec eq_dec c seen then distinct_in_order seen l else c :: distinct_in_order (c :: seen) l
    end.
End S.

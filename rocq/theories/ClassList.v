(** Model of crates/bevy_flair_style/src/components.rs:1364-1454 ClassList and 1479-1504 AttributeList.
    Class names and attribute names are any type with decidable equality (strings in the code); a Vec is a
    list and the attribute HashMap an association list with unique keys. *)
From Verif Require Import Base.

Section C.
  Context {A V : Type} (eq_dec : forall a b : A, {a = b} + {a <> b}).
  Definition eqb (a b : A) : bool := if eq_dec a b then true else false.
  Fixpoint remove_nth (i : nat) (l : list A) : list A :=
    match i, l with 0, _ :: r => r | S i, x :: r => x :: remove_nth i r | _, [] => [] end.

  (** 1405-1408 contains *)
  Definition contains (l : list A) (c : A) : bool := existsb (fun x => eqb x c) l.
  (** 1421-1428 toggle *)
  Definition toggle (c : A) (l : list A) : list A :=
    match position (fun x => eqb x c) l with Some i => remove_nth i l | None => l ++ [c] end.
  (** 1431-1436 add *)
  Definition add (c : A) (l : list A) : list A := if contains l c then l else l ++ [c].
  (** 1448-1453 remove *)
  Definition remove (c : A) (l : list A) : list A :=
    match position (fun x => eqb x c) l with Some i => remove_nth i l | None => l end.
  (** 1392-1402 new_with_classes; [new] (1381) splits its string into such a list *)
  Definition new_with_classes (cs : list A) : list A := fold_left (fun l c => add c l) cs [].

  Inductive class_op := Add (c : A) | Remove (c : A) | Toggle (c : A).
  Definition apply_op (l : list A) (o : class_op) : list A :=
    match o with Add c => add c l | Remove c => remove c l | Toggle c => toggle c l end.

  (** 1486-1503 AttributeList: HashMap get / insert / remove *)
  Fixpoint get_attribute (l : list (A * V)) (n : A) : option V :=
    match l with [] => None | (k, v) :: l => if eq_dec k n then Some v else get_attribute l n end.
  Definition set_attribute (n : A) (v : V) (l : list (A * V)) : list (A * V) :=
    (n, v) :: filter (fun kv => negb (eqb (fst kv) n)) l.
  Definition remove_attribute (n : A) (l : list (A * V)) : list (A * V) := filter (fun kv => negb (eqb (fst kv) n)) l.
  Inductive attr_op := SetAttr (n : A) (v : V) | RemoveAttr (n : A).
  Definition apply_attr (l : list (A * V)) (o : attr_op) : list (A * V) :=
    match o with SetAttr n v => set_attribute n v l | RemoveAttr n => remove_attribute n l end.
End C.
Arguments class_op : clear implicits. Arguments attr_op : clear implicits.

(** C108: property values keep the Rust value and its type. *)
From Coq Require Import Ascii String NArith ZArith SpecFloat.
From Verif Require Import Base ReflectValue ReflectValueSpec ReflectValueProofs.
Open Scope string_scope.
Open Scope list_scope.

(** C108 (partial).  A [ReflectValue] that is made from a value of any type but [f64] has that value and that type: it is of this type and
    of no other, both ways of downcasting to it give the value back, and making it from a box gives the same.
    Partial: false for [f64] (C108_f64_refuted). *)
Theorem C108_keeps_value_partial :
  forall (C W : Type) (decl : nat -> list (string * rtype)) (v : rvalue C W) (t : rtype),
  (forall i, NoDup (map fst (decl i))) -> typed decl v t -> t <> TF64 ->
  let r := new t v in
  value_of r = v /\ (forall u, value_is u r = true <-> u = t) /\ downcast_value decl t r = inl v /\ downcast_value_ref t r = Some v /\
  (forall u, u <> t -> downcast_value_ref u r = None) /\ new_from_box v = r.
Proof.
  intros C W decl v t D T N r. unfold r. rewrite (new_is_box decl v t T N). pose proof (typed_type decl v t T) as Et.
  split; [apply value_of_box|]. split; [|split; [|split; [|split; [|reflexivity]]]].
  - intros u. unfold value_is. rewrite info_of_box, Et. destruct (rtype_dec u t) as [E|E]; [split; auto|split; [discriminate|contradiction]].
  - unfold downcast_value. rewrite value_of_box, (from_typed decl D v t T). reflexivity.
  - rewrite ref_of_box, Et. destruct (rtype_dec t t); [reflexivity|contradiction].
  - intros u Hu. rewrite ref_of_box, Et. destruct (rtype_dec t u); [congruence|reflexivity].
Qed.
Print Assumptions C108_keeps_value_partial.

(** C108: one that is made from a box has its value and type, [f64] or not. *)
Theorem C108_box_keeps_value :
  forall (C W : Type) (decl : nat -> list (string * rtype)) (v : rvalue C W) (t : rtype),
  (forall i, NoDup (map fst (decl i))) -> typed decl v t ->
  let r := new_from_box v in
  value_of r = v /\ (forall u, value_is u r = true <-> u = t) /\ downcast_value decl t r = inl v /\ downcast_value_ref t r = Some v.
Proof.
  intros C W decl v t D T r. unfold r. pose proof (typed_type decl v t T) as Et. split; [apply value_of_box|]. split; [|split].
  - intros u. unfold value_is. rewrite info_of_box, Et. destruct (rtype_dec u t) as [E|E]; [split; auto|split; [discriminate|contradiction]].
  - unfold downcast_value. rewrite value_of_box, (from_typed decl D v t T). reflexivity.
  - rewrite ref_of_box, Et. destruct (rtype_dec t t); [reflexivity|contradiction].
Qed.
Print Assumptions C108_box_keeps_value.

(** What is missing is false: [new] of an [f64] makes an [f32] of it (0.1 loses digits), so that it cannot be downcast to [f64] and differs
    from what is made from a box. *)
Definition tenth : spec_float := binary_normalize 53 1024 3602879701896397 (-55) false.
Theorem C108_f64_refuted :
  typed (C:=unit) (W:=unit) (fun _ => []) (VF64 tenth) TF64 /\
  let r : reflect_value unit unit := new TF64 (VF64 tenth) in
  value_is TF64 r = false /\ value_is TF32 r = true /\ downcast_value (fun _ => []) TF64 r = inr r /\ downcast_value_ref TF64 r = None /\
  value_of r = VF32 (S754_finite false 13421773 (-27)) /\
  forall ceq weq oe se, rv_eq ceq weq oe se r (new_from_box (VF64 tenth)) = false.
Proof. split; [constructor|]. repeat split; vm_compute; reflexivity. Qed.
Print Assumptions C108_f64_refuted.

(** C108: two of them are equal exactly if their types are the same and their values are equal. *)
Theorem C108_equality :
  forall (C W : Type) (ceq : C -> C -> bool) (weq : W -> W -> bool) (decl : nat -> list (string * rtype)) opaque_eq struct_eq (v w : rvalue C W) (t u : rtype),
  (forall i, NoDup (map fst (decl i))) -> typed decl v t -> typed decl w u -> t <> TF64 -> u <> TF64 ->
  rv_eq ceq weq opaque_eq struct_eq (new t v) (new u w) = true <-> t = u /\ equal ceq weq opaque_eq struct_eq v w.
Proof.
  intros C W ceq weq decl oe se v w t u D Hv Hw Nt Nu. rewrite (new_is_box decl v t Hv Nt), (new_is_box decl w u Hw Nu).
  apply (box_eq ceq weq decl oe se D v w t u Hv Hw).
Qed.
Print Assumptions C108_equality.

(** C108: so a value is not always equal to itself: not NaN, nor a value whose type, or the type of one of whose fields, does not say that it
    implements PartialEq. *)
Theorem C108_equality_not_reflexive_refuted :
  (forall (C W : Type) ceq weq oe se, let r : reflect_value C W := new TF32 (VF32 S754_nan) in rv_eq ceq weq oe se r r = false) /\
  (forall (C W : Type) ceq weq oe se i v, oe i = None -> let r : reflect_value C W := new (TOpaque i) (VOpaque i v) in rv_eq ceq weq oe se r r = false).
Proof.
  split; intros; [reflexivity|]. subst r. cbn. destruct (Nat.eq_dec i i); [|reflexivity]. cbn. rewrite H. reflexivity.
Qed.
Print Assumptions C108_equality_not_reflexive_refuted.

(** C108: what a clone or a downcast gives.  A clone, if the type can be cloned, has the same value and type; a downcast has the type that
    was asked for; one that fails gives back what it was called with. *)
Theorem C108_clone_and_downcast :
  forall (C W : Type) can_clone (decl : nat -> list (string * rtype)) (v w : rvalue C W) (t u : rtype),
  (forall i, NoDup (map fst (decl i))) -> typed decl v t -> t <> TF64 ->
  (reflect_clone can_clone (new t v) = Some w -> w = v /\ new_from_box w = new t v) /\
  (downcast_value decl u (new t v) = inl w -> type_of w = u) /\
  (forall r, downcast_value decl u (new t v) = inr r -> r = new t v).
Proof.
  intros C W cc decl v w t u D T N. rewrite (new_is_box decl v t T N). split; [|split].
  - intros H. rewrite clone_of_box in H. apply (clone_same decl cc v w t T) in H. subst w. split; reflexivity.
  - unfold downcast_value. rewrite value_of_box. destruct (from_reflect decl v u) as [x|] eqn:E; [|discriminate]. intros H. injection H as <-. exact (from_type decl _ _ _ E).
  - intros r. unfold downcast_value. destruct (from_reflect decl _ u); [discriminate|congruence].
Qed.
Print Assumptions C108_clone_and_downcast.

(** The documentation of downcast_value ("If the underlying value is not of type T, returns Err(self)") is wrong for structs: a value of
    struct 0 is taken for one of struct 1, which only has a field of the same name and type. *)
Definition decls (i : nat) : list (string * rtype) := match i with 0 => [("x", TF32); ("y", TUsize)] | _ => [("y", TUsize)] end.
Theorem C108_downcast_other_struct_refuted :
  let v : rvalue unit unit := VStruct 0 [("x", VF32 S754_nan); ("y", VUsize 7%N)] in
  typed decls v (TStruct 0) /\ value_is (TStruct 1) (new (TStruct 0) v) = false /\
  downcast_value decls (TStruct 1) (new (TStruct 0) v) = inl (VStruct 1 [("y", VUsize 7%N)]).
Proof. split; [repeat constructor|]. split; reflexivity. Qed.
Print Assumptions C108_downcast_other_struct_refuted.

(** a case that meets the hypotheses: a struct within the struct [Outer { a: Inner, b: Color }], [Inner { x: f32, y: usize }] *)
Definition nested (i : nat) : list (string * rtype) := match i with 0 => [("x", TF32); ("y", TUsize)] | _ => [("a", TStruct 0); ("b", TColor)] end.
Example C108_witness :
  let v n : rvalue nat unit := VStruct 1 [("a", VStruct 0 [("x", VF32 (S754_zero n)); ("y", VUsize 7%N)]); ("b", VColor 3)] in
  (forall i, NoDup (map fst (nested i))) /\ (forall n, typed nested (v n) (TStruct 1)) /\ v true <> v false /\
  rv_eq Nat.eqb (fun _ _ => true) (fun _ => None) (fun _ => None) (new (TStruct 1) (v true)) (new (TStruct 1) (v false)) = true /\
  downcast_value nested (TStruct 1) (new (TStruct 1) (v true)) = inl (v true).
Proof.
  cbv zeta. split; [intros [|i]; repeat constructor; cbn; intuition discriminate|]. split; [intros n; repeat constructor|]. split; [discriminate|]. split; reflexivity.
Qed.

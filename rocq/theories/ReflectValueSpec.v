(** When two Rust values are equal. *)
From Coq Require Import Ascii String NArith SpecFloat.
From Verif Require Import Base ReflectValue.
Open Scope list_scope.
Section Spec.
  Context {C W : Type} (ceq : C -> C -> bool) (weq : W -> W -> bool).
  Variables (opaque_eq : nat -> option (nat -> nat -> bool)) (struct_eq : nat -> option (list (string * rvalue C W) -> list (string * rvalue C W) -> bool)).
  (** [==], where the type has it; structs without [==] are equal if their fields are *)
  Inductive equal : rvalue C W -> rvalue C W -> Prop :=
  | eq_f32 x y : SFeqb x y = true -> equal (VF32 x) (VF32 y)
  | eq_f64 x y : SFeqb x y = true -> equal (VF64 x) (VF64 y)
  | eq_usize n : equal (VUsize n) (VUsize n)
  | eq_color x y : ceq x y = true -> equal (VColor x) (VColor y)
  | eq_val x y : weq x y = true -> equal (VVal x) (VVal y)
  | eq_opaque i e x y : opaque_eq i = Some e -> e x y = true -> equal (VOpaque i x) (VOpaque i y)
  | eq_struct i e fs gs : struct_eq i = Some e -> e fs gs = true -> equal (VStruct i fs) (VStruct i gs)
  | eq_fields i fs gs : struct_eq i = None -> equal_fields fs gs -> equal (VStruct i fs) (VStruct i gs)
  with equal_fields : list (string * rvalue C W) -> list (string * rvalue C W) -> Prop :=
  | ef_nil : equal_fields [] []
  | ef_cons x v w fs gs : equal v w -> equal_fields fs gs -> equal_fields ((x, v) :: fs) ((x, w) :: gs).
End Spec.

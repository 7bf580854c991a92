(** Model of the wrapper for property values: crates/bevy_flair_core/src/reflect_value.rs.
    bevy_reflect 0.18 ([FromReflect::from_reflect], [PartialReflect::reflect_partial_eq], [reflect_clone], [Reflect::is]) is not in the sandbox:
    its documented behaviour, as its derive macros implement it, is written down here from memory (trusted base).
    Simplified: besides structs with named fields, lists, tuples, enums and maps are not modelled: a value of such a type can be seen as a
    value of an opaque type.  Debug and serialization are not modelled.  A Box and an Arc are their contents. *)
From Coq Require Import Ascii String NArith ZArith SpecFloat.
From Verif Require Import Base.
Open Scope string_scope.
Open Scope list_scope.

Section ReflectValue.
  Context {C W : Type}.
  (** [==] of Color and of Val *)
  Variables (ceq : C -> C -> bool) (weq : W -> W -> bool).

  (** A Rust type.  [TOpaque i]: any opaque type; [TStruct i]: any struct.  Types are equal if they are the same (TypeId). *)
  Inductive rtype := TF32 | TF64 | TUsize | TColor | TVal | TOpaque (i : nat) | TStruct (i : nat).
  Definition rtype_dec (a b : rtype) : {a = b} + {a <> b}.
  Proof. decide equality; apply Nat.eq_dec. Defined.
  Inductive rvalue :=
  | VF32 (x : spec_float) | VF64 (x : spec_float) | VUsize (n : N) | VColor (c : C) | VVal (v : W)
  | VOpaque (i v : nat) | VStruct (i : nat) (fs : list (string * rvalue)).
  (** the declaration of a struct; whether a type implements PartialEq and says so with [reflect(PartialEq)] *)
  Variables (decl : nat -> list (string * rtype)) (opaque_eq : nat -> option (nat -> nat -> bool)) (struct_eq : nat -> option (list (string * rvalue) -> list (string * rvalue) -> bool)).
  (** whether an opaque type can be cloned through reflection *)
  Variable can_clone : nat -> bool.

  (** reflect_type_info of a value *)
  Definition type_of (v : rvalue) : rtype :=
    match v with VF32 _ => TF32 | VF64 _ => TF64 | VUsize _ => TUsize | VColor _ => TColor | VVal _ => TVal | VOpaque i _ => TOpaque i | VStruct i _ => TStruct i end.
  (** the values of a type *)
  Inductive typed : rvalue -> rtype -> Prop :=
  | ty_f32 x : typed (VF32 x) TF32
  | ty_f64 x : typed (VF64 x) TF64
  | ty_usize n : typed (VUsize n) TUsize
  | ty_color c : typed (VColor c) TColor
  | ty_val w : typed (VVal w) TVal
  | ty_opaque i v : typed (VOpaque i v) (TOpaque i)
  | ty_struct i fs : typed_fields fs (decl i) -> typed (VStruct i fs) (TStruct i)
  with typed_fields : list (string * rvalue) -> list (string * rtype) -> Prop :=
  | tf_nil : typed_fields [] []
  | tf_cons x v t fs ts : typed v t -> typed_fields fs ts -> typed_fields ((x, v) :: fs) ((x, t) :: ts).

  (** FromReflect::from_reflect: what is not a struct is downcast and cloned; a struct is built from the fields of the same names *)
  Fixpoint from_reflect (v : rvalue) (t : rtype) {struct v} : option rvalue :=
    match v, t with
    | VStruct _ fs, TStruct i =>
        option_map (VStruct i)
          ((fix build (ts : list (string * rtype)) : option (list (string * rvalue)) :=
              match ts with
              | [] => Some []
              | (x, u) :: ts =>
                  match (fix find (fs : list (string * rvalue)) : option rvalue :=
                           match fs with [] => None | (y, w) :: fs => if String.eqb x y then from_reflect w u else find fs end) fs with
                  | Some w => option_map (cons (x, w)) (build ts)
                  | None => None
                  end
              end) (decl i))
    | VStruct _ _, _ => None
    | _, _ => if rtype_dec (type_of v) t then Some v else None
    end.
  Fixpoint field (x : string) (fs : list (string * rvalue)) : option rvalue :=
    match fs with [] => None | (y, w) :: fs => if String.eqb x y then Some w else field x fs end.
  (** PartialReflect::reflect_partial_eq, [a.reflect_partial_eq(b)]; structs without [reflect(PartialEq)]: struct_partial_eq *)
  Fixpoint partial_eq (b a : rvalue) {struct b} : option bool :=
    match a with
    | VF32 x => Some (match b with VF32 y => SFeqb x y | _ => false end)
    | VF64 x => Some (match b with VF64 y => SFeqb x y | _ => false end)
    | VUsize x => Some (match b with VUsize y => N.eqb x y | _ => false end)
    | VColor x => Some (match b with VColor y => ceq x y | _ => false end)
    | VVal x => Some (match b with VVal y => weq x y | _ => false end)
    | VOpaque i x => match opaque_eq i with
                     | Some e => Some (match b with VOpaque j y => if Nat.eqb i j then e x y else false | _ => false end)
                     | None => None
                     end
    | VStruct i fs =>
        match struct_eq i with
        | Some e => Some (match b with VStruct j gs => if Nat.eqb i j then e fs gs else false | _ => false end)
        | None =>
            match b with
            | VStruct _ gs =>
                if Nat.eqb (List.length fs) (List.length gs) then
                  (fix loop (gs : list (string * rvalue)) : option bool :=
                     match gs with
                     | [] => Some true
                     | (x, w) :: gs => match field x fs with
                                       | Some v => match partial_eq w v with Some true => loop gs | r => r end
                                       | None => Some false
                                       end
                     end) gs
                else Some false
            | _ => Some false
            end
        end
    end.
  (** reflect_clone: opaque types may refuse; a struct clones its fields *)
  Fixpoint clone_value (v : rvalue) : option rvalue :=
    match v with
    | VOpaque i x => if can_clone i then Some v else None
    | VStruct i fs =>
        option_map (VStruct i)
          ((fix go (fs : list (string * rvalue)) : option (list (string * rvalue)) :=
              match fs with [] => Some [] | (x, w) :: fs => match clone_value w, go fs with Some w', Some fs' => Some ((x, w') :: fs') | _, _ => None end end) fs)
    | _ => Some v
    end.

  (** reflect_value.rs:26-39 ReflectValue *)
  Inductive reflect_value := Float (x : spec_float) | Usize (n : N) | Color (c : C) | Val (v : W) | ReflectArc (v : rvalue).
  (** [as f32] of an f64 *)
  Definition narrow (x : spec_float) : spec_float := match x with S754_finite s m e => binary_round 24 128 s m e | _ => x end.
  (** reflect_value.rs:45-60 new, for a value of type [t]; the branches of values that are not of the type are not reached *)
  Definition new (t : rtype) (v : rvalue) : reflect_value :=
    match t, v with
    | TF32, VF32 x => Float x
    | TF64, VF64 x => Float (narrow x)
    | TUsize, VUsize n => Usize n
    | TColor, VColor c => Color c
    | TVal, VVal w => Val w
    | _, _ => ReflectArc v
    end.
  (** reflect_value.rs:66-78 new_from_box: here the value decides *)
  Definition new_from_box (v : rvalue) : reflect_value :=
    match v with VF32 x => Float x | VUsize n => Usize n | VColor c => Color c | VVal w => Val w | _ => ReflectArc v end.
  (** reflect_value.rs:83-91 value_as_partial_reflect *)
  Definition value_of (r : reflect_value) : rvalue :=
    match r with Float x => VF32 x | Usize n => VUsize n | Color c => VColor c | Val w => VVal w | ReflectArc v => v end.
  (** reflect_value.rs:96-98 downcast_value: [inr]: Err(self) *)
  Definition downcast_value (t : rtype) (r : reflect_value) : rvalue + reflect_value :=
    match from_reflect (value_of r) t with Some v => inl v | None => inr r end.
  (** reflect_value.rs:102-115 downcast_value_ref *)
  Definition downcast_value_ref (t : rtype) (r : reflect_value) : option rvalue :=
    match r with
    | Float x => if rtype_dec TF32 t then Some (VF32 x) else None
    | Usize n => if rtype_dec TUsize t then Some (VUsize n) else None
    | Color c => if rtype_dec TColor t then Some (VColor c) else None
    | Val w => if rtype_dec TVal t then Some (VVal w) else None
    | ReflectArc v => if rtype_dec (type_of v) t then Some v else None
    end.
  (** reflect_value.rs:135-143 value_type_info; 119-121 value_is *)
  Definition value_type_info (r : reflect_value) : rtype :=
    match r with Float _ => TF32 | Usize _ => TUsize | Color _ => TColor | Val _ => TVal | ReflectArc v => type_of v end.
  Definition value_is (t : rtype) (r : reflect_value) : bool := if rtype_dec t (value_type_info r) then true else false.
  (** reflect_value.rs:124-132 reflect_clone *)
  Definition reflect_clone (r : reflect_value) : option rvalue :=
    match r with Float x => Some (VF32 x) | Usize n => Some (VUsize n) | Color c => Some (VColor c) | Val w => Some (VVal w) | ReflectArc v => clone_value v end.
  (** reflect_value.rs:146-167 eq *)
  Definition rv_eq (a b : reflect_value) : bool :=
    match a, b with
    | Float x, Float y => SFeqb x y
    | Usize x, Usize y => N.eqb x y
    | Color x, Color y => ceq x y
    | Val x, Val y => weq x y
    | ReflectArc x, ReflectArc y => if rtype_dec (type_of x) (type_of y) then match partial_eq y x with Some r => r | None => false end else false
    | _, _ => false
    end.
End ReflectValue.
Arguments rvalue : clear implicits.
Arguments reflect_value : clear implicits.

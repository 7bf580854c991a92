(** What it means to set properties of a component. *)
From Coq Require Import Ascii String.
From Coq Require Import NArith.
From Verif Require Import Base Reflect.
Open Scope nat_scope.
Open Scope list_scope.
Open Scope string_scope.

(** [v] is a value of the type [t]: fields by name in the order of the type, one of the variants, elements of one type. *)
Inductive typed : ty -> rv -> Prop :=
| typed_opaque n v : typed (TOpaque n) (Opaque n v)
| typed_struct k fts fs : typed_fields fts fs -> typed (TFields k fts) (Fields k fs)
| typed_list e l : typed_elements e l -> typed (TList e) (ListV l)
| typed_variant vs x fts fs : lookup x vs = Some fts -> typed_fields fts fs -> typed (TEnum vs) (Variant x fs)
with typed_fields : list (string * ty) -> list (string * rv) -> Prop :=
| typed_no_fields : typed_fields [] []
| typed_field x t v fts fs : typed t v -> typed_fields fts fs -> typed_fields ((x, t) :: fts) ((x, v) :: fs)
with typed_elements : ty -> list rv -> Prop :=
| typed_no_elements e : typed_elements e []
| typed_element e v l : typed e v -> typed_elements e l -> typed_elements e (v :: l).

(** Rust's own rule: the fields of a struct or a variant, and the variants of an enum, have different names. *)
Inductive proper : ty -> Prop :=
| proper_opaque n : proper (TOpaque n)
| proper_struct k fts : NoDup (map fst fts) -> Forall (fun p => proper (snd p)) fts -> proper (TFields k fts)
| proper_list e : proper e -> proper (TList e)
| proper_enum vs : NoDup (map fst vs) -> Forall (fun v => NoDup (map fst (snd v)) /\ Forall (fun p => proper (snd p)) (snd v)) vs -> proper (TEnum vs).

(** Types none of whose values contains a list. *)
Inductive without_lists : ty -> Prop :=
| without_opaque n : without_lists (TOpaque n)
| without_struct k fts : Forall (fun p => without_lists (snd p)) fts -> without_lists (TFields k fts)
| without_enum vs : Forall (fun v => Forall (fun p => without_lists (snd p)) (snd v)) vs -> without_lists (TEnum vs).

(** What is there after a value has been set over an old one: the value, except that lists do not get shorter: the
    elements that an old list has behind the end of the new one stay. *)
Inductive set_over : rv -> rv -> rv -> Prop :=
| over_opaque n v n' v' : set_over (Opaque n v) (Opaque n' v') (Opaque n' v')
| over_struct k os vs ns : fields_over os vs ns -> set_over (Fields k os) (Fields k vs) (Fields k ns)
| over_list os vs ns : elements_over os vs ns -> set_over (ListV os) (ListV vs) (ListV ns)
| over_variant x os vs ns : fields_over os vs ns -> set_over (Variant x os) (Variant x vs) (Variant x ns)
| over_other x y os vs : x <> y -> set_over (Variant x os) (Variant y vs) (Variant y vs)
with fields_over : list (string * rv) -> list (string * rv) -> list (string * rv) -> Prop :=
| over_no_fields : fields_over [] [] []
| over_field x o v n os vs ns : set_over o v n -> fields_over os vs ns -> fields_over ((x, o) :: os) ((x, v) :: vs) ((x, n) :: ns)
with elements_over : list rv -> list rv -> list rv -> Prop :=
| over_kept os : elements_over os [] os
| over_appended vs : elements_over [] vs vs
| over_element o v n os vs ns : set_over o v n -> elements_over os vs ns -> elements_over (o :: os) (v :: vs) (n :: ns).

(** No list of the value is shorter than the old list that it is set over. *)
Inductive fits : rv -> rv -> Prop :=
| fits_opaque n v n' v' : fits (Opaque n v) (Opaque n' v')
| fits_struct k os vs : fields_fit os vs -> fits (Fields k os) (Fields k vs)
| fits_list os vs : elements_fit os vs -> fits (ListV os) (ListV vs)
| fits_variant x os vs : fields_fit os vs -> fits (Variant x os) (Variant x vs)
| fits_other x y os vs : x <> y -> fits (Variant x os) (Variant y vs)
with fields_fit : list (string * rv) -> list (string * rv) -> Prop :=
| fit_no_fields : fields_fit [] []
| fit_field x o v os vs : fits o v -> fields_fit os vs -> fields_fit ((x, o) :: os) ((x, v) :: vs)
with elements_fit : list rv -> list rv -> Prop :=
| fit_appended vs : elements_fit [] vs
| fit_element o v os vs : fits o v -> elements_fit os vs -> elements_fit (o :: os) (v :: vs).

(** Two places of a component that have nothing in common: neither is inside the other. *)
Definition apart (p q : path) : Prop := ~ (exists r, q = p ++ r)%list /\ ~ (exists r, p = q ++ r)%list.

(** The listed fields exist in the component's type and have the listed types; a field may be left out, and is then no property. *)
Definition desc_name (d : desc) : string := match d with Leaf x _ => x | Nested x _ => x end.
Inductive describes : list (string * ty) -> desc -> Prop :=
| describes_leaf fts x t : lookup x fts = Some t -> describes fts (Leaf x t)
| describes_nested fts x k sub ds : lookup x fts = Some (TFields k sub) -> NoDup (map desc_name ds) -> Forall (describes sub) ds -> describes fts (Nested x ds).
Inductive declares : ty -> declaration -> Prop :=
| declares_fields k fts ds : NoDup (map desc_name ds) -> Forall (describes fts) ds -> declares (TFields k fts) (Listed ds)
| declares_itself t : declares t (Itself t).

(** Values for the properties: of the type of the property, or none. *)
Definition value_for (p : property) (o : option rv) : Prop := match o with Some v => typed (p_type p) v | None => True end.
(** The property [p] is given the value [v]. *)
Definition given (ps : list property) (vals : list (option rv)) (p : property) (v : rv) : Prop :=
  exists i, nth_error ps i = Some p /\ nth_error vals i = Some (Some v).
(** [new] is the component [old] with the properties set: each property with a value has it set over the old one, and every
    place apart from those is as before. *)
Definition set_properties (ps : list property) (vals : list (option rv)) (old new : rv) : Prop :=
  (forall p v, given ps vals p v -> exists o n, element (p_path p) old = Some o /\ set_over o v n /\ element (p_path p) new = Some n) /\
  (forall q, (forall p v, given ps vals p v -> apart (p_path p) q) -> element q new = element q old).

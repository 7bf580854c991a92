(** Model of how a property is read from and written into a component: crates/bevy_flair_core/src/component_property.rs,
    the path side of component_properties.rs, and what bevy_reflect 0.18 does with a value
    ([PartialReflect::try_apply], [FromReflect::from_reflect], [ParsedPath::reflect_element]).  bevy_reflect is not in the
    sandbox: its documented behaviour, as its derive macros implement it, is written down here from memory (trusted base).

    Simplified: a panic and an [ApplyError] are both [None], and what an error inside a value leaves half written is not
    modelled (values of the right type give no error, see ReflectProofs.v).  Maps, sets, arrays and tuples are left out,
    no property type of the crate is one of them.  A field missing in [from_reflect] is an error (a type with
    [reflect(Default)] would take its default). *)
From Coq Require Import Ascii String.
From Coq Require Import NArith.
From Verif Require Import Base.
Open Scope nat_scope.
Open Scope list_scope.
Open Scope string_scope.

(** A reflected value.  [Opaque ty v]: a value of an opaque type (numbers, handles, strings).  [Fields tuple fs]: a struct or,
    with [tuple], a tuple struct, whose fields are named "0", "1"...  [ListV]: a Vec or SmallVec.  [Variant name fs]: an enum. *)
Inductive rv :=
| Opaque (ty v : N)
| Fields (tuple : bool) (fs : list (string * rv))
| ListV (l : list rv)
| Variant (name : string) (fs : list (string * rv)).

(** What a type says of its values (TypeInfo). *)
Inductive ty :=
| TOpaque (ty : N)
| TFields (tuple : bool) (fs : list (string * ty))
| TList (e : ty)
| TEnum (vs : list (string * list (string * ty))).

Fixpoint lookup {A} (x : string) (l : list (string * A)) : option A :=
  match l with [] => None | (y, a) :: l => if String.eqb x y then Some a else lookup x l end.
Fixpoint replace {A} (x : string) (a : A) (l : list (string * A)) : list (string * A) :=
  match l with [] => [] | (y, b) :: l => if String.eqb x y then (y, a) :: l else (y, b) :: replace x a l end.

(** FromReflect::from_reflect: a value of the type [t] with the contents of [b].  Only opaque values are compared by type:
    a struct is rebuilt from any struct with fields of these names. *)
Section Fields.
  Context (f : ty -> rv -> option rv) (bfs : list (string * rv)).
  Fixpoint rebuild (fts : list (string * ty)) : option (list (string * rv)) :=
    match fts with
    | [] => Some []
    | (x, t) :: fts => match lookup x bfs with
                       | Some vb => match f t vb, rebuild fts with Some v, Some r => Some ((x, v) :: r) | _, _ => None end
                       | None => None
                       end
    end.
End Fields.
Section Elements.
  Context (f : rv -> option rv).
  Fixpoint rebuild_list (l : list rv) : option (list rv) :=
    match l with [] => Some [] | v :: l => match f v, rebuild_list l with Some w, Some r => Some (w :: r) | _, _ => None end end.
End Elements.
Fixpoint from_reflect (t : ty) (b : rv) {struct t} : option rv :=
  match t, b with
  | TOpaque n, Opaque m v => if N.eqb n m then Some (Opaque m v) else None
  | TFields k fts, Fields k' bfs => if Bool.eqb k k' then option_map (Fields k) (rebuild from_reflect bfs fts) else None
  | TList e, ListV l => option_map ListV (rebuild_list (from_reflect e) l)
  | TEnum vs, Variant x bfs =>
      (fix variants (vs : list (string * list (string * ty))) : option rv :=
         match vs with [] => None | (y, fts) :: vs => if String.eqb x y then option_map (Variant x) (rebuild from_reflect bfs fts) else variants vs end) vs
  | _, _ => None
  end.

(** PartialReflect::try_apply of [b] to a value [a] of type [t].
    - Opaque types: downcast and clone.
    - Structs and tuple structs: each field of [b] that [a] has is applied to it.
    - Lists: "the corresponding element of value is applied to each element of self. Up to self.len() items are applied, and
      excess elements in value are appended to self"; elements of [a] beyond the length of [b] stay.
    - Enums: if the variant is the same, its fields are applied, otherwise the value is replaced by [from_reflect]. *)
Section Apply.
  Context (f : ty -> rv -> rv -> option rv).
  Fixpoint apply_fields (fts : list (string * ty)) (afs bfs : list (string * rv)) : option (list (string * rv)) :=
    match bfs with
    | [] => Some afs
    | (x, vb) :: bfs => match lookup x fts, lookup x afs with
                        | Some tx, Some va => match f tx va vb with Some w => apply_fields fts (replace x w afs) bfs | None => None end
                        | _, _ => apply_fields fts afs bfs
                        end
    end.
  Fixpoint apply_list (e : ty) (al bl : list rv) {struct bl} : option (list rv) :=
    match bl with
    | [] => Some al
    | vb :: bl => match al with
                  | va :: al => match f e va vb, apply_list e al bl with Some w, Some r => Some (w :: r) | _, _ => None end
                  | [] => match from_reflect e vb, apply_list e [] bl with Some w, Some r => Some (w :: r) | _, _ => None end
                  end
    end.
End Apply.
Fixpoint try_apply_fuel (n : nat) (t : ty) (a b : rv) : option rv :=
  match n with
  | 0 => None
  | S n =>
      match t, a, b with
      | TOpaque m, Opaque _ _, Opaque m' v => if N.eqb m m' then Some (Opaque m' v) else None
      | TFields k fts, Fields _ afs, Fields k' bfs => if Bool.eqb k k' then option_map (Fields k) (apply_fields (try_apply_fuel n) fts afs bfs) else None
      | TList e, ListV al, ListV bl => option_map ListV (apply_list (try_apply_fuel n) e al bl)
      | TEnum vs, Variant x afs, Variant y bfs =>
          if String.eqb x y then match lookup x vs with Some fts => option_map (Variant x) (apply_fields (try_apply_fuel n) fts afs bfs) | None => None end
          else from_reflect t b
      | _, _, _ => None
      end
  end.
(** the height of a type: the fuel that its values need *)
Fixpoint height (t : ty) : nat :=
  match t with
  | TOpaque _ => 1
  | TFields _ fts => S (fold_right (fun p m => Nat.max (height (snd p)) m) 0 fts)
  | TList e => S (height e)
  | TEnum vs => S (fold_right (fun v m => Nat.max (fold_right (fun p m => Nat.max (height (snd p)) m) 0 (snd v)) m) 0 vs)
  end.
Definition try_apply (t : ty) (a b : rv) : option rv := try_apply_fuel (height t) t a b.

(** Paths (ParsedPath): the names of fields from the component to the value. *)
Definition path := list string.
(** ParsedPath's Display, with which component_properties.rs:30-31 builds the path of a field from its parent's *)
Fixpoint show_path (p : path) : string := match p with [] => "" | x :: p => append (append "." x) (show_path p) end.
(** ParsedPath::reflect_element; fields of the current variant of an enum are reached in the same way *)
Fixpoint element (p : path) (v : rv) : option rv :=
  match p with
  | [] => Some v
  | x :: p => match v with
              | Fields _ fs | Variant _ fs => match lookup x fs with Some w => element p w | None => None end
              | _ => None
              end
  end.
(** ParsedPath::reflect_element_mut, and writing through it *)
Fixpoint write (p : path) (w v : rv) : option rv :=
  match p with
  | [] => Some w
  | x :: p => match v with
              | Fields k fs => match lookup x fs with Some u => option_map (fun u' => Fields k (replace x u' fs)) (write p w u) | None => None end
              | Variant y fs => match lookup x fs with Some u => option_map (fun u' => Variant y (replace x u' fs)) (write p w u) | None => None end
              | _ => None
              end
  end.

(** component_property.rs:312-336 ComponentProperty: the path and the type of the value *)
Record property := mkproperty { p_path : path; p_type : ty }.
(** component_property.rs:18-31, 357-366 get_value; [None]: panic *)
Definition get_value (p : property) (c : rv) : option rv := element (p_path p) c.
(** component_property.rs:33-47, 371-388 apply_value *)
Definition apply_value (p : property) (c v : rv) : option rv :=
  match element (p_path p) c with
  | Some old => match try_apply (p_type p) old v with Some new => write (p_path p) new c | None => None end
  | None => None
  end.

(** component_properties.rs:14-70: the fields that impl_component_properties! lists; [Nested]: #[nested] *)
Inductive desc := Leaf (name : string) (t : ty) | Nested (name : string) (ds : list desc).
Fixpoint extract (parent : path) (d : desc) : list property :=
  match d with
  | Leaf x t => [mkproperty (parent ++ [x])%list t]
  | Nested x ds => (fix go (ds : list desc) : list property := match ds with [] => [] | d :: ds => (extract (parent ++ [x])%list d ++ go ds)%list end) ds
  end.
(** 402-487: fields, a tuple struct's fields, or with @self the component itself *)
Inductive declaration := Listed (ds : list desc) | Itself (t : ty).
Definition properties_of (d : declaration) : list property :=
  match d with Listed ds => flat_map (extract []) ds | Itself t => [mkproperty [] t] end.

(** component_properties.rs:72-97: a registered component.  [r_props]: the properties of its range of ids; the values given
    for them are the corresponding part of the map. *)
Record registration := mkregistration { r_type : N; r_props : list property; r_default : rv; r_auto : bool; r_mutable : bool }.

(** component_properties.rs:123-143 internal_apply_values on the values of the range: the component, the values left
    (PropertyMap::take), and whether a value was set; [None] for that: ApplyError. *)
Fixpoint internal_apply (ps : list property) (c : rv) (vals : list (option rv)) (any : bool) : rv * list (option rv) * option bool :=
  match ps, vals with
  | p :: ps, None :: vals => let '(c', vals', r) := internal_apply ps c vals any in (c', None :: vals', r)
  | p :: ps, Some v :: vals => match apply_value p c v with
                               | Some c1 => let '(c', vals', r) := internal_apply ps c1 vals true in (c', None :: vals', r)
                               | None => (c, None :: vals, None)
                               end
  | _, _ => (c, vals, Some any)
  end.

(** What is queued for the entity: a component to insert, the event ComponentAutoInserted, a component to remove. *)
Inductive command := Insert (ty : N) (c : rv) | Event (ty : N) | Remove (ty : N).
(** An entity: its components, and the events that observers saw. *)
Record entity := mkentity { comps : N -> option rv; seen : list N }.
Definition with_comp (e : entity) (t : N) (o : option rv) : entity := mkentity (fun x => if N.eqb x t then o else comps e x) (seen e).
Definition run_command (e : entity) (c : command) : entity :=
  match c with
  | Insert t c => with_comp e t (Some c)
  | Event t => mkentity (comps e) (seen e ++ [t])%list
  | Remove t => with_comp e t None
  end.
(** CommandQueue::apply *)
Definition flush (q : list command) (e : entity) : entity := fold_left run_command q e.

(** 251-287 apply_values_ref: values left, what it queues, and whether it succeeds.  reflect_clone gives the same value. *)
Definition apply_values_ref (r : registration) (e : entity) (vals : list (option rv)) : list (option rv) * list command * bool :=
  match comps e (r_type r) with
  | Some c => match internal_apply (r_props r) c vals false with
              | (c', vals', Some true) => (vals', [Insert (r_type r) c'], true)
              | (_, vals', Some false) => (vals', [], true)
              | (_, vals', None) => (vals', [], false)
              end
  | None => if r_auto r then
              match internal_apply (r_props r) (r_default r) vals false with
              | (c', vals', Some true) => (vals', [Insert (r_type r) c'; Event (r_type r)], true)
              | (_, vals', Some false) => (vals', [], true)
              | (_, vals', None) => (vals', [], false)
              end
            else (vals, [], true)
  end.
(** 206-246 apply_values_mut: also the entity after it *)
Definition apply_values_mut (r : registration) (e : entity) (vals : list (option rv)) : entity * list (option rv) * list command * bool :=
  if negb (r_mutable r) then let '(vals', q, ok) := apply_values_ref r e vals in (e, vals', q, ok)
  else match comps e (r_type r) with
       | Some c => let '(c', vals', s) := internal_apply (r_props r) c vals false in
                   (with_comp e (r_type r) (Some c'), vals', [], match s with Some _ => true | None => false end)
       | None => if r_auto r then
                   match internal_apply (r_props r) (r_default r) vals false with
                   | (c', vals', Some true) => (e, vals', [Insert (r_type r) c'; Event (r_type r)], true)
                   | (_, vals', Some false) => (e, vals', [], true)
                   | (_, vals', None) => (e, vals', [], false)
                   end
                 else (e, vals, [], true)
       end.
(** 149-200 apply_values_world_mut *)
Definition apply_values_world_mut (r : registration) (e : entity) (vals : list (option rv)) : entity * list (option rv) * bool :=
  if negb (r_mutable r) then
    let '(vals', q, ok) := apply_values_ref r e vals in (if ok then flush q e else e, vals', ok)
  else match comps e (r_type r) with
       | Some c => let '(c', vals', s) := internal_apply (r_props r) c vals false in
                   (with_comp e (r_type r) (Some c'), vals', match s with Some _ => true | None => false end)
       | None => if r_auto r then
                   match internal_apply (r_props r) (r_default r) vals false with
                   | (c', vals', Some true) => (run_command (with_comp e (r_type r) (Some c')) (Event (r_type r)), vals', true)
                   | (_, vals', Some false) => (e, vals', true)
                   | (_, vals', None) => (e, vals', false)
                   end
                 else (e, vals, true)
       end.
(** 290-313 auto_remove, and 316-342 auto_remove_deferred; [has]: which of the computed values are not None *)
Definition removable (r : registration) (e : entity) (has : list bool) : bool :=
  r_auto r && (match comps e (r_type r) with Some _ => true | None => false end) && forallb negb has.
Definition auto_remove (r : registration) (e : entity) (has : list bool) : entity * bool :=
  if removable r e has then (with_comp e (r_type r) None, true) else (e, false).
Definition auto_remove_deferred (r : registration) (e : entity) (has : list bool) : list command * bool :=
  if removable r e has then ([Remove (r_type r)], true) else ([], false).

(** registry.rs:303-320 create_initial_values_map, for one component *)
Definition initial_values (r : registration) : list (option rv) := map (fun p => get_value p (r_default r)) (r_props r).

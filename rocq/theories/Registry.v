(** Model of crates/bevy_flair_core/src/registry.rs: PropertyRegistry and CssPropertyRegistry.

    Canonical names and css names are natural numbers (only their equality matters); hash maps are
    association lists with unique keys.  [None] is a panic.  Ids are unbounded (u32 in the code).
    Not modelled: the [Arc]/[RwLock] around the registries (a cloned PropertyRegistry refuses
    registrations), reflection-based property accessors. *)
From Verif Require Import Base Inherit.

Notation name := nat (only parsing).
Definition lookup {A} (k : name) (l : list (name * A)) : option A :=
  option_map snd (find (fun e => Nat.eqb (fst e) k) l).

(** registry.rs:98-103 ComponentPropertyRef *)
Inductive property_ref := RefId (id : nat) | RefName (n : name).

Section Registry.
  Context {V : Type}.

  (** registry.rs:171-179 PropertyRegistryInner; a property is its canonical name and the default its
      component gives it; a registration is a component type and its range of ids
      (component_properties.rs:338-348) *)
  Record registry := mk_registry {
    properties : list (name * V); unset_values : list (pvalue V);
    canonical_names : list (name * nat); registrations : list (nat * (nat * nat)) }.
  Definition empty_registry : registry := mk_registry [] [] [] [].

  (** registry.rs:206-220 resolve *)
  Definition resolve (r : registry) (p : property_ref) : option nat :=
    match p with RefId i => Some i | RefName n => lookup n (canonical_names r) end.

  (** registry.rs:267-289 register_properties, one iteration *)
  Definition register_one (r : registry) (p : name * V) : option registry :=
    match lookup (fst p) (canonical_names r) with
    | Some _ => None
    | None => Some (mk_registry (properties r ++ [p]) (unset_values r ++ [PNone])
                      (canonical_names r ++ [(fst p, length (properties r))]) (registrations r))
    end.
  Fixpoint register_all (r : registry) (ps : list (name * V)) : option registry :=
    match ps with
    | [] => Some r
    | p :: ps => match register_one r p with Some r' => register_all r' ps | None => None end
    end.
  (** the returned range *)
  Definition register_properties (r : registry) (ps : list (name * V)) : option (registry * (nat * nat)) :=
    match register_all r ps with
    | Some r' => Some (r', (length (properties r), length (properties r')))
    | None => None
    end.

  Fixpoint replace_nth {A} (i : nat) (v : A) (l : list A) : list A :=
    match l, i with [], _ => [] | _ :: l, 0 => v :: l | x :: l, S i => x :: replace_nth i v l end.

  (** registry.rs:294-306 set_unset_value *)
  Definition set_unset_value (r : registry) (p : property_ref) (v : pvalue V) : option registry :=
    match resolve r p with
    | None => None
    | Some i => if Nat.ltb i (length (unset_values r))
                then Some (mk_registry (properties r) (replace_nth i v (unset_values r)) (canonical_names r) (registrations r))
                else None
    end.

  (** registry.rs:308-322 add_registration, 328-336 register *)
  Definition register_component (r : registry) (ty : nat) (ps : list (name * V)) : option registry :=
    match register_properties r ps with
    | None => None
    | Some (r', range) =>
        if existsb (fun c => Nat.eqb (fst c) ty) (registrations r') then None
        else Some (mk_registry (properties r') (unset_values r') (canonical_names r') (registrations r' ++ [(ty, range)]))
    end.

  Inductive reg_op := RegProps (ps : list (name * V)) | RegComponent (ty : nat) (ps : list (name * V)) | SetUnset (p : property_ref) (v : pvalue V).
  Definition reg_step (r : registry) (o : reg_op) : option registry :=
    match o with
    | RegProps ps => option_map fst (register_properties r ps)
    | RegComponent ty ps => register_component r ty ps
    | SetUnset p v => set_unset_value r p v
    end.
  Fixpoint reg_run (r : registry) (os : list reg_op) : option registry :=
    match os with [] => Some r | o :: os => match reg_step r o with Some r' => reg_run r' os | None => None end end.

  (** registry.rs:340-384 create_initial_values_map: panics if some property belongs to no component *)
  Definition in_range (i : nat) (c : nat * (nat * nat)) : bool := Nat.leb (fst (snd c)) i && Nat.ltb i (snd (snd c)).
  Definition all_have_component (r : registry) : bool :=
    forallb (fun i => existsb (in_range i) (registrations r)) (seq 0 (length (properties r))).
  Definition fill_component (r : registry) (m : list (option V)) (c : nat * (nat * nat)) : list (option V) :=
    fold_left (fun m i => match nth_error (properties r) i with Some p => replace_nth i (Some (snd p)) m | None => m end)
      (seq (fst (snd c)) (snd (snd c) - fst (snd c))) m.
  Fixpoint all_some {A} (l : list (option A)) : option (list A) :=
    match l with [] => Some [] | Some x :: l => option_map (cons x) (all_some l) | None :: _ => None end.
  Definition create_initial_values_map (r : registry) : option (list V) :=
    if all_have_component r
    then all_some (fold_left (fill_component r) (registrations r) (repeat None (length (properties r))))
    else None.
End Registry.
Arguments registry : clear implicits.
Arguments reg_op : clear implicits.

(** registry.rs:462-466 InnerCssPropertyRegistry *)
Record css_registry := mk_css { css_properties : list (name * property_ref); css_shorthands : list (name * list property_ref) }.
Definition empty_css : css_registry := mk_css [] [].

(** registry.rs:582-607 register_property: both checks look at the properties *)
Definition register_property (c : css_registry) (n : name) (p : property_ref) : option css_registry :=
  match lookup n (css_properties c) with
  | Some _ => None
  | None => match lookup n (css_properties c) with
            | Some _ => None
            | None => Some (mk_css (css_properties c ++ [(n, p)]) (css_shorthands c))
            end
  end.
(** registry.rs:611-633 register_shorthand *)
Definition register_shorthand (c : css_registry) (n : name) (ps : list property_ref) : option css_registry :=
  match lookup n (css_shorthands c) with
  | Some _ => None
  | None => match lookup n (css_properties c) with
            | Some _ => None
            | None => Some (mk_css (css_properties c) (css_shorthands c ++ [(n, ps)]))
            end
  end.

Inductive css_op := RegProperty (n : name) (p : property_ref) | RegShorthand (n : name) (ps : list property_ref).
Definition css_step (c : css_registry) (o : css_op) : option css_registry :=
  match o with RegProperty n p => register_property c n p | RegShorthand n ps => register_shorthand c n ps end.
Fixpoint css_run (c : css_registry) (os : list css_op) : option css_registry :=
  match os with [] => Some c | o :: os => match css_step c o with Some c' => css_run c' os | None => None end end.

(** registry.rs:524-532 get_property, 534-544 resolve_property, 546-570 get_shorthand / resolve_shorthand *)
Definition get_property (c : css_registry) (n : name) : option property_ref := lookup n (css_properties c).
Definition get_shorthand (c : css_registry) (n : name) : option (list property_ref) := lookup n (css_shorthands c).
Section CssResolve.
  Context {V : Type} (r : registry V).
  Definition resolve_property (c : css_registry) (n : name) : option nat :=
    match get_property c n with Some p => resolve r p | None => None end.
  Fixpoint resolve_refs (ps : list property_ref) : option (list nat) :=
    match ps with
    | [] => Some []
    | p :: ps => match resolve r p, resolve_refs ps with Some i, Some is => Some (i :: is) | _, _ => None end
    end.
  Definition resolve_shorthand (c : css_registry) (n : name) : option (list nat) :=
    match get_shorthand c n with Some ps => resolve_refs ps | None => None end.
  (** registry.rs:480-485, 573-580 resolve *)
  Inductive css_result := ResProperty (id : nat) | ResShorthand (ids : list nat).
  Definition css_resolve (c : css_registry) (n : name) : option css_result :=
    match resolve_shorthand c n with
    | Some ids => Some (ResShorthand ids)
    | None => option_map ResProperty (resolve_property c n)
    end.
End CssResolve.

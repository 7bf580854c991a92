(** Model of the life of pseudo-elements and type names.
    crates/bevy_flair_style/src/components.rs:258-264, 360-369, 1260-1362 (TypeName, PseudoElement, PseudoElementsSupport and their
    hooks), lib.rs:342-355 (required components), systems.rs:53-90 (sort_pseudo_elements, Siblings.v).
    - Entities are numbers that are not used again.  Names are numbers.
    - The commands of a hook are applied before the next operation, as Bevy does.
    - [None]: a panic. *)
From Verif Require Import Base Siblings.

(** the components of an entity: [e_node] Node, [e_hidden] with display: none, [e_text] Text, [e_span] TextSpan, [e_type] TypeName,
    [e_data] NodeStyleData with type_name and is_pseudo_element, [e_support] PseudoElementsSupport, [e_pseudo] PseudoElement *)
Record ent := mk_ent { e_node : bool; e_hidden : bool; e_text : bool; e_span : bool; e_type : option nat; e_data : option (option nat * option pseudo); e_support : bool; e_pseudo : option pseudo }.
Definition bare := mk_ent false false false false None None false None.
(** a bundle; [b_named]: the TypeName that Button, Text, TextSpan or Label brings if there is none (lib.rs:344-355) *)
Record bundle := mk_bundle { b_node : bool; b_hidden : bool; b_text : bool; b_span : bool; b_type : option nat; b_named : option nat; b_support : bool; b_pseudo : option pseudo }.
Record state := mk_state { next : nat; ents : nat -> option ent; kids : nat -> list nat; changed : nat -> bool }.
Definition upd {A} (f : nat -> A) (k : nat) (v : A) : nat -> A := fun a => if Nat.eqb a k then v else f a.
Definition mem (n : nat) (l : list nat) : bool := existsb (Nat.eqb n) l.

(** the TypeName that is inserted, if one is *)
Definition new_type (x : ent) (b : bundle) : option nat := match b_type b, e_type x with Some n, _ => Some n | None, None => b_named b | None, Some _ => None end.
(** lib.rs:342-343, components.rs:360-369: Node (which Text requires) and TextSpan require NodeStyleData *)
Definition data_before_hooks (x : ent) (b : bundle) : option (option nat * option pseudo) :=
  match e_data x with Some d => Some d | None => if b_node b || b_text b || b_span b then Some (None, None) else None end.
(** components.rs:1273-1288 on_insert_type_name *)
Definition type_hook (d : option (option nat * option pseudo)) (n : option nat) : option (option (option nat * option pseudo)) :=
  match n, d with
  | Some _, Some (Some _, _) => None
  | Some n, Some (None, p) => Some (Some (Some n, p))
  | _, _ => Some d
  end.
(** components.rs:1300-1309 on_insert_pseudo_element *)
Definition pseudo_hook (d : option (option nat * option pseudo)) (k : option pseudo) : option (option (option nat * option pseudo)) :=
  match k, d with
  | Some k, Some (n, _) => Some (Some (n, Some k))
  | Some _, None => None
  | None, _ => Some d
  end.
Definition or_else {A} (a b : option A) : option A := match a with Some _ => a | None => b end.
(** insertion of a bundle, without the hook of PseudoElementsSupport *)
Definition put (x : ent) (b : bundle) : option ent :=
  match type_hook (data_before_hooks x b) (new_type x b) with
  | Some d => match pseudo_hook d (b_pseudo b) with
              | Some d => Some (mk_ent (e_node x || b_node b || b_text b) (if b_node b then b_hidden b else e_hidden x) (e_text x || b_text b) (e_span x || b_span b)
                                  (or_else (new_type x b) (e_type x)) d (e_support x || b_support b) (or_else (b_pseudo b) (e_pseudo x)))
              | None => None end
  | None => None
  end.
Definition attach (s : state) (p c : nat) : state := mk_state (next s) (ents s) (upd (kids s) p (kids s p ++ [c])) (upd (changed s) p true).
(** commands.spawn with ChildOf *)
Definition spawn_plain (s : state) (par : option nat) (b : bundle) : option state :=
  match put bare b with
  | Some x => let s1 := mk_state (S (next s)) (upd (ents s) (next s) (Some x)) (kids s) (changed s) in
              Some (match par with Some p => attach s1 p (next s) | None => s1 end)
  | None => None
  end.
(** the TypeName of a TextSpan: lib.rs:350-352 *)
Definition span_name := 1.
(** components.rs:1333-1351 *)
Definition pseudo_bundle (text : bool) (k : pseudo) : bundle :=
  if text then mk_bundle false false false true None (Some span_name) false (Some k) else mk_bundle true true false false None None false (Some k).
(** components.rs:1325-1357 on_insert_pseudo_elements_support *)
Definition support_hook (s : state) (e : nat) (x : ent) : option state :=
  if e_text x || e_span x || e_node x then
    let text := e_text x || e_span x in
    match spawn_plain s (Some e) (pseudo_bundle text Before) with
    | Some s => spawn_plain s (Some e) (pseudo_bundle text After)
    | None => None
    end
  else Some s.
Definition insert (s : state) (e : nat) (b : bundle) : option state :=
  match ents s e with
  | Some x => match put x b with
              | Some x => let s1 := mk_state (next s) (upd (ents s) e (Some x)) (kids s) (changed s) in if b_support b then support_hook s1 e x else Some s1
              | None => None end
  | None => None
  end.
Definition spawn (s : state) (par : option nat) (b : bundle) : option state :=
  let s1 := mk_state (S (next s)) (upd (ents s) (next s) (Some bare)) (kids s) (changed s) in
  insert (match par with Some p => attach s1 p (next s) | None => s1 end) (next s) b.
(** Bevy: a new ChildOf *)
Definition detach (s : state) (c : nat) : state :=
  mk_state (next s) (ents s) (fun p => filter (fun a => negb (Nat.eqb a c)) (kids s p)) (fun p => changed s p || mem c (kids s p)).
(** Bevy: despawn, with all descendants *)
Fixpoint below (fuel : nat) (s : state) (e : nat) : list nat := match fuel with 0 => [e] | S f => e :: flat_map (below f s) (kids s e) end.
Definition despawn (s : state) (e : nat) : state :=
  let gone := below (next s) s e in
  mk_state (next s) (fun a => if mem a gone then None else ents s a) (fun p => if mem p gone then [] else filter (fun a => negb (mem a gone)) (kids s p))
    (fun p => changed s p || existsb (fun a => mem a gone) (kids s p)).
Definition kind (s : state) (e : nat) : option pseudo := match ents s e with Some x => e_pseudo x | None => None end.
(** systems.rs:53-90 *)
Definition frame (s : state) : state :=
  mk_state (next s) (ents s)
    (fun p => match ents s p with Some x => if e_support x && changed s p then sort_pseudo_elements (kind s) (kids s p) else kids s p | None => kids s p end) (fun _ => false).

Inductive op := Spawn (par : option nat) (b : bundle) | Insert (e : nat) (b : bundle) | Move (e p : nat) | Despawn (e : nat) | DropSupport (e : nat) | DropType (e : nat) | Frame.
Definition without_support (x : ent) := mk_ent (e_node x) (e_hidden x) (e_text x) (e_span x) (e_type x) (e_data x) false (e_pseudo x).
(** no hook on removal *)
Definition without_type (x : ent) := mk_ent (e_node x) (e_hidden x) (e_text x) (e_span x) None (e_data x) (e_support x) (e_pseudo x).
Definition run (s : state) (o : op) : option state :=
  match o with
  | Spawn par b => spawn s par b
  | Insert e b => insert s e b
  | Move e p => Some (attach (detach s e) p e)
  | Despawn e => Some (despawn s e)
  | DropSupport e => Some (mk_state (next s) (upd (ents s) e (option_map without_support (ents s e))) (kids s) (changed s))
  | DropType e => Some (mk_state (next s) (upd (ents s) e (option_map without_type (ents s e))) (kids s) (changed s))
  | Frame => Some (frame s)
  end.
Fixpoint run_all (s : state) (l : list op) : option state := match l with [] => Some s | o :: l => match run s o with Some s => run_all s l | None => None end end.
Definition nobody : state := mk_state 0 (fun _ => None) (fun _ => []) (fun _ => false).

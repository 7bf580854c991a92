(** Model of crates/bevy_flair_style/src/layers.rs (whole file, non-test part).

    A Rust [&str] is a list of bytes ([ascii]); the separator is the byte '.'.
    A panic is [None]. *)
From Coq Require Import Ascii String.
From Verif Require Import Base.
Local Open Scope list_scope.

Notation name := (list ascii) (only parsing).

(** layers.rs:29  the '.' searched by [find('.')] *)
Definition dot : ascii := "."%char.

Definition name_eqb (a b : name) : bool := if list_eq_dec ascii_dec a b then true else false.

(** layers.rs:19-23  struct ParsedLayer *)
Record parsed_layer := { parents : list name; pl_name : name }.

(** layers.rs:25-36  ParsedLayer::parse.  The Rust loop keeps [consumed]; here [pre] is
    [full_name[..consumed+k]] (the bytes scanned so far, reversed), [cur] is the segment being
    scanned (reversed).  A parent is pushed at each '.' and is everything before that '.'. *)
Fixpoint parse_from (pre cur : name) (rest : name) : parsed_layer :=
  match rest with
  | [] => {| parents := []; pl_name := rev cur |}
  | c :: r =>
      if ascii_dec c dot
      then let p := parse_from (c :: pre) [] r in
           {| parents := rev pre :: parents p; pl_name := pl_name p |}
      else parse_from (c :: pre) (c :: cur) r
  end.

Definition parse (full_name : name) : parsed_layer := parse_from [] [] full_name.

(** layers.rs:38-40 has_parents *)
Definition has_parents (p : parsed_layer) : bool :=
  match parents p with [] => false | _ => true end.

(** layers.rs:43-46  LayersHierarchy { inner: Vec<String> } *)
Notation hierarchy := (list (list ascii)) (only parsing).

(** layers.rs:81-83 is_layer_defined *)
Definition is_layer_defined (h : hierarchy) (n : name) : bool := existsb (fun a => name_eqb a n) h.

(** layers.rs:103-113 find_insert_position: position of the last parent (panic if missing) *)
Definition find_insert_position (h : hierarchy) (p : parsed_layer) : option nat :=
  position (fun a => name_eqb a (last (parents p) [])) h.

(** [for parent in &layer.parents { self.define_layer(parent) }] (layers.rs:72-74) *)
Fixpoint for_each_opt {A S} (f : S -> A -> option S) (l : list A) (s : S) : option S :=
  match l with
  | [] => Some s
  | x :: r => match f s x with Some s' => for_each_opt f r s' | None => None end
  end.

(** layers.rs:59-79 define_layer.  [fuel] bounds the recursion on parents, which are strictly
    shorter than the name: [define_layer] below supplies [S (length name)], which never runs out
    (LayersProofs.define_layer_fuel_irrelevant).  [None] = panic: the debug assertion at
    layers.rs:34 on an empty last segment, or a missing parent at layers.rs:106-112. *)
Fixpoint define_layer_fuel (fuel : nat) (h : hierarchy) (full_name : name) : option hierarchy :=
  match fuel with
  | 0 => None
  | S fuel =>
      match full_name with
      | [] => Some h
      | _ =>
          if is_layer_defined h full_name then Some h
          else
            let layer := parse full_name in
            match pl_name layer with
            | [] => None
            | _ =>
                if has_parents layer then
                  match for_each_opt (define_layer_fuel fuel) (parents layer) h with
                  | None => None
                  | Some h' =>
                      match find_insert_position h' layer with
                      | None => None
                      | Some i => Some (insert_at i full_name h')
                      end
                  end
                else Some (h ++ [pl_name layer])
            end
      end
  end.

Definition define_layer (h : hierarchy) (n : name) : option hierarchy :=
  define_layer_fuel (S (length n)) h n.

(** A sequence of declarations starting from [LayersHierarchy::new()] (layers.rs:55-57). *)
Definition define_layers (ns : list name) (h : hierarchy) : option hierarchy :=
  for_each_opt define_layer ns h.

(** layers.rs:86-97 get_layer_priority ([None] = panic on an unknown layer) *)
Definition get_layer_priority (h : hierarchy) (n : name) : option nat :=
  match n with
  | [] => Some (length h)
  | _ => position (fun a => name_eqb a n) h
  end.

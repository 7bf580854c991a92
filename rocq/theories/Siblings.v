(** Model of the child order systems: sibling links and the placement of pseudo-elements.
    crates/bevy_flair_style/src/components.rs:57-84 (Siblings) and systems.rs:53-130
    (sort_pseudo_elements, sync_siblings_system).  The hierarchy is Tree.forest. *)
From Verif Require Import Base Tree.

(** components.rs:50-55 *)
Record siblings := mk_siblings { previous_sibling : option nat; next_sibling : option nat }.
(** the derived Default *)
Definition no_siblings : siblings := mk_siblings None None.

(** components.rs:60-83 recalculate_with; [None] = panic.  The enumerated vector is the list itself; the
    two index expressions are [nth_error]. *)
Definition recalculate_with (e : nat) (l : list nat) : option siblings :=
  match position (Nat.eqb e) l with
  | None => None
  | Some i => Some (mk_siblings (if Nat.ltb 0 i then nth_error l (i - 1) else None)
                                (if Nat.ltb i (length l - 1) then nth_error l (i + 1) else None))
  end.

(** systems.rs:92-130 sync_siblings_system.
    [has]: the entities with a [Siblings] component, in query order; [added]: those whose component is new;
    [changed]: the parents whose [Children] changed. *)
Record links := mk_links { link : nat -> siblings; recalculated : list nat }.
Definition set_link (s : links) (e : nat) (x : siblings) : links :=
  mk_links (fun a => if Nat.eqb a e then x else link s a) (e :: recalculated s).
Fixpoint first_loop (w : forest) (added changed : nat -> bool) (has : list nat) (s : links) : option links :=
  match has with
  | [] => Some s
  | e :: has =>
      match parent w e with
      | None => first_loop w added changed has s
      | Some p => if negb (added e) && negb (changed p) then first_loop w added changed has s
                  else match recalculate_with e (iter_ui_siblings w e) with
                       | None => None
                       | Some x => first_loop w added changed has (set_link s e x)
                       end
      end
  end.
(** systems.rs:113-127, the children of one parent (the membership test is on the parent: 115) *)
Fixpoint children_loop (w : forest) (has : list nat) (p : nat) (l : list nat) (s : links) : option links :=
  match l with
  | [] => Some s
  | e :: l =>
      if existsb (Nat.eqb p) (recalculated s) then children_loop w has p l s
      else if negb (existsb (Nat.eqb e) has) then children_loop w has p l s
      else match recalculate_with e (iter_ui_siblings w e) with
           | None => None
           | Some x => children_loop w has p l (set_link s e x)
           end
  end.
Fixpoint second_loop (w : forest) (has : list nat) (ps : list nat) (s : links) : option links :=
  match ps with
  | [] => Some s
  | p :: ps => match children_loop w has p (children w p) s with None => None | Some s' => second_loop w has ps s' end
  end.
Definition sync_siblings (w : forest) (added : nat -> bool) (changed : list nat) (has : list nat) (s : nat -> siblings) : option (nat -> siblings) :=
  match first_loop w added (fun p => existsb (Nat.eqb p) changed) has (mk_links s []) with
  | None => None
  | Some s1 => option_map link (second_loop w has changed s1)
  end.

(** systems.rs:53-90 sort_pseudo_elements.  [kind e]: the entity's [PseudoElement] component. *)
Inductive pseudo := Before | After.
Definition is_kind (k : pseudo) (kind : nat -> option pseudo) (e : nat) : bool :=
  match kind e, k with Some Before, Before => true | Some After, After => true | _, _ => false end.
Definition opt_is (o : option nat) (e : nat) : bool := match o with Some x => Nat.eqb x e | None => false end.
(** systems.rs:80-88 the comparator *)
Definition pseudo_cmp (before after : option nat) (a b : nat) : comparison :=
  if opt_is before a || opt_is after b then Lt
  else if opt_is before b || opt_is after a then Gt
  else Eq.
(** [sort_by] is Rust's stable sort.  It is modelled by insertion; SiblingsProofs shows that every stable
    sort with this comparator gives the same list, so the choice does not matter. *)
Fixpoint insert_sorted (cmp : nat -> nat -> comparison) (x : nat) (l : list nat) : list nat :=
  match l with
  | [] => [x]
  | y :: r => match cmp x y with Gt => y :: insert_sorted cmp x r | _ => x :: y :: r end
  end.
Fixpoint stable_sort (cmp : nat -> nat -> comparison) (l : list nat) : list nat :=
  match l with [] => [] | x :: r => insert_sorted cmp x (stable_sort cmp r) end.
Definition sort_pseudo_elements (kind : nat -> option pseudo) (l : list nat) : list nat :=
  let before := find (is_kind Before kind) l in
  let after := find (is_kind After kind) l in
  match before, after with
  | None, None => l
  | _, _ => stable_sort (pseudo_cmp before after) l
  end.

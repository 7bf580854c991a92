(** Specification vocabulary for style invalidation. *)
From Verif Require Import Base Tree TreeSpec Siblings SiblingsSpec Invalidation.

(** The hierarchy is well formed and the sibling links are the neighbours (C33). *)
Definition good_tree (w : tree) : Prop :=
  wf_forest (t_forest w) /\
  forall e, match parent (t_forest w) e with
            | Some p => neighbours (children (t_forest w) p) e (t_link w e)
            | None => t_link w e = no_siblings
            end.

(** ** What the matching may look at *)
(** Handles whose nodes are themselves, siblings, ancestors, or first children of first children: steps
    to siblings first and then steps up, or only steps to the first child (lists are last step first). *)
Definition covered (path : list dir) : Prop :=
  (exists ups sibs, path = ups ++ sibs /\ Forall (eq Up) ups /\ Forall (fun d => d = Prev \/ d = Next) sibs) \/
  Forall (eq FirstChild) path.
Fixpoint only_covered {D R} (p : prog D R) : Prop :=
  match p with Ret _ => True | Visit path k => covered path /\ forall o, only_covered (k o) end.
(** The answer of a matcher, without the flags *)
Fixpoint answer {D R} (w : tree) (data : nat -> D) (s : nat) (p : prog D R) : R :=
  match p with Ret r => r | Visit path k => answer w data s (k (option_map data (follow w s path))) end.

(** ** Histories *)
Inductive connected (w : forest) : nat -> nat -> Prop :=
| conn_refl : forall a, connected w a a
| conn_up : forall a b c, connected w a b -> parent w b = Some c -> connected w a c
| conn_down : forall a b c, connected w a b -> parent w c = Some b -> connected w a c.
(** Change detection reports every change, and only entities in [nodes] exist. *)
Definition reported {D} (nodes : list nat) (data : nat -> D) (f : iframe D) : Prop :=
  forall n, f_data f n = data n \/ (f_data_changed f n = true /\ In n nodes).
(** Where a node's effective style sheet changes, all nodes of the same tree are marked. *)
Definition whole_trees {D} (w : forest) (f : iframe D) : Prop :=
  forall m n, f_flags_reset f m = true -> connected w m n -> f_marked f n = true.
Fixpoint history {D} (w : forest) (nodes : list nat) (data : nat -> D) (fs : list (iframe D)) : Prop :=
  match fs with [] => True | f :: fs => reported nodes data f /\ whole_trees w f /\ history w nodes (f_data f) fs end.

(** ** Selectors *)
Inductive earlier_sibling (w : forest) (a e : nat) : Prop :=
| earlier : forall p, parent w e = Some p -> precedes (children w p) a e -> earlier_sibling w a e.
Definition previous (w : forest) (a e : nat) : Prop :=
  exists p l1 l2, parent w e = Some p /\ children w p = l1 ++ a :: e :: l2.
Definition related (w : forest) (c : comb) (a e : nat) : Prop :=
  match c with
  | Child => parent w e = Some a
  | Descendant => descendant w a e
  | NextSibling => previous w a e
  | LaterSibling => earlier_sibling w a e
  end.
Fixpoint rest_matches {D} (w : forest) (data : nat -> D) (e : nat) (l : list (comb * (D -> bool))) : Prop :=
  match l with
  | [] => True
  | (cb, c) :: l => exists a, related w cb a e /\ c (data a) = true /\ rest_matches w data a l
  end.
Definition selector_matches {D} (w : forest) (data : nat -> D) (e : nat) (s : selector D) : Prop :=
  s_subject s (data e) = true /\ rest_matches w data e (s_rest s).
(** Read right to left: sibling combinators first, then ancestor combinators ([.a > .b .c ~ .d + .e]) *)
Definition siblings_then_ancestors (l : list comb) : Prop :=
  exists sibs ups, l = sibs ++ ups /\ Forall (fun c => c = NextSibling \/ c = LaterSibling) sibs /\ Forall (fun c => c = Child \/ c = Descendant) ups.
(** [ids]: the ids of the rules whose selector matches [e], in the order of the sheet *)
Inductive selected {D} (w : forest) (data : nat -> D) (e : nat) : list (selector D * nat) -> list nat -> Prop :=
| sel_nil : selected w data e [] []
| sel_yes : forall s id rules ids, selector_matches w data e s -> selected w data e rules ids -> selected w data e ((s, id) :: rules) (id :: ids)
| sel_no : forall s id rules ids, ~ selector_matches w data e s -> selected w data e rules ids -> selected w data e ((s, id) :: rules) ids.
(** [fuel] is at least the number of children and of ancestors of every node *)
Definition wide (w : forest) (fuel : nat) : Prop :=
  (forall p, length (children w p) <= fuel) /\ (forall e l, ancestor_chain w e l -> length l <= fuel).

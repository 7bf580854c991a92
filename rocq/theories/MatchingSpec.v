(** What selectors mean, after CSS Selectors 4: C101.  Only the hierarchy and the data of the nodes are used. *)
From Coq Require Import String.
From Verif Require Import Base Tree TreeSpec Siblings SiblingsSpec Matching.
Open Scope list_scope.

Definition all_of {A} (P : A -> Prop) : list A -> Prop := fix all l := match l with [] => True | x :: l => P x /\ all l end.
Definition any_of {A} (P : A -> Prop) : list A -> Prop := fix any l := match l with [] => False | x :: l => P x \/ any l end.

(** ** The hierarchy *)
Definition earlier (w : forest) (m n : nat) : Prop := exists p l1 l2 l3, children w p = l1 ++ m :: l2 ++ n :: l3.
Definition just_before (w : forest) (m n : nat) : Prop := exists p l1 l2, children w p = l1 ++ m :: n :: l2.
(** [m k n]: the node [m] left of the combinator, [n] right of it.  A pseudo-element belongs to its parent. *)
Definition related (w : forest) (k : combinator) (m n : nat) : Prop :=
  match k with
  | Child | PseudoOf => parent w n = Some m
  | Descendant => descendant w m n
  | NextSibling => just_before w m n
  | LaterSibling => earlier w m n
  end.
(** a node without parent is alone *)
Definition family (w : forest) (n : nat) : list nat := match parent w n with None => [n] | Some p => children w p end.
(** [counted P l k]: [k] elements of [l] are [P] *)
Inductive counted (P : nat -> Prop) : list nat -> nat -> Prop :=
| counted_nil : counted P [] 0
| counted_yes x l k : P x -> counted P l k -> counted P (x :: l) (S k)
| counted_no x l k : ~ P x -> counted P l k -> counted P (x :: l) k.
(** [n] is the i-th, from the start or the end, of the siblings that are [P], for an i of the form a*t+b with t = 0, 1, 2, ... *)
Definition nth_among (w : forest) (from_end : bool) (a b : Z) (P : nat -> Prop) (n : nat) : Prop :=
  exists l1 l2 k (i : nat), family w n = l1 ++ n :: l2 /\ counted P (if from_end then l2 else l1) k /\ (a * Z.of_nat i + b = 1 + Z.of_nat k)%Z.

(** ** Selectors *)
Definition same_type (w : world) (m n : nat) : Prop :=
  exists d e name, w_data w m = Some d /\ w_data w n = Some e /\ nd_type d = Some name /\ nd_type e = Some name.
Fixpoint sat (w : world) (s : complex) (anchor : option nat) (n : nat) : Prop :=
  match s with
  | One c => all_of (fun x => holds w x anchor n) c
  | Then c k r => all_of (fun x => holds w x anchor n) c /\ exists m, related (w_tree w) k m n /\ sat w r anchor m
  end
with holds (w : world) (x : simple) (anchor : option nat) (n : nat) : Prop :=
  match x with
  | Universal => True
  | LocalName s => exists d, w_data w n = Some d /\ nd_type d = Some s
  | Id s => exists d, w_data w n = Some d /\ nd_id d = Some s
  | Class s => exists d, w_data w n = Some d /\ In s (nd_classes d)
  | AttrExists k => exists d v, w_data w n = Some d /\ In (k, v) (nd_attributes d)
  | Attr k op => exists d v, w_data w n = Some d /\ In (k, v) (nd_attributes d) /\ op v = true
  | State p => exists d, w_data w n = Some d /\ nd_state d p = true
  | Root => w_data w n <> None /\ parent (w_tree w) n = None
  | Empty => children (w_tree w) n = []
  | PseudoEl k => exists d, w_data w n = Some d /\ nd_pseudo d = Some k
  | Anchor => anchor = None \/ anchor = Some n
  | Nth from_end of_type a b => nth_among (w_tree w) from_end a b (fun m => of_type = true -> same_type w n m) n
  | NthOf from_end a b l =>
      any_of (fun s => sat w s anchor n) l /\ nth_among (w_tree w) from_end a b (fun m => any_of (fun s => sat w s anchor m) l) n
  | Is _ l => any_of (fun s => sat w s anchor n) l
  | Not l => ~ any_of (fun s => sat w s anchor n) l
  | Has l => any_of (fun s => exists m, sat w s (Some n) m) l
  end.

(** ** What the parser produces: the selectors in [:has] start with the anchor and a combinator, and only they mention it *)
Fixpoint starts_relative (s : complex) : Prop :=
  match s with
  | One _ => False
  | Then _ k (One c) => c = [Anchor] /\ k <> PseudoOf
  | Then _ _ r => starts_relative r
  end.
Fixpoint parsed (s : complex) : Prop :=
  match s with One c => all_of parsed_simple c | Then c _ r => all_of parsed_simple c /\ parsed r end
with parsed_simple (x : simple) : Prop :=
  match x with
  | NthOf _ _ _ l | Is _ l | Not l => all_of parsed l
  | Has l => all_of (fun s => starts_relative s /\ parsed s) l
  | _ => True
  end.

(** ** The world in which selectors are matched *)
Record consistent (nodes : list nat) (w : world) : Prop := {
  c_forest : wf_forest (w_tree w);
  (** finitely many entities, all of them with style data *)
  c_nodes : forall n p, parent (w_tree w) n = Some p -> In n nodes /\ w_data w n <> None /\ w_data w p <> None;
  (** sibling links are in sync (C32) *)
  c_links : forall n p, parent (w_tree w) n = Some p -> exists s, w_links w n = Some s /\ neighbours (children (w_tree w) p) n s;
  c_alone : forall n s, parent (w_tree w) n = None -> w_links w n = Some s -> s = no_siblings;
  (** so is the root flag (C81) *)
  c_root : forall n d, w_data w n = Some d -> (nd_root d = true <-> parent (w_tree w) n = None);
  (** attributes are a map *)
  c_keys : forall n d, w_data w n = Some d -> NoDup (map fst (nd_attributes d)) }.

(** ** Pseudo-elements *)
(** in CSS they are not part of the tree *)
Definition real (w : world) (n : nat) : bool := match w_data w n with Some d => match nd_pseudo d with Some _ => false | None => true end | None => true end.
Definition without_pseudo (w : world) : world :=
  mk_world {| children := fun p => filter (real w) (children (w_tree w) p); parent := fun n => if real w n then parent (w_tree w) n else None |}
    (w_links w) (w_data w).
(** they have no children *)
Definition pseudo_leaves (w : world) : Prop := forall n p, parent (w_tree w) n = Some p -> real w p = true.
(** selectors that do not ask for siblings or children *)
Fixpoint upwards (s : complex) : Prop :=
  match s with
  | One c => all_of upwards_simple c
  | Then c k r => all_of upwards_simple c /\ (k = Child \/ k = Descendant) /\ upwards r
  end
with upwards_simple (x : simple) : Prop :=
  match x with
  | Empty | Nth _ _ _ _ | NthOf _ _ _ _ | Has _ | PseudoEl _ => False
  | Is _ l | Not l => all_of upwards l
  | _ => True
  end.

(** ** Histories (SiblingsSpec): a node that had a parent in the frame before still has one *)
Fixpoint never_detached (f0 : lframe) (fs : list lframe) : Prop :=
  match fs with
  | [] => True
  | f :: fs => (forall e, In e (l_has f) -> l_added f e = false -> parent (l_tree f0) e <> None -> parent (l_tree f) e <> None) /\ never_detached f fs
  end.

(** Specification vocabulary for sibling links and child order. *)
From Coq Require Import Permutation.
From Verif Require Import Base Tree Siblings.

(** [s] are the neighbours of [e] in the list [l] *)
Definition neighbours (l : list nat) (e : nat) (s : siblings) : Prop :=
  exists l1 l2, l = l1 ++ e :: l2 /\ previous_sibling s = last (map Some l1) None /\ next_sibling s = hd_error l2.

(** ** Histories *)
(** One frame: hierarchy, entities with a [Siblings] component, those that just got it, and the parents
    whose child list changed since the last frame. *)
Record lframe := mk_lframe { l_tree : forest; l_has : list nat; l_added : nat -> bool; l_changed : list nat }.
(** Bevy's change detection: unreported parents have the same children; unreported components are old. *)
Definition noticed (f0 f : lframe) : Prop :=
  wf_forest (l_tree f) /\
  (forall p, ~ In p (l_changed f) -> children (l_tree f) p = children (l_tree f0) p) /\
  (forall e, In e (l_has f) -> l_added f e = false -> In e (l_has f0)).
Definition link_frame (f : lframe) (s : nat -> siblings) : option (nat -> siblings) :=
  sync_siblings (l_tree f) (l_added f) (l_changed f) (l_has f)
    (fun e => if l_added f e then no_siblings else s e).
Fixpoint link_frames (fs : list lframe) (s : nat -> siblings) : option (nat -> siblings) :=
  match fs with [] => Some s | f :: fs => match link_frame f s with Some s' => link_frames fs s' | None => None end end.
Fixpoint all_noticed (f0 : lframe) (fs : list lframe) : Prop :=
  match fs with [] => True | f :: fs => noticed f0 f /\ all_noticed f fs end.
Definition nothing : lframe := mk_lframe {| children := fun _ => []; parent := fun _ => None |} [] (fun _ => false) [].

(** ** Sorting *)
(** [r] is a stable sort of [l] (what Rust's [sort_by] promises): same elements, no later element strictly
    smaller, elements that compare equal keep their order. *)
Definition precedes (l : list nat) (a b : nat) : Prop := exists l1 l2 l3, l = l1 ++ a :: l2 ++ b :: l3.
Definition stable_sort_of (cmp : nat -> nat -> comparison) (l r : list nat) : Prop :=
  Permutation l r /\
  (forall a b, precedes r a b -> cmp a b <> Gt) /\
  (forall a b, precedes r a b -> cmp a b = Eq -> precedes l a b).

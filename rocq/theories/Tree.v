(** Model of the UI hierarchy walks: crates/bevy_flair_style/src/custom_iterators.rs.

    The hierarchy itself is Bevy's ([UiChildren]); it is a parameter here.  Entities are [nat].
    Not modelled: the feature [experimental_ghost_nodes]. *)
From Verif Require Import Base.

(** What [UiChildren::iter_ui_children] and [UiChildren::get_parent] answer
    (custom_iterators.rs:33-39). *)
Record forest := { children : nat -> list nat; parent : nat -> option nat }.

(** Bevy's hierarchy invariant, trusted: [Children] and [ChildOf] agree, no child occurs twice, the
    hierarchy has no cycle and finite depth. *)
Record wf_forest (w : forest) : Prop := {
  wf_agree : forall p c, In c (children w p) <-> parent w c = Some p;
  wf_nodup : forall p, NoDup (children w p);
  wf_depth : exists (depth : nat -> nat) (bound : nat),
      (forall c p, parent w c = Some p -> depth c = S (depth p)) /\ forall n, depth n <= bound }.

(** custom_iterators.rs:72-88  UiDescendantWithParentIter::new: the initial queue *)
Definition descendants_init (w : forest) (e : nat) : list (nat * nat) :=
  map (fun c => (e, c)) (children w e).

(** custom_iterators.rs:93-103  Iterator::next: pop front, push back the children *)
Definition descendants_next (w : forest) (q : list (nat * nat)) : option ((nat * nat) * list (nat * nat)) :=
  match q with
  | [] => None
  | (p, e) :: r => Some ((p, e), r ++ map (fun c => (e, c)) (children w e))
  end.

(** Running an iterator to its end ([collect]); [None] = not finished after [fuel] calls to [next]. *)
Fixpoint collect {S I} (next : S -> option (I * S)) (fuel : nat) (s : S) : option (list I) :=
  match fuel with
  | 0 => None
  | Datatypes.S fuel =>
      match next s with
      | None => Some []
      | Some (i, s') => option_map (cons i) (collect next fuel s')
      end
  end.

Definition iter_ui_descendants_with_parent (w : forest) (fuel : nat) (e : nat) :=
  collect (descendants_next w) fuel (descendants_init w e).

(** custom_iterators.rs:125-128  UiAncestorIter::next; state is [next : Option<Entity>] *)
Definition ancestors_next (w : forest) (s : option nat) : option (nat * option nat) :=
  match s with
  | None => None
  | Some e => match parent w e with
              | None => None
              | Some p => Some (p, Some p)
              end
  end.

(** custom_iterators.rs:64-66,114-119 *)
Definition iter_ui_ancestors (w : forest) (fuel : nat) (e : nat) :=
  collect (ancestors_next w) fuel (Some e).

(** systems.rs:621-623  iter_self_and_ancestors *)
Definition iter_self_and_ancestors (w : forest) (fuel : nat) (e : nat) : option (list nat) :=
  option_map (cons e) (iter_ui_ancestors w fuel e).

(** custom_iterators.rs:57-62 iter_ui_siblings (it includes the entity itself) *)
Definition iter_ui_siblings (w : forest) (e : nat) : list nat :=
  match parent w e with None => [] | Some p => children w p end.

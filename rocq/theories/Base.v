(** Shared list utilities used by several models (no code of /repo is modelled here). *)
From Coq Require Export List Arith ZArith Bool Lia.
Export ListNotations.

(** Rust's [Iterator::position]: index of the first element satisfying [f]. *)
Fixpoint position {A} (f : A -> bool) (l : list A) : option nat :=
  match l with
  | [] => None
  | x :: r => if f x then Some 0 else option_map S (position f r)
  end.

(** Rust's [Vec::insert(i, x)]; callers only use [i <= len] (Rust panics otherwise). *)
Fixpoint insert_at {A} (i : nat) (x : A) (l : list A) : list A :=
  match i, l with
  | 0, _ => x :: l
  | S i, y :: r => y :: insert_at i x r
  | S _, [] => [x]
  end.

(** [subseq l1 l2]: [l1] is obtained from [l2] by deleting elements (order kept). *)
Inductive subseq {A} : list A -> list A -> Prop :=
| subseq_nil : subseq [] []
| subseq_skip : forall x l1 l2, subseq l1 l2 -> subseq l1 (x :: l2)
| subseq_keep : forall x l1 l2, subseq l1 l2 -> subseq (x :: l1) (x :: l2).

Lemma subseq_refl {A} (l : list A) : subseq l l.
Proof. induction l; constructor; assumption. Qed.

Lemma subseq_nil_l {A} (l : list A) : subseq [] l.
Proof. induction l; constructor; assumption. Qed.

Lemma subseq_trans {A} (l1 l2 l3 : list A) : subseq l1 l2 -> subseq l2 l3 -> subseq l1 l3.
Proof.
  intros H1 H2. revert l1 H1. induction H2; intros l0 H1.
  - exact H1.
  - constructor. apply IHsubseq, H1.
  - inversion H1; subst; constructor; apply IHsubseq; assumption.
Qed.

Lemma subseq_app {A} (a b c d : list A) : subseq a b -> subseq c d -> subseq (a ++ c) (b ++ d).
Proof. intros H H'. induction H; simpl; [exact H'| |]; constructor; assumption. Qed.

Lemma subseq_In {A} (l1 l2 : list A) x : subseq l1 l2 -> In x l1 -> In x l2.
Proof.
  intros H; induction H; simpl; intros Hx; [exact Hx | right; auto | destruct Hx; [left|right]; auto].
Qed.

Lemma subseq_filter {A} (f : A -> bool) l : subseq (filter f l) l.
Proof. induction l; simpl; [constructor|]. destruct (f a); constructor; assumption. Qed.

Lemma position_Some {A} (f : A -> bool) l i :
  position f l = Some i ->
  exists l1 x l2, l = l1 ++ x :: l2 /\ length l1 = i /\ f x = true /\ Forall (fun y => f y = false) l1.
Proof.
  revert i; induction l as [|y l IH]; simpl; intros i H; [discriminate|].
  destruct (f y) eqn:Hy.
  - injection H as <-. exists [], y, l. repeat split; auto.
  - destruct (position f l) as [j|] eqn:Hj; simpl in H; [|discriminate]. injection H as <-.
    destruct (IH j eq_refl) as (l1 & x & l2 & -> & Hl & Hx & Hf).
    exists (y :: l1), x, l2. repeat split; simpl; auto.
Qed.

Lemma position_None {A} (f : A -> bool) l : position f l = None <-> Forall (fun y => f y = false) l.
Proof.
  induction l as [|y l IH]; simpl; [split; auto|].
  destruct (f y) eqn:Hy.
  - split; [discriminate|]. intros H; inversion H; congruence.
  - destruct (position f l) eqn:Hp; simpl.
    + split; [discriminate|]. intros H; inversion H; subst. apply IH in H3. discriminate.
    + split; auto. intros _. constructor; auto. apply IH; reflexivity.
Qed.

Lemma position_app_first {A} (f : A -> bool) l1 x l2 :
  Forall (fun y => f y = false) l1 -> f x = true -> position f (l1 ++ x :: l2) = Some (length l1).
Proof.
  induction l1 as [|y l1 IH]; simpl; intros H Hx; [rewrite Hx; reflexivity|].
  inversion H; subst. rewrite H2, IH; auto.
Qed.

Lemma insert_at_app {A} (l1 l2 : list A) x : insert_at (length l1) x (l1 ++ l2) = l1 ++ x :: l2.
Proof. induction l1; simpl; [destruct l2; reflexivity|]. f_equal; assumption. Qed.

Lemma Forall2_len {A B} (R : A -> B -> Prop) l l' : Forall2 R l l' -> length l = length l'.
Proof. induction 1; simpl; congruence. Qed.

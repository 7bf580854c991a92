(** C34: hierarchy walks. *)
From Verif Require Import Base Tree TreeSpec TreeProofs.

(** C34.  In every well formed hierarchy, the descendant iterator terminates and yields every
    descendant exactly once, paired with its parent, never before that parent. *)
Theorem C34_descendants :
  forall w r, wf_forest w ->
  exists n0 l, (forall n, n0 <= n -> iter_ui_descendants_with_parent w n r = Some l) /\
    NoDup (map snd l) /\
    (forall p e, In (p, e) l <-> descendant w r e /\ parent w e = Some p) /\
    (forall l1 p e l2, l = l1 ++ (p, e) :: l2 -> p = r \/ In p (map snd l1)).
Proof. exact descendants_correct. Qed.
Print Assumptions C34_descendants.

(** C34.  The ancestor iterator terminates and yields exactly the ancestors, nearest first. *)
Theorem C34_ancestors :
  forall w e, wf_forest w ->
  exists n0 l, ancestor_chain w e l /\ forall n, n0 <= n -> iter_ui_ancestors w n e = Some l.
Proof. exact ancestors_correct. Qed.
Print Assumptions C34_ancestors.

Definition ex_w : forest :=
  {| children := fun p => match p with 0 => [1; 2] | 1 => [3; 4] | 2 => [5] | _ => [] end;
     parent := fun c => match c with 1 | 2 => Some 0 | 3 | 4 => Some 1 | 5 => Some 2 | _ => None end |}.
Example ex_w_wf : wf_forest ex_w.
Proof.
  split.
  - intros p c. destruct p as [|[|[|p]]]; destruct c as [|[|[|[|[|[|c]]]]]]; simpl; split; intros H; try discriminate; intuition discriminate.
  - intros p. destruct p as [|[|[|p]]]; simpl; repeat constructor; simpl; intuition discriminate.
  - exists (fun c => match c with 1 | 2 => 1 | 3 | 4 | 5 => 2 | _ => 0 end), 2. split.
    + intros c p. destruct c as [|[|[|[|[|[|c]]]]]]; simpl; intros H; inversion H; reflexivity.
    + intros n. destruct n as [|[|[|[|[|[|n]]]]]]; simpl; lia.
Qed.
Example ex_w_walk :
  iter_ui_descendants_with_parent ex_w 10 0 = Some [(0, 1); (0, 2); (1, 3); (1, 4); (2, 5)] /\
  iter_ui_ancestors ex_w 10 4 = Some [1; 0].
Proof. vm_compute. auto. Qed.

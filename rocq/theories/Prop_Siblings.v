(** C32, C33: sibling links and pseudo-element order. *)
From Coq Require Import Permutation.
From Verif Require Import Base Tree TreeSpec TreeProofs Prop_Tree Siblings SiblingsSpec SiblingsProofs.

(** C32 (partial).  Along every history noticed by change detection the sync pass never panics and
    afterwards the links of every node that has a parent are its neighbours in the parent's child list. *)
Theorem C32_links_agree_partial :
  forall fs, all_noticed nothing fs ->
  exists s, link_frames fs (fun _ => no_siblings) = Some s /\
  forall e p, In e (l_has (last fs nothing)) -> parent (l_tree (last fs nothing)) e = Some p ->
    neighbours (children (l_tree (last fs nothing)) p) e (s e).
Proof.
  assert (L : forall (f : lframe) fs d, last (f :: fs) d = last fs f).
  { intros f fs. revert f. induction fs as [|g fs IH]; intros f d; [reflexivity|]. change (last (g :: fs) d = last (g :: fs) f). rewrite (IH g d), (IH g f). reflexivity. }
  assert (G : forall fs f0 s0, all_noticed f0 fs -> wf_forest (l_tree f0) -> (forall e, In e (l_has f0) -> right_link (l_tree f0) e (s0 e)) ->
    exists s, link_frames fs s0 = Some s /\ forall e, In e (l_has (last fs f0)) -> right_link (l_tree (last fs f0)) e (s e)).
  { induction fs as [|f fs IH]; intros f0 s0 N W R; [exists s0; auto|]. destruct N as [N1 N2]. cbn [link_frames].
    destruct (frame_links f0 f s0 N1 W R) as (s1 & -> & R1). rewrite L. apply (IH f s1 N2); [apply N1|exact R1]. }
  intros fs N. destruct (G fs nothing (fun _ => no_siblings) N) as (s & E & H).
  - split; cbn; [intros p c; split; [intros []|discriminate]|intros; constructor|]. exists (fun _ => 0), 0. split; [discriminate|auto].
  - intros e [].
  - exists s. split; [exact E|]. intros e p He P. exact (H e He p P).
Qed.
Print Assumptions C32_links_agree_partial.

Module ExL.
  Definition flat : forest := {| children := fun p => match p with 0 => [1; 2; 3] | _ => [] end; parent := fun c => match c with 1 | 2 | 3 => Some 0 | _ => None end |}.
  Definition swapped : forest := {| children := fun p => match p with 0 => [3; 1; 2] | _ => [] end; parent := parent flat |}.
  (** node 2 detached *)
  Definition detached : forest := {| children := fun p => match p with 0 => [1; 3] | _ => [] end; parent := fun c => match c with 1 | 3 => Some 0 | _ => None end |}.
  Definition all := [0; 1; 2; 3].
  Definition f1 := mk_lframe flat all (fun _ => true) [0].
  Definition f2 := mk_lframe swapped all (fun _ => false) [0].
  Definition f3 := mk_lframe detached all (fun _ => false) [0].
  Ltac wf := split; [intros p c; destruct p as [|p]; destruct c as [|[|[|[|c]]]]; simpl; split; intros H; try discriminate; intuition discriminate
    |intros p; destruct p as [|p]; simpl; repeat constructor; simpl; intuition discriminate
    |exists (fun c => match c with 1 | 2 | 3 => 1 | _ => 0 end), 1; split; [intros c p; destruct c as [|[|[|[|c]]]]; simpl; intros H; inversion H; reflexivity|intros n; destruct n as [|[|[|[|n]]]]; simpl; lia]].
  Lemma wf_flat : wf_forest flat. Proof. wf. Qed.
  Lemma wf_swapped : wf_forest swapped. Proof. wf. Qed.
  Lemma wf_detached : wf_forest detached. Proof. wf. Qed.
  Lemma noticed_all : all_noticed nothing [f1; f2; f3].
  Proof.
    cbn. repeat split; try apply wf_flat; try apply wf_swapped; try apply wf_detached; cbn; try (intros; congruence); auto.
    all: intros p N; destruct p; [exfalso; apply N; auto|reflexivity].
  Qed.
End ExL.
Example C32_witness :
  all_noticed nothing [ExL.f1; ExL.f2] /\
  option_map (fun s => map s [1; 2; 3]) (link_frames [ExL.f1; ExL.f2] (fun _ => no_siblings))
  = Some [mk_siblings (Some 3) (Some 2); mk_siblings (Some 1) None; mk_siblings None (Some 1)].
Proof. split; [destruct ExL.noticed_all as (A & B & _); exact (conj A (conj B I))|vm_compute; reflexivity]. Qed.

(** C32, what is missing is false: a detached node keeps its old neighbours. *)
Theorem C32_detached_keeps_links_refuted :
  exists fs s, all_noticed nothing fs /\ link_frames fs (fun _ => no_siblings) = Some s /\
  parent (l_tree (last fs nothing)) 2 = None /\ s 2 = mk_siblings (Some 1) (Some 3).
Proof.
  destruct (link_frames [ExL.f1; ExL.f3] (fun _ => no_siblings)) as [s|] eqn:E.
  - exists [ExL.f1; ExL.f3], s. split; [|split; [exact E|split; [reflexivity|]]].
    + cbn. destruct ExL.noticed_all as (A & _ & _). repeat split; try apply A; try apply ExL.wf_detached; cbn; auto.
      intros p N; destruct p; [exfalso; apply N; auto|reflexivity].
    + assert (H : option_map (fun s => s 2) (link_frames [ExL.f1; ExL.f3] (fun _ => no_siblings)) = Some (mk_siblings (Some 1) (Some 3))) by (vm_compute; reflexivity).
      rewrite E in H. injection H as H. exact H.
  - vm_compute in E. discriminate.
Qed.
Print Assumptions C32_detached_keeps_links_refuted.

(** C33.  With at most one ::before and one ::after, the children are sorted to: ::before, then all other
    children in their order, then ::after. *)
Theorem C33_pseudo_elements_first_and_last :
  forall kind l, NoDup l ->
  (forall x y, In x l -> In y l -> kind x <> None -> kind x = kind y -> x = y) ->
  sort_pseudo_elements kind l =
    filter (fun x => match kind x with Some Before => true | _ => false end) l ++
    filter (fun x => match kind x with None => true | _ => false end) l ++
    filter (fun x => match kind x with Some After => true | _ => false end) l.
Proof.
  intros kind l N U. rewrite (sort_pseudo_spec kind l N).
  assert (F : forall k, opt_list (find (is_kind k kind) l) = filter (is_kind k kind) l).
  { intros k. revert N U. induction l as [|x l IH]; intros N U; [reflexivity|]. cbn. inversion N; subst. destruct (is_kind k kind x) eqn:E.
    - cbn. f_equal. destruct (filter (is_kind k kind) l) as [|y r] eqn:Ef; [reflexivity|]. exfalso.
      assert (Hy : In y (filter (is_kind k kind) l)) by (rewrite Ef; left; reflexivity). apply filter_In in Hy. destruct Hy as [Hy Ky].
      assert (x = y) as ->; [|contradiction]. apply U; [left; reflexivity|right; exact Hy| |]; unfold is_kind in *; destruct (kind x) as [[]|], (kind y) as [[]|], k; discriminate || reflexivity.
    - apply IH; [assumption|]. intros a b Ha Hb. apply U; right; assumption. }
  match goal with |- _ ++ middle ?b ?a l ++ _ = _ => assert (Mid : middle b a l = filter (fun x => match kind x with None => true | _ => false end) l) end.
  2: { rewrite Mid, !F; clear Mid. repeat apply f_equal2; try reflexivity; apply filter_ext; intros x; unfold is_kind; destruct (kind x) as [[]|]; reflexivity. }
  unfold middle. apply filter_ext_in. intros x Hx.
    assert (O : forall k, opt_is (find (is_kind k kind) l) x = is_kind k kind x).
    { intros k. destruct (is_kind k kind x) eqn:E.
      - apply opt_is_spec. assert (G : In x (opt_list (find (is_kind k kind) l))) by (rewrite F; apply filter_In; auto). apply opt_list_in in G. exact G.
      - apply not_true_iff_false. intros G. apply opt_is_spec, find_some in G. destruct G. congruence. }
    rewrite !O. unfold is_kind. destruct (kind x) as [[]|]; reflexivity.
Qed.
Print Assumptions C33_pseudo_elements_first_and_last.

(** C33.  The comparator is a total order on distinct children, as Rust's [sort_by] requires (it may panic
    otherwise), and every stable sort with it gives the list above. *)
Theorem C33_comparator_is_an_order :
  forall kind l, NoDup l ->
  let cmp := pseudo_cmp (find (is_kind Before kind) l) (find (is_kind After kind) l) in
  (forall a b, a <> b -> cmp b a = CompOpp (cmp a b)) /\
  (forall a b c o, a <> b -> b <> c -> a <> c -> cmp a b = o -> cmp b c = o -> cmp a c = o) /\
  (forall r, stable_sort_of cmp l r <-> r = stable_sort cmp l).
Proof.
  intros kind l N cmp.
  assert (D : forall x, find (is_kind Before kind) l = Some x -> find (is_kind After kind) l = Some x -> False) by (intros x; apply find_kind_distinct).
  split; [|split].
  - intros a b. apply (cmp_antisym _ _ D).
  - intros a b c o N1 N2 N3. apply (cmp_trans _ _ D); assumption.
  - assert (S : stable_sort_of cmp l (stable_sort cmp l)) by (split; [apply sort_perm|]; split; intros a b H; apply (sort_sorted _ _ D l N a b H)).
    intros r. split; [|intros ->; exact S]. intros H. exact (stable_sort_unique _ _ D l r _ N H S).
Qed.
Print Assumptions C33_comparator_is_an_order.
Example C33_witness :
  sort_pseudo_elements (fun e => match e with 9 => Some After | 5 => Some Before | _ => None end) [3; 9; 1; 2; 5; 4] = [5; 3; 1; 2; 4; 9].
Proof. reflexivity. Qed.

(** C13, C14: CSS-wide keywords and incremental inheritance. *)
From Verif Require Import Base Inherit InheritSpec InheritProofs Tree TreeSpec.

(** C13.  A declared value computes to exactly what it means (InheritSpec.means), with a parent and at
    a root; the only panic is [unset] on a property whose registered unset value is [Unset] itself. *)
Theorem C13_keywords_with_parent :
  forall (V : Type) (decl unset : pvalue V) (initial : V) (parent c : cvalue V),
  compute_with_parent decl unset initial parent = Some c <-> means unset initial (Some parent) decl c.
Proof. intros. split; [apply compute_means|apply means_compute]. Qed.
Print Assumptions C13_keywords_with_parent.

Theorem C13_keywords_at_root :
  forall (V : Type) (decl unset : pvalue V) (initial : V) (c : cvalue V),
  compute_as_root decl unset initial = Some c <-> means unset initial None decl c.
Proof. intros. split; [apply compute_means|apply means_compute]. Qed.
Print Assumptions C13_keywords_at_root.

Theorem C13_total_unless_unset_is_unset :
  forall (V : Type) (decl unset : pvalue V) (initial : V) (parent : cvalue V),
  (compute_with_parent decl unset initial parent = None <-> decl = PUnset /\ unset = PUnset) /\
  (compute_as_root decl unset initial = None <-> decl = PUnset /\ unset = PUnset).
Proof. intros. split; apply compute_panics. Qed.
Print Assumptions C13_total_unless_unset_is_unset.

Example C13_witness :
  compute_with_parent PUnset PInherit 1 (CVal 5) = Some (CVal 5) /\ compute_with_parent PUnset (PVal 3) 1 (CVal 5) = Some (CVal 3) /\
  compute_as_root PUnset PInherit 1 = Some CNone /\ compute_as_root PInitial PInherit 1 = Some (CVal 1).
Proof. repeat split; reflexivity. Qed.

(** The visiting order used by the code is a tree order. *)
Theorem C14_visiting_order :
  forall w roots, wf_forest w -> NoDup roots -> (forall r, In r roots -> parent w r = None) ->
  exists n0 vs, (forall n, n0 <= n -> visits_of w n roots = Some vs) /\ tree_order (parent w) vs /\
    (forall e, In e (map snd vs) <-> exists r, In r roots /\ (e = r \/ descendant w r e)).
Proof. exact visits_order. Qed.
Print Assumptions C14_visiting_order.

(** C14 (partial).  Along every history of frames - each restyling and resetting any nodes, spawning
    and moving nodes, with any transition options - the incremental pass leaves every node of the tree
    with the values a computation from scratch gives.  Two side conditions of [follows] are needed (see
    the refutations below): no inherited-by-default property is explicitly [unset], and the styled
    children of a reset node are restyled. *)
Theorem C14_incremental_partial :
  forall (V : Type) (veq : forall a b : V, {a = b} + {a <> b}) np unset initial w0 hs1 b hs2,
  (forall p, unset p <> PUnset) ->
  history unset before_start (hs1 ++ b :: hs2) ->
  let w := fold_left (fun w m => run_frame veq np unset initial (at_frame m) w) (hs1 ++ [b]) w0 in
  forall n p, In n (map snd (f_visits (at_frame b))) -> p < np ->
  forall c, value_at (at_parent b) (at_declared b) unset initial p n c <-> computed (w n) p = c.
Proof.
  intros V veq np unset initial w0 hs1 b hs2 Hu Hh w n p Hn Hp c.
  assert (G0 : good np unset initial before_start w0) by (intros x []).
  pose proof (history_good veq np unset initial Hu (hs1 ++ b :: hs2) before_start w0 G0 Hh hs1 b hs2 eq_refl) as G.
  fold w in G. destruct (G n Hn) as (_ & _ & _ & Gv). specialize (Gv p Hp). split.
  - intros H. eapply value_at_fun; eauto.
  - intros <-. exact Gv.
Qed.
Print Assumptions C14_incremental_partial.

(** What is missing is false. The conditions the plugin does ensure: *)
Definition plugin_ensures {V} (a b : moment V) : Prop :=
  let f := at_frame b in
  tree_order (at_parent b) (f_visits f) /\
  at_declared b = declared_after f (at_declared a) /\
  (forall n, In n (map snd (f_visits f)) -> ~ In n (map snd (f_visits (at_frame a))) -> f_reset f n = true) /\
  (forall n, In n (map snd (f_visits f)) -> f_reset f n = false -> at_parent b n <> at_parent a n -> f_style f n <> None \/ at_declared b n = None).

Module ExInherit.
  (** node 0 is the root, node 1 its child; one property, inherited by default *)
  Definition par (n : nat) : option nat := match n with 1 => Some 0 | _ => None end.
  Definition vis : list (option nat * nat) := [(None, 0); (Some 0, 1)].
  Definition uns (_ : nat) : @pvalue nat := PInherit.
  Definition ini (_ : nat) : nat := 0.
  Definition nt (_ : nat) : bool := false.
  Definition blank : world nat := fun _ => mk_node None None (fun _ => CNone) true (fun _ => CNone) true nt.
  (** first frame: both spawned, the root declares [r], the child [c] *)
  Definition f1 (r c : pvalue nat) : frame nat :=
    mk_frame (fun _ => true) (fun n => match n with 0 => Some ((fun _ => r), nt) | 1 => Some ((fun _ => c), nt) | _ => None end) vis.
  (** second frame: only the root is restyled *)
  Definition f2 (reset : bool) (r : pvalue nat) : frame nat :=
    mk_frame (fun n => match n with 0 => reset | _ => false end) (fun n => match n with 0 => Some ((fun _ => r), nt) | _ => None end) vis.
  Definition m1 r c : moment nat := mk_moment (f1 r c) par (declared_after (f1 r c) (at_declared before_start)).
  Definition m2 r c reset r' : moment nat := mk_moment (f2 reset r') par (declared_after (f2 reset r') (at_declared (m1 r c))).
  Definition run2 r c reset r' : world nat :=
    run_frame Nat.eq_dec 1 uns ini (f2 reset r') (run_frame Nat.eq_dec 1 uns ini (f1 r c) blank).

  Lemma order : tree_order par vis.
  Proof.
    split; [repeat constructor; simpl; intuition discriminate|].
    intros l1 pm n l2 E. destruct l1 as [|v [|v' l1]]; simpl in E.
    - injection E as <- <- _. split; [reflexivity|discriminate].
    - injection E as <- <- <- _. split; [reflexivity|]. intros m Hm. injection Hm as <-. left; reflexivity.
    - destruct l1; discriminate.
  Qed.
  Lemma ok1 r c : plugin_ensures before_start (m1 r c).
  Proof. split; [exact order|]. split; [reflexivity|]. split; [reflexivity|]. intros; discriminate. Qed.
  Lemma ok2 r c reset r' : plugin_ensures (m1 r c) (m2 r c reset r').
  Proof.
    split; [exact order|]. split; [reflexivity|]. split.
    - intros n H H'. contradiction.
    - intros n H _ H'. exfalso. apply H'. reflexivity.
  Qed.
End ExInherit.

(** `color: unset` on a child does not follow the parent's color. *)
Theorem C14_explicit_unset_refuted :
  exists (a b : moment nat) (w : world nat),
    plugin_ensures before_start a /\ plugin_ensures a b /\
    w = fold_left (fun w m => run_frame Nat.eq_dec 1 ExInherit.uns ExInherit.ini (at_frame m) w) [a; b] ExInherit.blank /\
    computed (w 1) 0 = CVal 10 /\
    value_at (at_parent b) (at_declared b) ExInherit.uns ExInherit.ini 0 1 (CVal 20).
Proof.
  exists (ExInherit.m1 (PVal 10) PUnset), (ExInherit.m2 (PVal 10) PUnset false (PVal 20)), (ExInherit.run2 (PVal 10) PUnset false (PVal 20)).
  split; [apply ExInherit.ok1|]. split; [apply ExInherit.ok2|]. split; [reflexivity|]. split; [vm_compute; reflexivity|].
  eapply (at_child _ _ _ _ _ 1 (fun _ => PUnset) 0 (CVal 20)); [reflexivity|reflexivity| |].
  - eapply (at_root _ _ _ _ _ 0 (fun _ => PVal 20)); [reflexivity|reflexivity|constructor].
  - apply M_unset; [discriminate|]. apply M_inherit. reflexivity.
Qed.
Print Assumptions C14_explicit_unset_refuted.

(** A child with its own style sheet keeps inheriting a value its (reset) parent no longer has. *)
Theorem C14_reset_parent_refuted :
  exists (a b : moment nat) (w : world nat),
    plugin_ensures before_start a /\ plugin_ensures a b /\
    w = fold_left (fun w m => run_frame Nat.eq_dec 1 ExInherit.uns ExInherit.ini (at_frame m) w) [a; b] ExInherit.blank /\
    computed (w 1) 0 = CVal 10 /\
    value_at (at_parent b) (at_declared b) ExInherit.uns ExInherit.ini 0 1 CNone.
Proof.
  exists (ExInherit.m1 (PVal 10) PInherit), (ExInherit.m2 (PVal 10) PInherit true PInherit), (ExInherit.run2 (PVal 10) PInherit true PInherit).
  split; [apply ExInherit.ok1|]. split; [apply ExInherit.ok2|]. split; [reflexivity|]. split; [vm_compute; reflexivity|].
  eapply (at_child _ _ _ _ _ 1 (fun _ => PInherit) 0 CNone); [reflexivity|reflexivity| |apply M_inherit; reflexivity].
  eapply (at_root _ _ _ _ _ 0 (fun _ => PInherit)); [reflexivity|reflexivity|apply M_inherit_root; reflexivity].
Qed.
Print Assumptions C14_reset_parent_refuted.

(** Non-vacuity of C14_incremental_partial: a history whose second frame takes the incremental path at
    the child and changes it. *)
Example C14_witness :
  let a := ExInherit.m1 (PVal 10) PInherit in let b := ExInherit.m2 (PVal 10) PInherit false (PVal 20) in
  history ExInherit.uns before_start ([a] ++ b :: []) /\ computed (ExInherit.run2 (PVal 10) PInherit false (PVal 20) 1) 0 = CVal 20.
Proof.
  split; [|vm_compute; reflexivity].
  assert (U : forall (b : moment nat), (forall n d p, at_declared b n = Some d -> d p <> PUnset) ->
              forall n d p, at_declared b n = Some d -> d p = PUnset -> ExInherit.uns p <> PInherit)
    by (intros b H n d p H1 H2; exfalso; exact (H n d p H1 H2)).
  simpl. split; [|split; [|exact I]].
  - destruct (ExInherit.ok1 (PVal 10) PInherit) as (A & B & C & D). split; [exact A|]. split; [exact B|]. split; [exact C|]. split; [exact D|].
    split.
    + intros n m [<-|[<-|[]]] Hm _; [discriminate|]. left. discriminate.
    + apply U. intros [|[|n]] d p H; simpl in H; unfold declared_after in H; simpl in H; try discriminate; injection H as <-; discriminate.
  - destruct (ExInherit.ok2 (PVal 10) PInherit false (PVal 20)) as (A & B & C & D). split; [exact A|]. split; [exact B|]. split; [exact C|]. split; [exact D|].
    split.
    + intros n m [<-|[<-|[]]] Hm Hr; [discriminate|]. injection Hm as <-. discriminate.
    + apply U. intros [|[|n]] d p H; simpl in H; unfold declared_after in H; simpl in H; try discriminate; injection H as <-; discriminate.
Qed.

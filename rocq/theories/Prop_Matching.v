(** C101: which nodes a selector matches. *)
From Coq Require Import String.
From Verif Require Import Base Tree TreeSpec Siblings SiblingsSpec Prop_Siblings Matching MatchingSpec MatchingProofs.
Open Scope string_scope.
Open Scope list_scope.

(** C101.  In a consistent world [matches_selector] answers what the selector means, for every selector the parser can produce and
    every node; pseudo-element entities are nodes like others here. *)
Theorem C101_matching : forall nodes w, consistent nodes w -> exists enough, forall fuel, enough <= fuel -> forall s, parsed s -> forall n,
  matches_selector w fuel s n = true <-> sat w s None n.
Proof. exact matching_ok. Qed.
Print Assumptions C101_matching.

(** The sibling links that [sync_siblings] leaves after any history in which no node is detached are good enough. *)
Theorem C101_after_sync : forall fs nodes data, all_noticed nothing fs -> never_detached nothing fs ->
  exists links, link_frames fs (fun _ => no_siblings) = Some links /\
  let tree := l_tree (last fs nothing) in
  let w := mk_world tree (fun n => if in_dec Nat.eq_dec n (l_has (last fs nothing)) then Some (links n) else None) data in
  fs <> [] ->
  (forall n p, parent tree n = Some p -> In n nodes /\ In n (l_has (last fs nothing)) /\ data n <> None /\ data p <> None) ->
  (forall n d, data n = Some d -> (nd_root d = true <-> parent tree n = None) /\ NoDup (map fst (nd_attributes d))) ->
  exists enough, forall fuel, enough <= fuel -> forall s, parsed s -> forall n, matches_selector w fuel s n = true <-> sat w s None n.
Proof.
  intros fs nodes data N D. destruct (C32_links_agree_partial fs N) as (s & E & H). exists s. split; [exact E|]. intros tree w NE H1 H2.
  apply (matching_ok nodes). constructor; cbn.
  - subst tree. clear - N NE. revert N NE. generalize nothing. induction fs as [|f fs IH]; intros f0 N NE; [contradiction|]. destruct N as [N1 N2]. destruct fs as [|g fs]; [apply N1|].
    assert (last (f :: g :: fs) f0 = last (g :: fs) f) as ->.
    { clear. revert g. induction fs as [|h fs IH]; intros g; [reflexivity|]. change (last (h :: fs) f0 = last (h :: fs) f). specialize (IH h). cbn in IH |- *. exact IH. }
    apply IH; [exact N2|discriminate].
  - intros n p Hp. destruct (H1 n p Hp) as (A & _ & B). auto.
  - intros n p Hp. destruct (H1 n p Hp) as (_ & A & _). exists (s n). destruct (in_dec Nat.eq_dec n (l_has (last fs nothing))); [|contradiction]. split; [reflexivity|]. apply H; assumption.
  - intros n x Hp Hx. destruct (in_dec Nat.eq_dec n (l_has (last fs nothing))); [|discriminate]. injection Hx as <-. eapply (roots_unlinked fs nothing); eauto. 
  - intros n d Hd. apply H2 in Hd. apply Hd.
  - intros n d Hd. apply H2 in Hd. apply Hd.
Qed.
Print Assumptions C101_after_sync.

(** Pseudo-elements, which in CSS are not in the tree (partial).  Selectors that only look at a node and its ancestors are not
    disturbed by them.  What is missing is false: see below. *)
Theorem C101_pseudo_elements_partial : forall nodes w, consistent nodes w -> pseudo_leaves w -> exists enough, forall fuel, enough <= fuel ->
  forall s, parsed s -> upwards s ->
  (forall n, real w n = true -> (matches_selector w fuel s n = true <-> sat (without_pseudo w) s None n)) /\
  (** [s::before], [s::after] *)
  (forall k n, matches_selector w fuel (Then [PseudoEl k] PseudoOf s) n = true <->
     (exists d, w_data w n = Some d /\ nd_pseudo d = Some k) /\ exists p, parent (w_tree w) n = Some p /\ sat (without_pseudo w) s None p).
Proof.
  intros nodes w C L. destruct (matching_ok nodes w C) as [enough H]. exists enough. intros fuel F s P U. split.
  - intros n R. rewrite (H fuel F s P n). apply strip_sat; assumption.
  - intros k n. rewrite (H fuel F (Then [PseudoEl k] PseudoOf s) (conj (conj I I) P)). cbn [sat all_of holds related]. split.
    + intros ((Hd & _) & p & Hp & Hs). split; [exact Hd|]. exists p. split; [exact Hp|]. apply (strip_sat w L s U None p (L n p Hp)). exact Hs.
    + intros (Hd & p & Hp & Hs). split; [auto|]. exists p. split; [exact Hp|]. apply (strip_sat w L s U None p (L n p Hp)). exact Hs.
Qed.
Print Assumptions C101_pseudo_elements_partial.

(** ** Concrete worlds *)
Definition node (cls : list string) (ps : option pseudo) (root : bool) : node_data :=
  mk_node_data (Some "div") None cls [("kind", "x")] (fun p => match p with Hover => true | _ => false end) root ps.
(** 0 has the children 1 (::before), 2, 3 (.child) and 4 (::after); 3 has 5 (::before) and 6 (::after) *)
Definition ptree : forest := {| children := fun p => match p with 0 => [1; 2; 3; 4] | 3 => [5; 6] | _ => [] end;
  parent := fun c => match c with 1 | 2 | 3 | 4 => Some 0 | 5 | 6 => Some 3 | _ => None end |}.
Definition plinks (n : nat) : option siblings :=
  match n with
  | 0 => Some no_siblings | 1 => Some (mk_siblings None (Some 2)) | 2 => Some (mk_siblings (Some 1) (Some 3)) | 3 => Some (mk_siblings (Some 2) (Some 4))
  | 4 => Some (mk_siblings (Some 3) None) | 5 => Some (mk_siblings None (Some 6)) | 6 => Some (mk_siblings (Some 5) None) | _ => None
  end.
Definition pdata (n : nat) : option node_data :=
  match n with
  | 0 => Some (node ["parent"] None true) | 1 | 5 => Some (node [] (Some Before) false) | 2 | 3 => Some (node ["child"] None false)
  | 4 | 6 => Some (node [] (Some After) false) | _ => None
  end.
Definition pworld := mk_world ptree plinks pdata.
Ltac seven n := destruct n as [|[|[|[|[|[|[|n]]]]]]].
Lemma pworld_consistent : consistent [0; 1; 2; 3; 4; 5; 6] pworld.
Proof.
  constructor; cbn.
  - constructor; cbn.
    + intros p c. destruct p as [|[|[|[|p]]]]; seven c; cbn; split; intros H; try discriminate; try (repeat destruct H as [H|H]; try discriminate; destruct H; fail); auto 10.
    + intros p. destruct p as [|[|[|[|p]]]]; repeat constructor; cbn; intuition discriminate.
    + exists (fun n => match n with 0 => 0 | 1 | 2 | 3 | 4 => 1 | 5 | 6 => 2 | _ => 0 end), 2. split; [intros c p; seven c; cbn; intros H; inversion H; reflexivity|intros n; seven n; lia].
  - intros n p H. seven n; inversion H; cbn; repeat split; auto 10; discriminate.
  - intros n p H. seven n; inversion H; eexists; (split; [reflexivity|]).
    + exists [], [2; 3; 4]; auto. + exists [1], [3; 4]; auto. + exists [1; 2], [4]; auto. + exists [1; 2; 3], []; auto. + exists [], [6]; auto. + exists [5], []; auto.
  - intros n s H Hs. seven n; inversion Hs; try reflexivity; discriminate.
  - intros n d H. seven n; inversion H; cbn; split; congruence.
  - intros n d H. seven n; inversion H; repeat constructor; cbn; tauto.
Qed.
Lemma pworld_leaves : pseudo_leaves pworld.
Proof. intros n p H. seven n; inversion H; reflexivity. Qed.
(** [.child:first-child], [.child:nth-child(2)], [.child:empty], [* + .child], and the universal selector *)
Definition first_child := One [Class "child"; Nth false false 0 1].
Definition second_child := One [Class "child"; Nth false false 0 2].
Definition empty_child := One [Class "child"; Empty].
Definition after_any := Then [Class "child"] NextSibling (One [Universal]).
Definition universal := One [Universal].
(** With [PseudoElementsSupport] the first [.child] of its parent is not [:first-child] but [:nth-child(2)], matches [* + .child],
    a node without children is not [:empty], and [*] matches the pseudo-elements.  In CSS it is the other way round each time. *)
Theorem C101_pseudo_siblings_refuted :
  consistent [0; 1; 2; 3; 4; 5; 6] pworld /\ pseudo_leaves pworld /\ real pworld 2 = true /\ real pworld 3 = true /\ real pworld 1 = false /\
  (forall fuel, 7 <= fuel -> matches_selector pworld fuel first_child 2 = false /\ matches_selector pworld fuel second_child 2 = true /\
     matches_selector pworld fuel empty_child 3 = false /\ matches_selector pworld fuel after_any 2 = true /\ matches_selector pworld fuel universal 1 = true) /\
  sat (without_pseudo pworld) first_child None 2 /\ ~ sat (without_pseudo pworld) second_child None 2 /\
  sat (without_pseudo pworld) empty_child None 3 /\ ~ sat (without_pseudo pworld) after_any None 2.
Proof.
  split; [apply pworld_consistent|]. split; [apply pworld_leaves|]. do 3 (split; [reflexivity|]). split.
  - intros fuel F. do 7 (destruct fuel as [|fuel]; [lia|]). repeat split; vm_compute; reflexivity.
  - assert (exists d, w_data pworld 2 = Some d /\ In "child" (nd_classes d)) as H2 by (eexists; split; [reflexivity|left; reflexivity]).
    assert (exists d, w_data pworld 3 = Some d /\ In "child" (nd_classes d)) as H3 by (eexists; split; [reflexivity|left; reflexivity]).
    split; [|split; [|split]].
    + split; [exact H2|split; [|exact I]]. exists [], [3], 0, 0. split; [reflexivity|]. split; [constructor|reflexivity].
    + intros (_ & (l1 & l2 & k & i & E & Hk & Hi) & _). cbn in E. destruct l1 as [|a l1].
      * inversion Hk; subst. lia.
      * injection E as <- E. destruct l1 as [|b l1]; [discriminate|]. injection E as <- E. destruct l1; discriminate.
    + split; [exact H3|split; [reflexivity|exact I]].
    + intros (_ & m & (p & l1 & l2 & E) & _). cbn in E. destruct p as [|[|[|[|p]]]]; cbn in E; try (destruct l1; discriminate).
      destruct l1 as [|a l1]; [discriminate|]. injection E as <- E. destruct l1 as [|b l1]; [discriminate|]. destruct l1; discriminate.
Qed.
Print Assumptions C101_pseudo_siblings_refuted.

(** Without [never_detached]: after the history of C32's counterexample node 2 has no parent, and still is matched by [* + *]. *)
Theorem C101_detached_refuted :
  exists fs links, all_noticed nothing fs /\ link_frames fs (fun _ => no_siblings) = Some links /\
  let w := mk_world (l_tree (last fs nothing)) (fun n => Some (links n)) (fun _ => Some (node [] None false)) in
  let s := Then [Universal] NextSibling (One [Universal]) in
  (forall fuel, 3 <= fuel -> matches_selector w fuel s 2 = true) /\ ~ sat w s None 2.
Proof.
  destruct (link_frames [ExL.f1; ExL.f3] (fun _ => no_siblings)) as [links|] eqn:E; [|vm_compute in E; discriminate].
  exists [ExL.f1; ExL.f3], links. split.
  - cbn. destruct ExL.noticed_all as (A & _ & _). repeat split; try apply A; try apply ExL.wf_detached; cbn; auto. intros p N; destruct p; [exfalso; apply N; auto|reflexivity].
  - split; [exact E|]. assert (links 2 = mk_siblings (Some 1) (Some 3)) as L2.
    { assert (option_map (fun s => s 2) (link_frames [ExL.f1; ExL.f3] (fun _ => no_siblings)) = Some (mk_siblings (Some 1) (Some 3))) as H by (vm_compute; reflexivity). rewrite E in H. injection H as H. exact H. }
    split.
    + intros fuel F. destruct fuel as [|fuel]; [lia|]. unfold matches_selector. cbn [run forallb test andb chain step_for prev_sibling_element w_links]. rewrite L2. reflexivity.
    + intros (_ & m & (p & l1 & l2 & El) & _). cbn in El. destruct p; cbn in El; [|destruct l1; discriminate].
      destruct l1 as [|a l1]; [discriminate|]. injection El as <- El. destruct l1 as [|b l1]; [discriminate|]. destruct l1; discriminate.
Qed.
Print Assumptions C101_detached_refuted.

(** ** Non-vacuity *)
(** [.parent:has(> .child:nth-child(3 of div)) > .child:hover:not(:first-child), ...] *)
Definition big : complex :=
  Then [Class "child"; State Hover; Not [first_child]; AttrExists "kind"] Child
    (One [Class "parent"; Root; Has [Then [NthOf false 0 3 [One [LocalName "div"]]] Child (One [Anchor])]]).
Example big_case : parsed big /\ map (matches_selector pworld 7 big) [0; 1; 2; 3; 4] = [false; false; true; true; false].
Proof. split; [repeat split; discriminate|vm_compute; reflexivity]. Qed.
(** backtracking: [.a .b > .c] where the nearest [.b] is not the right one; [.a ~ .b + .c] *)
Definition deep : world := mk_world
  {| children := fun p => match p with 0 => [1] | 1 => [2] | 2 => [3; 4; 5; 6] | _ => [] end; parent := fun c => match c with 1 => Some 0 | 2 => Some 1 | 3 | 4 | 5 | 6 => Some 2 | _ => None end |}
  (fun n => match n with 0 | 1 | 2 => Some no_siblings | 3 => Some (mk_siblings None (Some 4)) | 4 => Some (mk_siblings (Some 3) (Some 5)) | 5 => Some (mk_siblings (Some 4) (Some 6)) | 6 => Some (mk_siblings (Some 5) None) | _ => None end)
  (fun n => match n with 0 => Some (node ["a"] None true) | 1 => Some (node ["b"] None false) | 2 => Some (node ["c"; "b"] None false) | 3 => Some (node ["a"] None false) | 4 | 5 => Some (node ["b"; "c"] None false) | 6 => Some (node ["c"] None false) | _ => None end).
Example backtracking_case :
  map (matches_selector deep 7 (Then [Class "c"] Descendant (Then [Class "b"] Child (One [Class "a"])))) [0; 1; 2; 3; 4; 5; 6] = [false; false; true; false; true; true; true] /\
  map (matches_selector deep 7 (Then [Class "c"] NextSibling (Then [Class "b"] LaterSibling (One [Class "a"])))) [2; 3; 4; 5; 6] = [false; false; false; true; true] /\
  map (matches_selector deep 7 (One [Has [Then [Class "c"] NextSibling (Then [Class "b"] Descendant (One [Anchor]))]])) [0; 1; 2; 3] = [true; true; true; false] /\
  map (matches_selector deep 7 (One [Has [Then [Class "c"] LaterSibling (One [Anchor])]; Nth true true 2 1])) [2; 3; 4; 5; 6] = [false; false; true; false; false] /\
  matches_selector deep 7 (One [Class "A"]) 0 = false.
Proof. repeat split; vm_compute; reflexivity. Qed.
Example sync_case : all_noticed nothing [ExL.f1; ExL.f2] /\ never_detached nothing [ExL.f1; ExL.f2].
Proof.
  split; [destruct ExL.noticed_all as (A & B & _); exact (conj A (conj B I))|]. cbn. split; [intros; discriminate|]. split; [|exact I]. intros e _ _ H. exact H.
Qed.
Example upwards_case : upwards (Then [Class "child"; Not [One [Root]]] Descendant (One [Class "parent"])) /\
  map (matches_selector pworld 7 (Then [PseudoEl Before] PseudoOf (Then [Class "child"; Not [One [Root]]] Descendant (One [Class "parent"])))) [0; 1; 2; 3; 4; 5; 6] = [false; false; false; false; false; true; false].
Proof. split; [cbn; tauto|vm_compute; reflexivity]. Qed.

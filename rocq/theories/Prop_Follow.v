(** C104: the active rules follow every change. *)
From Coq Require Import String.
From Verif Require Import Base Tree TreeSpec Siblings SiblingsSpec Invalidation InvalidationSpec Matching MatchingSpec MatchingProofs Follow FollowSpec FollowProofs.
Open Scope string_scope.
Open Scope list_scope.

(** C104 (partial).  From the start of an application, through any number of frames in which nodes are spawned, despawned, moved,
    reordered, get and lose classes, ids, attributes and states, and style sheets and media change: after the last frame exactly the
    rules are active on every styled node whose selectors and media queries hold of it now - although only the nodes that were marked were
    matched again.
    Partial: for selectors and style sheets as in [good_frame].  What is missing is false: C35_uncle_refuted, C35_has_refuted,
    C83_class_first_refuted, C35_sheet_change_refuted, C104_unstyled_parent_refuted. *)
Theorem C104_rules_follow_partial : forall nodes fs last, followed_history nodes nothing_yet (fs ++ [last]) ->
  exists m0, forall mf, m0 <= mf -> exists n0, forall fuel, n0 <= fuel ->
  exists s, esteps (rule_progs mf) nodes fuel (fs ++ [last]) new_nodes = Some s /\
    forall n rules, g_rules last n = Some rules -> exists ids, a_active s n = Some ids /\ active_rules (g_world last) n rules ids.
Proof.
  intros nodes fs f H. pose proof (history_last _ _ _ _ H) as G. destruct (matching_ok nodes (g_world f) (proj1 G)) as [m0 M]. exists m0. intros mf Hm.
  destruct (steps_total nodes (rule_progs mf) (fs ++ [f]) (history_wf _ _ _ H)) as [n0 T]. exists n0. intros fuel Hf. destruct (T fuel Hf new_nodes) as [s Es]. exists s. split; [exact Es|].
  destruct (nothing_good nodes mf) as [G0 S0].
  pose proof (steps_settled nodes (rule_progs mf) fuel (fs ++ [f]) nothing_yet new_nodes s G0 (followed_ghistory _ _ _ _ H) S0 Es) as S. rewrite last_last in S.
  intros n rules Hr. assert (Hn : In n nodes) by (apply G, G; rewrite Hr; discriminate). destruct (S n Hn) as [[_ K]|(p & Hp & Ha & _)]; [unfold rule_progs in K; rewrite Hr in K; discriminate|].
  unfold rule_progs in Hp. rewrite Hr in Hp. injection Hp as <-. eexists. split; [exact Ha|]. apply sheet_active. intros s' m i Hi. apply M; [exact Hm|]. eapply G. exists rules, m, i. eauto.
Qed.
Print Assumptions C104_rules_follow_partial.
(** The program that matches an element while leaving flags behind answers what Matching.v's algorithm answers, for every selector and world. *)
Theorem C104_same_algorithm : forall w fuel s n fl, fst (exec w n (matched (prun fuel s None [])) fl) = matches_selector w fuel s n.
Proof. intros w fuel s n fl. rewrite exec_result. unfold matched. rewrite result_bind. cbn [result]. rewrite (refine w n fuel s None None I [] n eq_refl). reflexivity. Qed.
Print Assumptions C104_same_algorithm.

(** ** Concrete histories: the root 0 with a list of children *)
Fixpoint link_in (before : option nat) (l : list nat) (n : nat) : siblings :=
  match l with [] => no_siblings | x :: l => if Nat.eqb x n then mk_siblings before (hd_error l) else link_in (Some x) l n end.
Definition flat_tree (l : list nat) : forest := {| children := fun p => match p with 0 => l | _ => [] end; parent := fun n => if mem n l then Some 0 else None |}.
Definition flat_data (l : list nat) (cls : nat -> list string) (n : nat) : option node_data :=
  if (Nat.eqb n 0 || mem n l)%bool then Some (mk_node_data None None (cls n) [] (fun _ => false) (negb (mem n l)) None) else None.
Definition flat (l : list nat) (cls : nat -> list string) : world :=
  mk_world (flat_tree l) (fun n => Some (if mem n l then link_in None l n else no_siblings)) (flat_data l cls).
Lemma link_neighbours l : forall l0 n, In n l -> ~ In n l0 -> neighbours (l0 ++ l) n (link_in (last (map Some l0) None) l n).
Proof.
  induction l as [|x l IH]; intros l0 n Hn H0; [destruct Hn|]. cbn [link_in]. destruct (Nat.eqb_spec x n) as [->|Hx].
  - exists l0, l. auto.
  - destruct Hn as [Hn|Hn]; [contradiction|]. specialize (IH (l0 ++ [x]) n Hn). rewrite <- app_assoc, map_app in IH. cbn [app map] in IH. rewrite last_last in IH. apply IH.
    intros H. apply in_app_or in H as [H|[H|[]]]; auto.
Qed.
Lemma flat_consistent nodes l cls : NoDup l -> ~ In 0 l -> (forall n, In n l -> In n nodes) -> consistent nodes (flat l cls).
Proof.
  intros N Z I. constructor; cbn.
  - constructor; cbn.
    + intros p c. destruct p as [|p].
      * destruct (mem c l) eqn:E; [apply mem_In in E; tauto|]. split; [intros H; apply mem_In in H; congruence|discriminate].
      * destruct (mem c l); split; try discriminate; intros [].
    + intros [|p]; [exact N|constructor].
    + exists (fun n => if Nat.eqb n 0 then 0 else 1), 1. split.
      * intros c p. destruct (mem c l) eqn:E; [|discriminate]. intros H. injection H as <-. destruct c; [apply mem_In in E; contradiction|reflexivity].
      * intros n. destruct n; cbn; lia.
  - intros n p H. destruct (mem n l) eqn:E; [|discriminate]. injection H as <-. unfold flat_data. rewrite E, orb_true_r. cbn. repeat split; try discriminate. apply I, mem_In, E.
  - intros n p H. destruct (mem n l) eqn:E; [|discriminate]. injection H as <-. eexists. split; [reflexivity|]. apply (link_neighbours l []); [apply mem_In; exact E|auto].
  - intros n s H Hs. destruct (mem n l); [discriminate|]. injection Hs as <-. reflexivity.
  - intros n d H. unfold flat_data in H. destruct (Nat.eqb n 0 || mem n l)%bool; [|discriminate]. injection H as <-. cbn. destruct (mem n l); cbn; split; congruence.
  - intros n d H. unfold flat_data in H. destruct (Nat.eqb n 0 || mem n l)%bool; [|discriminate]. injection H as <-. constructor.
Qed.
(** [.a + .b { 7 }]  [.a:nth-child(2 of .a), :is(.b) { 8 }]  [:root > .b:last-child { 9 }] and one whose media query does not hold *)
Definition the_rules : list erule :=
  [(Then [Class "b"] NextSibling (One [Class "a"]), true, 7); (One [Class "a"; NthOf false 0 2 [One [Class "a"]]], true, 8); (One [Is false [One [Class "b"]]], true, 8);
   (Then [Class "b"; Nth true false 0 1] Child (One [Root]), true, 9); (One [Universal], false, 10)].
Definition at_frame (l : list nat) (cls : nat -> list string) (rules : nat -> option (list erule)) (parents changed fresh : list nat) : eframe :=
  mk_eframe (flat l cls) (fun n => if (Nat.eqb n 0 || mem n l)%bool then rules n else None) (fun n => mem n parents) (fun n => mem n changed) (fun _ => false) (fun _ => false) (fun n => mem n fresh) (fun _ => false) (fun _ => false).
Definition classes (n : nat) : list string := match n with 1 | 3 => ["a"] | 2 => ["b"] | _ => [] end.
Definition classes' (n : nat) : list string := match n with 1 => ["b"] | 3 => ["a"] | 2 => ["b"] | _ => [] end.
(** 1 and 2 are spawned, their style sheet is still loading; it arrives; 1 is despawned; 3 is inserted before 2 and 1 (another node with that name) after it; 1 changes its class *)
Definition story : list eframe :=
  [at_frame [1; 2] classes (fun _ => None) [0] [0; 1; 2] [0; 1; 2]; at_frame [1; 2] classes (fun _ => Some the_rules) [] [] []; at_frame [2] classes (fun _ => Some the_rules) [0] [] [];
   at_frame [3; 2; 1] classes (fun _ => Some the_rules) [0] [1; 3] [1; 3]].
Definition story_end : eframe := at_frame [3; 2; 1] classes' (fun _ => Some the_rules) [] [1] [].
Lemma at_good l cls rules parents changed fresh : rules = (fun _ => Some the_rules) \/ rules = (fun _ => None) -> NoDup l -> (forall n, In n l -> In n [1; 2; 3]) -> good_frame [0; 1; 2; 3] (at_frame l cls rules parents changed fresh).
Proof.
  intros R N I. assert (Z : ~ In 0 l) by (intros H; apply I in H; cbn in H; intuition discriminate).
  assert (D : forall n, flat_data l cls n <> None -> In n [0; 1; 2; 3]).
  { intros n H. unfold flat_data in H. destruct (Nat.eq_dec n 0) as [Hz|Hz]; [rewrite Hz; left; reflexivity|]. apply Nat.eqb_neq in Hz. rewrite Hz in H. cbn [orb] in H. destruct (mem n l) eqn:E; [|exfalso; apply H; reflexivity]. right. apply I, mem_In, E. }
  split; [apply flat_consistent; auto; intros n H; right; auto|]. split; [exact D|]. split.
  { intros n H. cbn in H |- *. unfold flat_data. destruct (Nat.eqb n 0 || mem n l)%bool; [discriminate|exfalso; apply H; reflexivity]. }
  destruct R as [-> | ->]; (split; [|]).
  - intros n s (rules & m & i & Hr & Hi). cbn in Hr. destruct (Nat.eqb n 0 || mem n l)%bool; [|discriminate]. injection Hr as <-.
    cbn in Hi. repeat (destruct Hi as [Hi|Hi]; [injection Hi as <- <- <-; cbn; tauto|]). destruct Hi.
  - right. intros n p Hp. cbn in Hp. destruct (mem n l); [|discriminate]. injection Hp as <-. exists (Then [Class "b"] NextSibling (One [Class "a"])). split.
    + exists the_rules, true, 7. split; [reflexivity|left; reflexivity].
    + left. eauto.
  - intros n s (rules & m & i & Hr & Hi). cbn in Hr. destruct (Nat.eqb n 0 || mem n l)%bool; discriminate.
  - left. intros n s (rules & m & i & Hr & Hi). cbn in Hr. destruct (Nat.eqb n 0 || mem n l)%bool; discriminate.
Qed.
Ltac cases n := destruct n as [|[|[|[|n]]]].
Lemma story_followed : followed_history [0; 1; 2; 3] nothing_yet (story ++ [story_end]).
Proof.
  cbn [story app followed_history].
  repeat match goal with
  | |- good_frame _ _ /\ _ => split; [apply at_good; [auto|repeat constructor; cbn; intuition discriminate|intros n Hn; cbn in *; tauto]|]
  | |- reported_since _ _ /\ _ => split; [split; [|split; [|split]]|]
  | |- True => exact I
  | |- forall n, _ -> g_changed _ n = false -> _ => let n := fresh in intros n Hd Hc; cases n; cbn in *; try discriminate; try (exfalso; apply Hd; reflexivity); split; reflexivity
  | |- forall p, _ -> g_children _ p = false -> _ => let n := fresh in intros n Hd Hc; cases n; cbn in *; try discriminate; try (exfalso; apply Hd; reflexivity); reflexivity
  | |- forall n, _ -> _ -> g_marked _ n = false -> _ => let n := fresh in intros n Hd H0 Hm Hl; cases n; cbn in *; try discriminate; try (exfalso; apply H0; reflexivity); try (exfalso; apply Hd; reflexivity); reflexivity
  | |- forall m n, g_reset _ m = true -> _ => discriminate
  end.
Qed.
Example C104_example :
  let runs fs := option_map (fun s => map (a_active s) [1; 2; 3]) (esteps (rule_progs 5) [0; 1; 2; 3] 20 fs new_nodes) in
  runs (firstn 1 story) = Some [None; None; None] /\
  runs (firstn 2 story) = Some [Some []; Some [7; 8; 9]; None] /\
  runs (firstn 3 story) = Some [Some []; Some [8; 9]; None] /\
  runs story = Some [Some [8]; Some [7; 8]; Some []] /\
  runs (story ++ [story_end]) = Some [Some [8; 9]; Some [7; 8]; Some []].
Proof. repeat split; vm_compute; reflexivity. Qed.

(** Refuted: the parent has no style sheet of its own.  With [.a + .b { 7 }] on the children, the first child is despawned: the second
    keeps the rule. *)
Definition unstyled (n : nat) : option (list erule) := match n with 0 => None | _ => Some [(Then [Class "b"] NextSibling (One [Class "a"]), true, 7)] end.
Definition two_children := at_frame [1; 2] classes unstyled [0] [0; 1; 2] [0; 1; 2].
Definition one_child := at_frame [2] classes unstyled [0] [] [].
Theorem C104_unstyled_parent_refuted :
  consistent [0; 1; 2; 3] (g_world two_children) /\ consistent [0; 1; 2; 3] (g_world one_child) /\ reported_since nothing_yet two_children /\ reported_since two_children one_child /\
  (forall n s, selectors_at one_child n s -> parsed s /\ followed false s) /\
  (forall mf fuel, 2 <= mf -> 3 <= fuel -> exists s, esteps (rule_progs mf) [0; 1; 2; 3] fuel [two_children; one_child] new_nodes = Some s /\ a_active s 2 = Some [7]) /\
  forall ids rules, g_rules one_child 2 = Some rules -> active_rules (g_world one_child) 2 rules ids -> ids = [].
Proof.
  assert (N2 : NoDup [1; 2]) by (repeat constructor; cbn; intuition discriminate). assert (N1 : NoDup [2]) by (repeat constructor; cbn; intuition discriminate).
  split; [apply flat_consistent; [exact N2|cbn; intuition discriminate|intros n Hn; cbn in *; tauto]|].
  split; [apply flat_consistent; [exact N1|cbn; intuition discriminate|intros n Hn; cbn in *; tauto]|].
  split; [|split; [|split; [|split]]].
  - split; [|split; [|split]].
    + intros n Hd Hc; cases n; cbn in *; try discriminate; try (exfalso; apply Hd; reflexivity); split; reflexivity.
    + intros n Hd Hc; cases n; cbn in *; try discriminate; reflexivity.
    + intros n Hd H0 Hm Hl; cases n; cbn in *; try discriminate; try (exfalso; apply Hd; reflexivity); reflexivity.
    + discriminate.
  - split; [|split; [|split]].
    + intros n Hd Hc; cases n; cbn in *; try discriminate; try (exfalso; apply Hd; reflexivity); split; reflexivity.
    + intros n Hd Hc; cases n; cbn in *; try discriminate; reflexivity.
    + intros n Hd H0 Hm Hl; cases n; cbn in *; try discriminate; try (exfalso; apply Hd; reflexivity); reflexivity.
    + discriminate.
  - intros n s (rules & m & i & Hr & Hi). destruct n as [|[|[|n]]]; cbn in Hr; try discriminate. injection Hr as <-.
    cbn in Hi. destruct Hi as [Hi|[]]. injection Hi as <- <- <-. cbn. tauto.
  - intros mf fuel Hm Hf. do 2 (destruct mf as [|mf]; [lia|]). do 3 (destruct fuel as [|fuel]; [lia|]).
    eexists. split; [cbv -[a_active]; reflexivity|reflexivity].
  - intros ids rules Hr H. injection Hr as <-. inversion H as [|? ? ? ? Hs Ha|? ? ? ? ? Hs Ha]; subst.
    + exfalso. destruct Hs as (_ & m & (p & l1 & l2 & E) & _). cbn in E. destruct p; [|destruct l1; discriminate]. destruct l1 as [|x l1]; [discriminate|]. injection E as _ E. destruct l1; discriminate.
    + inversion Ha. reflexivity.
Qed.
Print Assumptions C104_unstyled_parent_refuted.

(** C83: structural pseudo-classes follow changes of the hierarchy. *)
From Verif Require Import Base Tree TreeSpec Structural StructuralSpec StructuralProofs.

(** For any history of hierarchies.  Missing to the full claim: style sheets in which every child-indexed pseudo-class stands behind
    another condition ([.item:last-child]), see the refuted theorem. *)
Theorem C83_structural_partial : forall rs nodes fs f, tested_everywhere rs \/ never_tested rs -> history nodes no_tree (fun _ => []) fs -> last (map Some fs) None = Some f ->
  exists n0, forall fuel, n0 <= fuel -> exists s, frames rs nodes fuel fs fresh_nodes = Some s /\
    forall n, In n nodes -> matched f rs n (s_active s n).
Proof.
  intros rs nodes fs f Hrs Hh Hl. destruct (frames_total rs nodes fs _ _ Hh) as [n0 H0]. exists n0. intros fuel Hf. destruct (H0 fuel Hf fresh_nodes) as [s Hs]. exists s. split; [exact Hs|].
  intros n Hn. destruct (frames_good rs nodes fuel Hrs fs _ _ fresh_nodes s Hh (or_introl (fun _ _ => eq_refl)) Hs f Hl n Hn) as (_ & -> & _). apply answers_matched.
  clear - Hh Hl. revert Hh. generalize no_tree, (fun _ : nat => @nil nat). induction fs as [|g fs IH]; intros w d Hh; [discriminate|]. destruct Hh as (Hw & _ & _ & Hh).
  destruct fs as [|g2 fs]; [cbn in Hl; injection Hl as <-; exact Hw|]. eapply IH; eauto.
Qed.
Print Assumptions C83_structural_partial.

(** ** Concrete hierarchies: node 0 with a list of children, all of class 5 *)
Definition list_tree (l : list nat) : forest := {| children := fun p => match p with 0 => l | _ => [] end; parent := fun n => if mem n l then Some 0 else None |}.
Lemma list_tree_wf l : NoDup l -> ~ In 0 l -> wf_forest (list_tree l).
Proof.
  intros Hd H0. constructor.
  - intros p c. cbn. destruct (mem c l) eqn:E.
    + apply mem_in in E. destruct p as [|p]; [split; [reflexivity|intros _; exact E]|]. split; [intros []|discriminate].
    + split; [|discriminate]. intros H. exfalso. assert (In c l) as Hc by (destruct p; [exact H|destruct H]). apply mem_in in Hc. congruence.
  - intros [|p]; cbn; [exact Hd|constructor].
  - exists (fun n => if mem n l then 1 else 0), 1. split; [|intros n; destruct (mem n l); lia].
    intros c p. cbn. destruct (mem c l) eqn:E; [|discriminate]. intros H; injection H as <-. destruct (mem 0 l) eqn:E0; [apply mem_in in E0; contradiction|reflexivity].
Qed.
Definition classes (n : nat) : list nat := match n with 0 => [] | _ => [5] end.
(** change detection reports exactly what changed *)
Definition tree_frame (old new : list nat) (first : bool) : frame :=
  mk_frame (list_tree new) classes (fun p => Nat.eqb p 0) (fun _ => false) (fun n => (first || negb (Bool.eqb (mem n old) (mem n new)))%bool) (fun _ => false).
Lemma tree_frame_ok nodes old new : NoDup new -> ~ In 0 new -> incl new nodes -> In 0 nodes ->
  wf_forest (list_tree new) /\ in_nodes nodes (list_tree new) /\ reported (list_tree old) classes (tree_frame old new false).
Proof.
  intros Hd H0 Hi Hn. split; [apply list_tree_wf; assumption|]. split.
  - intros n p. cbn. destruct (mem n new) eqn:E; [|discriminate]. intros H; injection H as <-. split; [apply Hi, mem_in, E|exact Hn].
  - split.
    + intros [|p] H; [left; reflexivity|]. exfalso. apply H. reflexivity.
    + intros n [H|H]; [|exfalso; apply H; reflexivity]. cbn in *. destruct (mem n old), (mem n new); try reflexivity; exfalso; apply H; reflexivity.
Qed.
Lemma first_frame_ok nodes new : NoDup new -> ~ In 0 new -> incl new nodes -> In 0 nodes ->
  wf_forest (list_tree new) /\ in_nodes nodes (list_tree new) /\ reported no_tree (fun _ => []) (tree_frame [] new true).
Proof.
  intros Hd H0 Hi Hn. destruct (tree_frame_ok nodes [] new Hd H0 Hi Hn) as (A & B & _). split; [exact A|]. split; [exact B|]. split; [|intros; reflexivity].
  intros [|p] H; [left; reflexivity|]. exfalso. apply H. reflexivity.
Qed.
Ltac nd := repeat constructor; cbn; intuition discriminate.
Lemma two_frames nodes a b : NoDup a -> ~ In 0 a -> incl a nodes -> NoDup b -> ~ In 0 b -> incl b nodes -> In 0 nodes ->
  history nodes no_tree (fun _ => []) [tree_frame [] a true; tree_frame a b false; tree_frame b b false].
Proof.
  intros H1 H2 H3 H4 H5 H6 H7. destruct (first_frame_ok nodes a H1 H2 H3 H7) as (A1 & A2 & A3). destruct (tree_frame_ok nodes a b H4 H5 H6 H7) as (B1 & B2 & B3).
  destruct (tree_frame_ok nodes b b H4 H5 H6 H7) as (C1 & C2 & C3). cbn [history tree_frame g_forest g_data].
  split; [exact A1|]. split; [exact A2|]. split; [exact A3|]. split; [exact B1|]. split; [exact B2|]. split; [exact B3|]. split; [exact C1|]. split; [exact C2|]. split; [exact C3|exact I].
Qed.
(** A child is added at the end, or the first one removed: with [.item:last-child], [.item:first-child], [.item:nth-child(odd)] the
    children that stay keep the old answer, in that frame and the next. *)
Definition odd_child : test := NthChild Nat.odd.
Theorem C83_class_first_refuted :
  (history [0; 1; 2; 3] no_tree (fun _ => []) [tree_frame [] [1; 2] true; tree_frame [1; 2] [1; 2; 3] false; tree_frame [1; 2; 3] [1; 2; 3] false] /\
   ~ holds (list_tree [1; 2; 3]) classes 2 LastChild /\
   option_map (fun s => (s_active s 2, s_active s 3)) (frames [[HasClass 5; LastChild]] [0; 1; 2; 3] 20
     [tree_frame [] [1; 2] true; tree_frame [1; 2] [1; 2; 3] false; tree_frame [1; 2; 3] [1; 2; 3] false] fresh_nodes) = Some ([true], [true])) /\
  (history [0; 1; 2; 3] no_tree (fun _ => []) [tree_frame [] [1; 2; 3] true; tree_frame [1; 2; 3] [2; 3] false; tree_frame [2; 3] [2; 3] false] /\
   holds (list_tree [2; 3]) classes 2 FirstChild /\ ~ holds (list_tree [2; 3]) classes 3 odd_child /\
   option_map (fun s => (s_active s 2, s_active s 3)) (frames [[HasClass 5; FirstChild]; [HasClass 5; odd_child]] [0; 1; 2; 3] 20
     [tree_frame [] [1; 2; 3] true; tree_frame [1; 2; 3] [2; 3] false; tree_frame [2; 3] [2; 3] false] fresh_nodes) = Some ([false; false], [false; true])).
Proof.
  split; (split; [apply two_frames; try (intros x Hx; cbn in *; tauto); try nd|]).
  - split; [|vm_compute; reflexivity]. intros H. destruct (H 0 eq_refl) as [l El]. apply (f_equal (fun l => last l 0)) in El. rewrite last_last in El. discriminate.
  - split; [intros p Hp; injection Hp as <-; eexists; reflexivity|]. split; [|vm_compute; reflexivity].
    intros (l1 & l2 & El & H). cbn in El. destruct l1 as [|a [|b l1]]; [discriminate|discriminate|]. cbn in El. injection El as _ _ El. destruct l1; discriminate.
Qed.
Print Assumptions C83_class_first_refuted.

(** ** Non-vacuity: the same changes with a rule that tests every node, and [:empty] with classes *)
Example everywhere_case : tested_everywhere [[LastChild; HasClass 5]; [HasClass 5; FirstChild]; [IsEmpty]] /\
  option_map (fun s => (s_active s 0, s_active s 1, s_active s 2, s_active s 3)) (frames [[LastChild; HasClass 5]; [HasClass 5; FirstChild]; [IsEmpty]] [0; 1; 2; 3] 20
     [tree_frame [] [1; 2] true; tree_frame [1; 2] [2; 3] false; tree_frame [2; 3] [2; 3] false] fresh_nodes) =
  Some ([false; false; false], [true; true; true], [false; true; true], [true; false; true]).
Proof. split; [exists [LastChild; HasClass 5], LastChild, [HasClass 5]; cbn; auto|vm_compute; reflexivity]. Qed.
Example never_case : never_tested [[HasClass 5; IsEmpty]; [IsEmpty]] /\
  option_map (fun s => s_active s 0) (frames [[HasClass 5; IsEmpty]; [IsEmpty]] [0; 1] 20 [tree_frame [] [1] true; tree_frame [1] [] false] fresh_nodes) = Some [false; true].
Proof. split; [intros r x [<-|[<-|[]]] Hx; cbn in Hx; repeat destruct Hx as [<-|Hx]; try reflexivity; destruct Hx|vm_compute; reflexivity]. Qed.
Example history_case : history [0; 1; 2; 3] no_tree (fun _ => []) [tree_frame [] [1; 2] true; tree_frame [1; 2] [2; 3] false; tree_frame [2; 3] [2; 3] false].
Proof. apply two_frames; try (intros x Hx; cbn in *; tauto); try nd. Qed.

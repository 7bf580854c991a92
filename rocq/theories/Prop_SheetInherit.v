(** C30, C31: the effective style sheet. *)
From Coq Require Import Permutation.
From Verif Require Import Base Tree TreeSpec TreeProofs Prop_Tree SheetInherit SheetInheritSpec SheetInheritProofs.

(** C30.  Along every history in which changes are seen by change detection (declarations written,
    nodes spawned or despawned anywhere, nodes moved together with a rewrite of their declaration), after
    every frame every node holds its own sheet or the nearest declared one above it - for every order of
    the queries and of the hash set. *)
Theorem C30_effective_is_nearest :
  forall fuel fs s, all_detected empty_world fs -> run_frames fuel fs no_data = Some s ->
  forall e, f_decl (last fs empty_world) e <> None ->
  forall a, eff s e = Some a <-> effective (f_tree (last fs empty_world)) (f_decl (last fs empty_world)) e a.
Proof.
  intros fuel fs s D H.
  assert (G : all_right (last fs empty_world) s /\ (forall e, f_decl (last fs empty_world) e = None -> eff s e = None)).
  { apply (frames_right fuel fs empty_world no_data s D); [intros e He; exfalso; apply He; reflexivity|reflexivity|exact H]. }
  exact (proj1 G).
Qed.
Print Assumptions C30_effective_is_nearest.

(** C30.  Every node whose effective sheet changes in a frame is restyled in that frame. *)
Theorem C30_changes_are_marked :
  forall fuel fs f s s', all_detected empty_world (fs ++ [f]) -> run_frames fuel fs no_data = Some s -> run_frame fuel f s = Some s' ->
  forall e, f_decl f e <> None -> eff s' e <> eff s e -> marked s' e = true.
Proof.
  intros fuel fs f s s' D H H'.
  assert (A : forall fs f0, all_detected f0 (fs ++ [f]) -> all_detected f0 fs /\ detected (last fs f0) f).
  { clear. induction fs as [|g fs IH]; intros f0 D; [cbn in D; cbn; tauto|]. destruct D as [D1 D2]. destruct (IH g D2) as [E1 E2]. rewrite last_cons. split; [split|]; assumption. }
  destruct (A fs empty_world D) as [A1 A2].
  assert (G : all_right (last fs empty_world) s /\ (forall e, f_decl (last fs empty_world) e = None -> eff s e = None)).
  { apply (frames_right fuel fs empty_world no_data s A1); [intros e He; exfalso; apply He; reflexivity|reflexivity|exact H]. }
  destruct G as [R N]. exact (proj2 (proj2 (frame_right fuel _ f s s' A2 R N H'))).
Qed.
Print Assumptions C30_changes_are_marked.

(** C30.  The system terminates. *)
Theorem C30_terminates :
  forall f0 f s, detected f0 f -> exists n0, forall fuel, n0 <= fuel -> exists s', run_frame fuel f s = Some s'.
Proof. exact frame_total. Qed.
Print Assumptions C30_terminates.

(** A tree of six nodes; sheet 7 at the root, 8 at node 1; then the root's sheet is replaced by 9 and node
    2 blocked. *)
Module ExS.
  Definition d1 (e : nat) : option sheet_decl := match e with 0 => Some (SSheet 7) | 1 => Some (SSheet 8) | 2 | 3 | 4 | 5 => Some SInherited | _ => None end.
  Definition d2 (e : nat) : option sheet_decl := match e with 0 => Some (SSheet 9) | 2 => Some SBlock | _ => d1 e end.
  Definition f1 := mk_sframe ex_w d1 [5; 3; 0; 4; 1; 2] (fun m => m).
  Definition f2 := mk_sframe ex_w d2 [2; 0] (fun m => rev m).
  Lemma detected_1 : detected empty_world f1.
  Proof.
    split; [exact ex_w_wf|]. split; [reflexivity|]. split.
    - intros e. cbn. intros [<-|[<-|[<-|[<-|[<-|[<-|[]]]]]]]; discriminate.
    - intros e N. right. do 6 (destruct e as [|e]; [exfalso; apply N; cbn; auto 10|]). repeat split.
  Qed.
  Lemma detected_2 : detected f1 f2.
  Proof.
    split; [exact ex_w_wf|]. split; [intros m; symmetry; apply Permutation_rev|]. split.
    - intros e. cbn. intros [<-|[<-|[]]]; discriminate.
    - intros e N. left. split; [|reflexivity]. cbn. destruct e as [|[|[|e]]]; try reflexivity; exfalso; apply N; cbn; auto.
  Qed.
End ExS.
Example C30_witness :
  all_detected empty_world [ExS.f1; ExS.f2] /\
  option_map (fun s => map (eff s) [0; 1; 2; 3; 4; 5]) (run_frames 10 [ExS.f1] no_data) = Some [Some (Asset 7); Some (Asset 8); Some (Asset 7); Some (Asset 8); Some (Asset 8); Some (Asset 7)] /\
  option_map (fun s => map (eff s) [0; 1; 2; 3; 4; 5]) (run_frames 10 [ExS.f1; ExS.f2] no_data) = Some [Some (Asset 9); Some (Asset 8); Some Invalid; Some (Asset 8); Some (Asset 8); Some Invalid].
Proof. split; [split; [exact ExS.detected_1|split; [exact ExS.detected_2|exact I]]|]. split; vm_compute; reflexivity. Qed.

(** C31 is false.  A node that inherits is moved from below node 1 (sheet 8) to below node 2 (which
    inherits 7); nothing recomputes it. *)
Definition moved : forest :=
  {| children := fun p => match p with 0 => [1; 2] | 1 => [3] | 2 => [5; 4] | _ => [] end;
     parent := fun c => match c with 1 | 2 => Some 0 | 3 => Some 1 | 4 | 5 => Some 2 | _ => None end |}.
Theorem C31_reparent_stale_refuted :
  exists w, wf_forest w /\ (forall c, c <> 4 -> parent w c = parent ex_w c) /\
  effective w ExS.d1 4 (Asset 7) /\
  option_map (fun s => eff s 4) (run_frames 10 [ExS.f1; mk_sframe w ExS.d1 [] (fun m => m); mk_sframe w ExS.d1 [0; 2] (fun m => m)] no_data) = Some (Some (Asset 8)).
Proof.
  exists moved. split; [|split; [|split]].
  - split.
    + intros p c. destruct p as [|[|[|p]]]; destruct c as [|[|[|[|[|[|c]]]]]]; simpl; split; intros H; try discriminate; intuition discriminate.
    + intros p. destruct p as [|[|[|p]]]; simpl; repeat constructor; simpl; intuition discriminate.
    + exists (fun c => match c with 1 | 2 => 1 | 3 | 4 | 5 => 2 | _ => 0 end), 2. split.
      * intros c p. destruct c as [|[|[|[|[|[|c]]]]]]; simpl; intros H; inversion H; reflexivity.
      * intros n. destruct n as [|[|[|[|[|[|n]]]]]]; simpl; lia.
  - intros c Hc. destruct c as [|[|[|[|[|c]]]]]; try reflexivity. contradiction.
  - apply eff_parent with 2; [right; reflexivity|reflexivity|]. apply eff_parent with 0; [right; reflexivity|reflexivity|]. apply eff_own. reflexivity.
  - vm_compute. reflexivity.
Qed.
Print Assumptions C31_reparent_stale_refuted.

(** C31 (partial).  A moved node is right again once its [NodeStyleSheet] is written (even with the same
    value) in the same frame, and so are the nodes below it. *)
Theorem C31_reparent_with_rewrite_partial :
  forall fuel fs f s, all_detected empty_world (fs ++ [f]) -> run_frames fuel (fs ++ [f]) no_data = Some s ->
  forall e p, parent (f_tree f) e = Some p -> f_decl f e = Some SInherited -> In e (f_changed f) -> f_decl f p <> None ->
  eff s e = eff s p /\ (forall d, descendant (f_tree f) e d -> f_decl f d <> None -> exists a, eff s d = Some a /\ effective (f_tree f) (f_decl f) d a).
Proof.
  intros fuel fs f s D H e p Hp He Hc Hd.
  pose proof (C30_effective_is_nearest fuel (fs ++ [f]) s D H) as G. rewrite last_last in G.
  assert (T : forall x, f_decl f x <> None -> exists a, eff s x = Some a /\ effective (f_tree f) (f_decl f) x a).
  { assert (W : wf_forest (f_tree f)).
    { clear -D. revert D. generalize empty_world. induction fs as [|g fs IH]; intros f0 D; [apply D|]. destruct D as [_ D]. exact (IH g D). }
    intros x Hx. destruct (chain_exists _ x W) as (l & Cl).
    assert (Ex : exists a, effective (f_tree f) (f_decl f) x a).
    { destruct (contributes (f_decl f) x) as [a|] eqn:Ce; [exists a; apply contributes_effective; exact Ce|]. eexists. apply chain_effective; eassumption. }
    destruct Ex as (a & Ha). exists a. split; [apply G; assumption|exact Ha]. }
  split; [|intros d _; apply T].
  destruct (T p Hd) as (a & -> & Ha). apply G; [congruence|]. apply eff_parent with p; [right; exact He|exact Hp|exact Ha].
Qed.
Print Assumptions C31_reparent_with_rewrite_partial.
(** the move above, with the declaration written *)
Example C31_witness :
  In 4 (f_changed (mk_sframe moved ExS.d1 [4] (fun m => m))) /\ parent moved 4 = Some 2 /\ ExS.d1 4 = Some SInherited /\
  (forall e, ~ In e [4] -> ExS.d1 e = ExS.d1 e /\ parent moved e = parent ex_w e) /\
  option_map (fun s => eff s 4) (run_frames 10 [ExS.f1; mk_sframe moved ExS.d1 [4] (fun m => m)] no_data) = Some (Some (Asset 7)).
Proof.
  split; [left; reflexivity|]. split; [reflexivity|]. split; [reflexivity|]. split.
  - intros e N. split; [reflexivity|]. destruct e as [|[|[|[|[|e]]]]]; try reflexivity. exfalso. apply N. left. reflexivity.
  - vm_compute. reflexivity.
Qed.

(** C84: custom properties reach the nodes that use them. *)
From Verif Require Import Base Tree TreeSpec Vars VarsSpec VarsProofs VarFlow VarFlowSpec VarFlowProofs.

(** C84.  After every frame of a history, every node whose sheet is loaded has the property values that its declarations give it with
    the custom properties declared, now, at the nearest node above (or at) it - also if only the declaring node was changed.
    Partial: for histories in which nodes are moved without (unnoticed) descendants, nodes keep having a sheet once they have one, and
    below a node whose sheet is modified all nodes are noticed (they have the same sheet, or are marked). *)
Theorem C84_custom_properties_reach_users_partial :
  forall (unset : nat -> nat) (nodes : list nat) (fs : list frame),
  from_start nodes (fun f0 f => moves_leaves f0 f /\ keeps_sheets f0 f /\ modifies_below f) fs ->
  exists n0, forall fuel, n0 <= fuel -> exists s,
    frames unset nodes fuel fs fresh_nodes = Some s /\
    forall f, last (map Some fs) None = Some f -> forall n, In n nodes -> up_to_date unset f s n.
Proof. exact start_good. Qed.
Print Assumptions C84_custom_properties_reach_users_partial.

(** ** A concrete hierarchy: 0 and 1 are roots, 2 is below 0 or 1, 3 is below 2; 0 declares --7: 1, 1 declares --7: 2; at 3: p5: var(--7) *)
Definition under (p : nat) : forest :=
  {| children := fun n => if Nat.eqb n p then [2] else if Nat.eqb n 2 then [3] else []; parent := fun n => match n with 2 => Some p | 3 => Some 2 | _ => None end |}.
Lemma under_wf p : p < 2 -> wf_forest (under p).
Proof.
  intros Hp. constructor.
  - intros q c. cbn. split.
    + destruct (Nat.eqb_spec q p) as [->|H1]; [intros [<-|[]]; reflexivity|]. destruct (Nat.eqb_spec q 2) as [->|H2]; [intros [<-|[]]; reflexivity|intros []].
    + intros H. destruct c as [|[|[|[|c]]]]; try discriminate; injection H as <-; [rewrite Nat.eqb_refl; left; reflexivity|]. destruct (Nat.eqb_spec 2 p) as [E|E]; [lia|]. left. reflexivity.
  - intros q. cbn. destruct (Nat.eqb q p); [repeat constructor; intros []|]. destruct (Nat.eqb q 2); repeat constructor; intros [].
  - exists (fun n => match n with 2 => 1 | 3 => 2 | _ => 0 end), 2. split; [|intros [|[|[|[|n]]]]; lia]. intros c q H. destruct c as [|[|[|[|c]]]]; try discriminate; injection H as <-; [|reflexivity]. destruct p as [|[|p]]; [reflexivity|reflexivity|lia].
Qed.
Lemma under_in p : p < 2 -> in_nodes [0; 1; 2; 3] (under p).
Proof. intros Hp n q H. cbn in H. destruct n as [|[|[|[|n]]]]; try discriminate; injection H as <-; destruct p as [|[|p]]; try lia; cbn; tauto. Qed.
Lemma not_gone f : (forall n, f_gone f n = false) -> nothing_gone f.
Proof. intros H. split; auto. Qed.
Definition one_value : list nat -> option (list (nat * nat)) := fun out => match out with [x] => Some [(5, x)] | _ => None end.
Definition css : sheet := fun i =>
  match i with 0 => mk_ruleset [(7, [Tok 1])] [] | 1 => mk_ruleset [(7, [Tok 2])] [] | 2 => mk_ruleset [] [Dynamic one_value [Var 7]] | _ => mk_ruleset [] [] end.
Definition no_inline : nat -> ruleset := fun _ => mk_ruleset [] [].
Definition none : nat -> bool := fun _ => false.
Definition rules_of : nat -> list nat := fun n => match n with 0 => [0] | 1 => [1] | 3 => [2] | _ => [] end.
Definition fr (p : nat) (rules : nat -> list nat) (changed : nat -> bool) : frame := mk_frame (under p) (fun _ => Some css) rules no_inline none changed none none.

(** a change of class at 0: now another rule matches it, and only 0 is noticed; the value of 3 follows *)
Example C84_reach_example :
  let fs := [fr 0 rules_of none; fr 0 (fun n => match n with 0 => [1] | _ => rules_of n end) (Nat.eqb 0)] in
  from_start [0; 1; 2; 3] (fun f0 f => moves_leaves f0 f /\ keeps_sheets f0 f /\ modifies_below f) fs /\
  option_map (fun s => v_values s 3 5) (frames (fun _ => 9) [0; 1; 2; 3] 20 (firstn 1 fs) fresh_nodes) = Some 1 /\
  option_map (fun s => v_values s 3 5) (frames (fun _ => 9) [0; 1; 2; 3] 20 fs fresh_nodes) = Some 2.
Proof.
  cbn [from_start]. split; [|split; vm_compute; reflexivity]. split; [apply under_wf; lia|]. split; [apply under_in; lia|]. split; [apply not_gone; reflexivity|]. cbn [history].
  split; [apply under_wf; lia|]. split; [apply under_in; lia|]. split; [apply not_gone; reflexivity|]. split; [|split; [|exact I]].
  - intros n _. split; [intros _; split; reflexivity|]. intros Hn _. split; [reflexivity|]. destruct n as [|n]; [exfalso; apply Hn; right; left; reflexivity|reflexivity].
  - split; [|split].
    + intros n d H. exfalso. apply H. reflexivity.
    + intros n _ _. discriminate.
    + intros n d H. discriminate.
Qed.

Lemma with_value (o : option state) (v : nat) : option_map (fun s => v_values s 3 5) o = Some v -> exists s, o = Some s /\ v_values s 3 5 = v.
Proof. destruct o as [s|]; [|discriminate]. intros E. injection E as E. eauto. Qed.
(** C84 fails when a node with descendants is moved: 2 is moved from 0 to 1; 3 keeps the value it had below 0 *)
Theorem C84_moved_subtree_refuted :
  exists (unset : nat -> nat) (nodes : list nat) (fs : list frame),
  from_start nodes (fun f0 f => keeps_sheets f0 f /\ modifies_below f) fs /\
  forall fuel, 20 <= fuel -> exists s f n, frames unset nodes fuel fs fresh_nodes = Some s /\ last (map Some fs) None = Some f /\ In n nodes /\ ~ up_to_date unset f s n.
Proof.
  exists (fun _ => 9), [0; 1; 2; 3], [fr 0 rules_of none; fr 1 rules_of (Nat.eqb 2)]. split.
  - cbn [from_start history]. split; [apply under_wf; lia|]. split; [apply under_in; lia|]. split; [apply not_gone; reflexivity|]. split; [apply under_wf; lia|]. split; [apply under_in; lia|]. split; [apply not_gone; reflexivity|]. split; [|split; [|exact I]].
    + intros n _. split; [|intros _ _; split; reflexivity]. intros H. split; [|reflexivity]. destruct n as [|[|[|[|n]]]]; try reflexivity. discriminate.
    + split; [intros n _ _; discriminate|intros n d H; discriminate].
  - intros fuel Hf. replace fuel with (20 + (fuel - 20)) by lia. generalize (fuel - 20). clear. intros k.
    edestruct with_value as (s & Es & Ev); [|exists s, (fr 1 rules_of (Nat.eqb 2)), 3; split; [exact Es|]]; [vm_compute; reflexivity|]. split; [reflexivity|]. split; [cbn; tauto|]. intros Hu.
    pose proof (up_to_date_values _ _ _ _ css (fun v => if Nat.eqb v 7 then Some [Tok 2] else None) Hu eq_refl) as H. assert (Hn : forall v, nearest (f_forest (fr 1 rules_of (Nat.eqb 2))) (own (fr 1 rules_of (Nat.eqb 2))) v 3 (if Nat.eqb v 7 then Some [Tok 2] else None)).
    { intros v. eapply near_up; [reflexivity|reflexivity|]. eapply near_up; [reflexivity|reflexivity|]. destruct (Nat.eqb_spec v 7) as [->|Hv]; [apply near_here; reflexivity|]. apply near_root; [|reflexivity].
      unfold own. cbn. destruct (Nat.eqb_spec 7 v); [congruence|]. destruct v as [|[|[|[|[|[|[|[|v]]]]]]]]; try reflexivity. congruence. }
    specialize (H Hn 5). rewrite Ev in H. vm_compute in H. discriminate.
Qed.
Print Assumptions C84_moved_subtree_refuted.

(** ... and when a sheet is modified so that a node declares no custom property any more, for nodes below it with another sheet.
    Here 0 and 2 have the sheet [css'] and 3 has [css] *)
Definition two_sheets (top : option sheet) (modified changed : nat -> bool) : frame :=
  mk_frame (under 0) (fun n => match n with 0 => top | _ => Some css end) rules_of no_inline modified changed none none.
Definition empty_sheet : sheet := fun _ => mk_ruleset [] [].
Lemma two_sheets_seen f : f_forest f = under 0 -> declared f 3 = [] -> declared f 2 = [] -> declared f 0 = [] -> forall v, nearest (f_forest f) (own f) v 3 None.
Proof.
  intros E E3 E2 E0 v. rewrite E. eapply near_up; [unfold own; rewrite E3; reflexivity|reflexivity|]. eapply near_up; [unfold own; rewrite E2; reflexivity|reflexivity|]. apply near_root; [unfold own; rewrite E0; reflexivity|reflexivity].
Qed.
Theorem C84_other_sheet_below_refuted :
  exists (unset : nat -> nat) (nodes : list nat) (fs : list frame),
  from_start nodes (fun f0 f => moves_leaves f0 f /\ keeps_sheets f0 f) fs /\
  forall fuel, 20 <= fuel -> exists s f n, frames unset nodes fuel fs fresh_nodes = Some s /\ last (map Some fs) None = Some f /\ In n nodes /\ ~ up_to_date unset f s n.
Proof.
  exists (fun _ => 9), [0; 1; 2; 3], [two_sheets (Some css) none none; two_sheets (Some empty_sheet) (Nat.eqb 0) none]. split.
  - cbn [from_start history]. split; [apply under_wf; lia|]. split; [apply under_in; lia|]. split; [apply not_gone; reflexivity|]. split; [apply under_wf; lia|]. split; [apply under_in; lia|]. split; [apply not_gone; reflexivity|]. split; [|split; [|exact I]].
    + intros n _. split; [intros _; split; reflexivity|]. intros Hn _. split; [|reflexivity]. destruct n as [|n]; [exfalso; apply Hn; left; reflexivity|reflexivity].
    + split; [intros n d H; exfalso; apply H; reflexivity|intros [|n] _ _; discriminate].
  - intros fuel Hf. replace fuel with (20 + (fuel - 20)) by lia. generalize (fuel - 20). clear. intros k.
    edestruct with_value as (s & Es & Ev); [|exists s, (two_sheets (Some empty_sheet) (Nat.eqb 0) none), 3; split; [exact Es|]]; [vm_compute; reflexivity|]. split; [reflexivity|]. split; [cbn; tauto|]. intros Hu.
    pose proof (up_to_date_values _ _ _ _ css (fun v => None) Hu eq_refl (two_sheets_seen (two_sheets (Some empty_sheet) (Nat.eqb 0) none) eq_refl eq_refl eq_refl eq_refl) 5) as H. rewrite Ev in H. vm_compute in H. discriminate.
Qed.
Print Assumptions C84_other_sheet_below_refuted.

(** ... and when a node loses its sheet (NodeStyleSheet::Block): what it declared stays, for nodes below it with their own sheet *)
Theorem C84_lost_sheet_refuted :
  exists (unset : nat -> nat) (nodes : list nat) (fs : list frame),
  from_start nodes (fun f0 f => moves_leaves f0 f /\ modifies_below f) fs /\
  forall fuel, 20 <= fuel -> exists s f n, frames unset nodes fuel fs fresh_nodes = Some s /\ last (map Some fs) None = Some f /\ In n nodes /\ ~ up_to_date unset f s n.
Proof.
  exists (fun _ => 9), [0; 1; 2; 3], [two_sheets (Some css) none none; two_sheets None none (fun _ => true)]. split.
  - cbn [from_start history]. split; [apply under_wf; lia|]. split; [apply under_in; lia|]. split; [apply not_gone; reflexivity|]. split; [apply under_wf; lia|]. split; [apply under_in; lia|]. split; [apply not_gone; reflexivity|]. split; [|split; [|exact I]].
    + intros n _. split; [discriminate|]. intros Hn _. exfalso. apply Hn. right. left. reflexivity.
    + split; [intros n d H; exfalso; apply H; reflexivity|intros n d H; discriminate].
  - intros fuel Hf. replace fuel with (20 + (fuel - 20)) by lia. generalize (fuel - 20). clear. intros k.
    edestruct with_value as (s & Es & Ev); [|exists s, (two_sheets None none (fun _ => true)), 3; split; [exact Es|]]; [vm_compute; reflexivity|]. split; [reflexivity|]. split; [cbn; tauto|]. intros Hu.
    pose proof (up_to_date_values _ _ _ _ css (fun v => None) Hu eq_refl (two_sheets_seen (two_sheets None none (fun _ => true)) eq_refl eq_refl eq_refl eq_refl) 5) as H. rewrite Ev in H. vm_compute in H. discriminate.
Qed.
Print Assumptions C84_lost_sheet_refuted.

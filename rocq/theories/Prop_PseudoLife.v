(** C113: the life of pseudo-elements and type names. *)
From Verif Require Import Base Siblings SiblingsProofs Prop_Siblings PseudoLife PseudoLifeSpec PseudoLifeProofs.

(** After any history in which entities are spawned, get bundles, move, and are despawned with all below them, nothing has panicked; and
    after the next update every entity with PseudoElementsSupport has exactly one ::before, as its first child, and exactly one ::after, as
    its last, of its kind; other entities have none; all other children are in the order in which they were; and selectors see every entity
    with the TypeName and the PseudoElement that it has.
    Partial: for the histories of [allowed_all], since outside it is false (below). *)
Theorem C113_pseudo_elements_partial : forall l, allowed_all nobody l ->
  exists s0 s, run_all nobody l = Some s0 /\ data_right s0 /\ run_all nobody (l ++ [Frame]) = Some s /\ pseudo_right s /\ data_right s /\
  forall p, let plain := filter (fun c => match kind s0 c with None => true | _ => false end) in plain (kids s p) = plain (kids s0 p).
Proof.
  intros l A. destruct (inv_all l nobody inv_nobody A) as (s0 & E & I). exists s0, (frame s0). split; [exact E|]. split; [exact (i_data s0 I)|]. split.
  { clear I A. revert E. generalize nobody. induction l as [|o l IH]; intros s E; cbn in *; [injection E as ->; reflexivity|]. destruct (run s o) as [s'|]; [|discriminate]. apply IH. exact E. }
  split; [|split; [exact (i_data _ (inv_frame s0 I))|]].
  - intros e x Ex. split.
    + intros Hs. destruct (frame_shape s0 e x I Ex Hs) as ((b & o & a & H1 & H2 & H3 & H4) & Hin & Hnd). exists b, o, a. split; [exact H1|].
      assert (M : forall c k, In c (kids (frame s0) e) -> kind (frame s0) c = Some k -> made (frame s0) x k c).
      { intros c k Hc Hk. apply Hin in Hc. destruct (i_sup s0 I e x Ex Hs k) as (c' & Hc' & Hm & Hu). rewrite (Hu c Hc Hk). eapply made_same; [reflexivity|reflexivity|exact Hm]. }
      rewrite H1 in M. split; [apply M; [left; reflexivity|exact H2]|]. split; [apply M; [right; apply in_or_app; right; left; reflexivity|exact H3]|exact H4].
    + intros Hs o Ho. exact (i_none _ (inv_frame s0 I) e x Ex Hs o Ho).
  - intros p plain. cbn. destruct (ents s0 p) as [x|] eqn:Ex; [|reflexivity]. destruct (e_support x && changed s0 p)%bool eqn:C; [|reflexivity]. apply andb_true_iff in C as [Hs _].
    rewrite C33_pseudo_elements_first_and_last; [|apply (i_nodup s0 I)|].
    + unfold plain. rewrite !filter_app. assert (Z : forall f g (l : list nat), (forall c, f c = true -> g c = false) -> filter g (filter f l) = []).
      { intros f g l' H. induction l' as [|c l' IH]; [reflexivity|]. cbn. destruct (f c) eqn:F; [|exact IH]. cbn. rewrite (H c F). exact IH. }
      rewrite (Z _ _ (kids s0 p)); [|intros c; destruct (kind s0 c) as [[]|]; congruence]. rewrite (Z (fun c => match kind s0 c with Some After => true | _ => false end) _ (kids s0 p)); [|intros c; destruct (kind s0 c) as [[]|]; congruence].
      rewrite app_nil_r. cbn. induction (kids s0 p) as [|c l' IH]; [reflexivity|]. cbn. destruct (kind s0 c) as [[]|] eqn:K; cbn; rewrite ?K; [exact IH|exact IH|f_equal; exact IH].
    + intros c d Hc Hd Hk Hq. destruct (kind s0 c) as [k|] eqn:Kc; [|contradiction]. destruct (i_sup s0 I p x Ex Hs k) as (u & _ & _ & Hu). rewrite (Hu c Hc Kc), (Hu d Hd (eq_sym Hq)). reflexivity.
Qed.
Print Assumptions C113_pseudo_elements_partial.

(** ** Non-vacuity: a block with support and children, a text without, which gets support later; children come before and after *)
Definition node (support : bool) (n : option nat) : bundle := mk_bundle true false false false n None support None.
Definition label_text : bundle := mk_bundle false false true false None (Some 0) false None.
Definition support : bundle := mk_bundle false false false false None None true None.
Definition typed (n : nat) : bundle := mk_bundle false false false false (Some n) None false None.
Definition day : list op := [Spawn None (node true (Some 7)); Spawn (Some 0) (node false None); Spawn (Some 0) label_text; Frame; Insert 4 support; Spawn (Some 0) (node false None); Move 4 3; Spawn (Some 4) (node false None); Frame; Despawn 3; Spawn (Some 0) (node false (Some 9))].
Example C113_day : allowed_all nobody day /\
  option_map (fun s => (kids s 0, kids s 3, kids s 4)) (run_all nobody (firstn 8 day)) = Some ([1; 3; 2; 7], [4], [5; 6; 8]) /\
  option_map (fun s => (kids s 0, kids s 3, kids s 4)) (run_all nobody (firstn 9 day)) = Some ([1; 3; 7; 2], [4], [5; 8; 6]) /\
  option_map (fun s => (kids s 0, kids s 3, kids s 4)) (run_all nobody (day ++ [Frame])) = Some ([1; 7; 9; 2], [], []) /\
  option_map (fun s => (ents s 4, ents s 9)) (run_all nobody (day ++ [Frame])) = Some (None, Some (mk_ent true false false false (Some 9) (Some (Some 9, None)) false None)).
Proof.
  split; [|repeat split; vm_compute; reflexivity].
  unfold day. repeat match goal with
  | |- allowed_all _ [] => exact I
  | |- allowed_all ?s (?o :: ?l) => split; [vm_compute; repeat match goal with |- exists _, _ => eexists | |- _ /\ _ => split end; try reflexivity; try discriminate; intuition (try discriminate; try congruence)|let E := fresh in intros ? E; vm_compute in E; injection E as <-]
  end.
Qed.

(** ** What is missing is false *)
Definition after_of (l : list op) := run_all nobody (l ++ [Frame]).
(** support that is inserted again brings two more pseudo-elements *)
Theorem C113_support_again_refuted : exists s, after_of [Spawn None (node true None); Insert 0 support] = Some s /\ map (kind s) (kids s 0) = [Some Before; Some Before; Some After; Some After] /\ ~ pseudo_right s.
Proof.
  eexists. split; [vm_compute; reflexivity|]. split; [vm_compute; reflexivity|]. intros H. destruct (H 0 _ eq_refl) as [H1 _]. destruct (H1 eq_refl) as (b & o & a & E & _ & _ & Ho). vm_compute in E.
  destruct o as [|o1 [|o2 [|o3 o]]]; try discriminate. injection E as <- <- <- _. specialize (Ho 3 (or_introl eq_refl)). vm_compute in Ho. discriminate.
  all: destruct o; discriminate.
Qed.
Print Assumptions C113_support_again_refuted.
(** an entity that gets support before its Node never has pseudo-elements *)
Theorem C113_support_first_refuted : exists s, after_of [Spawn None support; Insert 0 (node false None)] = Some s /\ option_map (fun x => (e_node x, e_support x)) (ents s 0) = Some (true, true) /\ kids s 0 = [] /\ ~ pseudo_right s.
Proof.
  eexists. split; [vm_compute; reflexivity|]. split; [vm_compute; reflexivity|]. split; [vm_compute; reflexivity|]. intros H. destruct (H 0 _ eq_refl) as [H1 _]. destruct (H1 eq_refl) as (b & o & a & E & _). vm_compute in E. discriminate.
Qed.
Print Assumptions C113_support_first_refuted.
(** a block that becomes a text keeps blocks as pseudo-elements *)
Theorem C113_text_later_refuted : exists s, after_of [Spawn None (node true None); Insert 0 label_text] = Some s /\ option_map textual (ents s 0) = Some true /\ option_map (fun x => (e_node x, e_span x)) (ents s 1) = Some (true, false) /\ ~ pseudo_right s.
Proof.
  eexists. split; [vm_compute; reflexivity|]. split; [vm_compute; reflexivity|]. split; [vm_compute; reflexivity|]. intros H. destruct (H 0 _ eq_refl) as [H1 _]. destruct (H1 eq_refl) as (b & o & a & E & (y & Ey & _ & _ & Hy) & _). vm_compute in E.
  destruct o as [|? [|]]; try discriminate. injection E as <- <-. vm_compute in Ey. injection Ey as <-. vm_compute in Hy. destruct Hy; discriminate.
Qed.
Print Assumptions C113_text_later_refuted.
(** pseudo-elements stay when support is removed, and are then no longer first and last *)
Theorem C113_support_removed_refuted : exists s, after_of [Spawn None (node true None); DropSupport 0; Spawn (Some 0) (node false None)] = Some s /\ map (kind s) (kids s 0) = [Some Before; Some After; None] /\ ~ pseudo_right s.
Proof.
  eexists. split; [vm_compute; reflexivity|]. split; [vm_compute; reflexivity|]. intros H. destruct (H 0 _ eq_refl) as [_ H1]. specialize (H1 eq_refl 1 ltac:(vm_compute; auto)). vm_compute in H1. discriminate.
Qed.
Print Assumptions C113_support_removed_refuted.
(** a second type name panics, even when the first was removed, or when the entity then becomes a text; and a type
    name that is removed is still seen by selectors *)
Theorem C113_type_again_refuted : run_all nobody [Spawn None (node false (Some 7)); Insert 0 (typed 8)] = None /\ run_all nobody [Spawn None (node false (Some 7)); DropType 0; Insert 0 (typed 8)] = None /\
  run_all nobody [Spawn None (node false (Some 7)); DropType 0; Insert 0 label_text] = None /\
  exists s, run_all nobody [Spawn None (node false (Some 7)); DropType 0] = Some s /\ option_map (fun x => (e_type x, e_data x)) (ents s 0) = Some (None, Some (Some 7, None)) /\ ~ data_right s.
Proof.
  repeat (split; [vm_compute; reflexivity|]). eexists. split; [vm_compute; reflexivity|]. split; [vm_compute; reflexivity|]. intros H. specialize (H 0 _ eq_refl). vm_compute in H. destruct H; discriminate.
Qed.
Print Assumptions C113_type_again_refuted.
(** a type name that comes before the Node is never seen *)
Theorem C113_type_first_refuted : exists s, run_all nobody [Spawn None (typed 7); Insert 0 (node false None)] = Some s /\ option_map (fun x => (e_type x, e_data x)) (ents s 0) = Some (Some 7, Some (None, None)) /\ ~ data_right s.
Proof.
  eexists. split; [vm_compute; reflexivity|]. split; [vm_compute; reflexivity|]. intros H. specialize (H 0 _ eq_refl). vm_compute in H. destruct H; discriminate.
Qed.
Print Assumptions C113_type_first_refuted.

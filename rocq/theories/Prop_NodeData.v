(** C81: after every update, what selectors see of a node is what its components say. *)
From Coq Require Import Permutation.
From Verif Require Import Base NodeData NodeDataSpec NodeDataProofs.

(** Whatever the program does in whatever updates, and whatever order the systems run in.  Missing to the full claim (each side
    condition is needed, see the refuted theorems below): entities that become nodes later, removal of ClassList, AttributeList,
    Hovered and Interaction, a name that is removed and set again in one update, two sources of a pseudo-state, Node added or
    removed later. *)
Theorem C81_data_partial : forall h, runs_all h -> node_from_start h ->
  exists d, value (e_data (updates h)) = Some d /\
    (no_rename h -> d_id d = the_name h) /\
    (~ does h RemoveClasses -> d_classes d = match the_classes h with Some l => l | None => [] end) /\
    (~ does h RemoveAttributes -> d_attributes d = match the_attributes h with Some l => l | None => [] end) /\
    d_disabled d = present (is_disabled h) /\
    d_checked d = present (is_checked h) /\
    (no_interaction h -> d_pressed d = present (is_pressed h)) /\
    (no_interaction h -> ~ does h RemoveHovered -> d_hovered d = match the_hovered h with Some b => b | None => false end) /\
    (only_interaction h -> ~ does h RemoveInteraction -> d_pressed d = interaction_pressed (the_interaction h) /\ d_hovered d = interaction_hovered (the_interaction h)) /\
    (ui_node_from_start h -> d_root d = negb (present (the_parent h))).
Proof.
  intros h Hr Hn. assert (Hso : nodes_so_far h) by (right; exact Hn). pose proof (data_there h Hn) as Hd.
  destruct (value (e_data (updates h))) as [d|] eqn:E; [|congruence]. assert (Ed : the_data (updates h) = d) by (unfold the_data; rewrite E; reflexivity).
  exists d. split; [reflexivity|]. rewrite <- Ed.
  rewrite the_name_value, the_classes_value, the_attributes_value, is_disabled_value, is_checked_value, is_pressed_value, the_hovered_value, the_interaction_value, the_parent_value.
  split; [apply name_ok; assumption|]. split; [apply classes_ok; assumption|]. split; [apply attributes_ok; assumption|]. split; [apply disabled_ok; assumption|].
  split; [apply checked_ok; assumption|]. split; [apply pressed_ok; assumption|]. split; [apply hovered_ok; assumption|]. split.
  - intros [H1 H2] H3. destruct (interaction_ok h Hr Hso H1 H2 H3) as [-> ->]. destruct (value (e_interaction (updates h))) as [[]|]; split; reflexivity.
  - intros [(ops & order & h' & -> & Ha) Hrm]. apply root_ok; assumption.
Qed.
Print Assumptions C81_data_partial.

(** Without any condition on when the entity became a node or what was removed: an entity without data never gets any by these
    systems, and the systems change no other component. *)
Theorem C81_only_data : forall e order, let e' := systems_run order e in
  e_node e' = e_node e /\ e_parent e' = e_parent e /\ e_name e' = e_name e /\ e_classes e' = e_classes e /\ e_attributes e' = e_attributes e /\
  e_pressed e' = e_pressed e /\ e_disabled e' = e_disabled e /\ e_checked e' = e_checked e /\ e_hovered e' = e_hovered e /\ e_interaction e' = e_interaction e /\
  (value (e_data e) = None -> value (e_data e') = None).
Proof.
  intros e order. cbn zeta. destruct (systems_eff order e) as [(H1 & H2 & H3 & H4 & H5 & H6 & H7 & H8 & H9 & H10 & H11) Hv].
  repeat split; try congruence. intros H. rewrite Hv, H. reflexivity.
Qed.
Print Assumptions C81_only_data.

(** An update in which nothing happens to a node's components changes nothing in its data. *)
Theorem C81_quiet : forall h order, node_from_start h -> e_data (updates (h ++ [([], order)])) = e_data (updates h).
Proof.
  intros h order Hn.
  assert (Hset : forall h, h <> [] -> settled (e_data (updates h))).
  { intros h0 H0. destruct h0 as [|u h0] using rev_ind; [congruence|]. rewrite updates_snoc. repeat split. }
  assert (Hne : h <> []) by (destruct Hn as [(? & ? & ? & -> & _) _]; discriminate).
  assert (Hs : forall s d, eff s (updates h) d = d).
  { pose proof (updates_settled e_parent c_parent dodata_parent ltac:(cells) ltac:(cells) eq_refl h) as (_ & P1 & P2).
    pose proof (updates_settled e_name c_name dodata_name ltac:(cells) ltac:(cells) eq_refl h) as (_ & N1 & N2).
    pose proof (updates_settled e_classes c_classes dodata_classes ltac:(cells) ltac:(cells) eq_refl h) as (_ & C1 & _).
    pose proof (updates_settled e_attributes c_attributes dodata_attributes ltac:(cells) ltac:(cells) eq_refl h) as (_ & A1 & _).
    pose proof (updates_settled e_pressed c_pressed dodata_pressed ltac:(cells) ltac:(cells) eq_refl h) as (R1 & _ & R2).
    pose proof (updates_settled e_disabled c_disabled dodata_disabled ltac:(cells) ltac:(cells) eq_refl h) as (D1 & _ & D2).
    pose proof (updates_settled e_checked c_checked dodata_checked ltac:(cells) ltac:(cells) eq_refl h) as (K1 & _ & K2).
    pose proof (updates_settled e_hovered c_hovered dodata_hovered ltac:(cells) ltac:(cells) eq_refl h) as (_ & H1 & _).
    pose proof (updates_settled e_interaction c_interaction dodata_interaction ltac:(cells) ltac:(cells) eq_refl h) as (_ & I1 & _).
    destruct (Hset h Hne) as (S1 & _).
    intros s d. destruct s; cbn [eff]; cbn zeta; rewrite ?S1, ?P1, ?P2, ?N1, ?N2, ?C1, ?A1, ?R1, ?R2, ?D1, ?D2, ?K1, ?K2, ?H1, ?I1; cbn [orb]; destr; reflexivity. }
  destruct (Hset h Hne) as (S1 & S2 & S3). destruct (Hset (h ++ [([], order)]) ltac:(destruct h; discriminate)) as (T1 & T2 & T3).
  assert (Hv : value (e_data (updates (h ++ [([], order)]))) = value (e_data (updates h))).
  { rewrite updates_snoc, update_data; [|intros []|left; apply data_there, Hn]. cbn [fst snd program fold_left].
    pose proof (data_there h Hn) as Hd. unfold the_data. destruct (value (e_data (updates h))) as [d|]; [|congruence]. f_equal.
    clear - Hs. revert d. induction order as [|s order IH]; intros d; cbn; [reflexivity|]. rewrite Hs. apply IH. }
  destruct (e_data (updates (h ++ [([], order)]))), (e_data (updates h)); cbn in *. congruence.
Qed.
Print Assumptions C81_quiet.

Ltac done := vm_compute; repeat split.
(** ** What each condition of [C81_data_partial] is needed for *)
(** The name is removed and another one inserted in one update: the node loses its id. *)
Theorem C81_rename_refuted : exists h d, runs_all h /\ node_from_start h /\ value (e_data (updates h)) = Some d /\ the_name h = Some 2 /\ d_id d = None.
Proof.
  exists [([AddNode; SetName 1], all_systems); ([RemoveName; SetName 2], all_systems)]. eexists.
  split; [intros u [<-|[<-|[]]]; apply Permutation_refl|]. split; [split; [eauto 8 using in_eq|intros (u & [<-|[<-|[]]] & H); cbn in H; intuition discriminate]|]. done.
Qed.
Print Assumptions C81_rename_refuted.
(** Removing ClassList or AttributeList leaves the classes and attributes. *)
Theorem C81_removed_lists_refuted : exists h d, runs_all h /\ node_from_start h /\ value (e_data (updates h)) = Some d /\
  the_classes h = None /\ d_classes d = [1] /\ the_attributes h = None /\ d_attributes d = [(1, 2)].
Proof.
  exists [([AddNode; SetClasses [1]; SetAttributes [(1, 2)]], all_systems); ([RemoveClasses; RemoveAttributes], all_systems)]. eexists.
  split; [intros u [<-|[<-|[]]]; apply Permutation_refl|]. split; [split; [eauto 8 using in_eq|intros (u & [<-|[<-|[]]] & H); cbn in H; intuition discriminate]|]. done.
Qed.
Print Assumptions C81_removed_lists_refuted.
(** Removing Hovered or Interaction leaves the pseudo-state. *)
Theorem C81_removed_hover_refuted :
  (exists h d, runs_all h /\ node_from_start h /\ no_interaction h /\ value (e_data (updates h)) = Some d /\ the_hovered h = None /\ d_hovered d = true) /\
  (exists h d, runs_all h /\ node_from_start h /\ only_interaction h /\ value (e_data (updates h)) = Some d /\ the_interaction h = None /\ d_pressed d = true).
Proof.
  split; [exists [([AddNode; SetHovered true], all_systems); ([RemoveHovered], all_systems)]|exists [([AddNode; SetInteraction Pressed], all_systems); ([RemoveInteraction], all_systems)]]; eexists;
    (split; [intros u [<-|[<-|[]]]; apply Permutation_refl|]; split; [split; [eauto 8 using in_eq|intros (u & [<-|[<-|[]]] & H); cbn in H; intuition discriminate]|]);
    (split; [|done]).
  - intros i (u & [<-|[<-|[]]] & H); cbn in H; intuition discriminate.
  - split; [intros i|]; intros (u & [<-|[<-|[]]] & H); cbn in H; intuition discriminate.
Qed.
Print Assumptions C81_removed_hover_refuted.
(** Components that were there an update before the entity became a node are not seen, except for the name. *)
Theorem C81_late_node_refuted : exists h d, runs_all h /\ ~ does h RemoveData /\ value (e_data (updates h)) = Some d /\
  is_checked h = Some tt /\ d_checked d = false /\ the_classes h = Some [1] /\ d_classes d = [] /\ the_hovered h = Some true /\ d_hovered d = false /\ the_name h = Some 1 /\ d_id d = Some 1.
Proof.
  exists [([AddChecked; SetClasses [1]; SetHovered true; SetName 1], all_systems); ([AddNode], all_systems)]. eexists.
  split; [intros u [<-|[<-|[]]]; apply Permutation_refl|]. split; [intros (u & [<-|[<-|[]]] & H); cbn in H; intuition discriminate|]. done.
Qed.
Print Assumptions C81_late_node_refuted.
(** A button that is pressed is no longer hovered, if both come from Interaction (in CSS an element that is :active is :hover). *)
Theorem C81_pressed_not_hovered_refuted : exists h d, runs_all h /\ node_from_start h /\ only_interaction h /\ value (e_data (updates h)) = Some d /\ d_pressed d = true /\ d_hovered d = false.
Proof.
  exists [([AddNode; SetInteraction Hovered], all_systems); ([SetInteraction Pressed], all_systems)]. eexists.
  split; [intros u [<-|[<-|[]]]; apply Permutation_refl|]. split; [split; [eauto 8 using in_eq|intros (u & [<-|[<-|[]]] & H); cbn in H; intuition discriminate]|].
  split; [|done]. split; [intros i|]; intros (u & [<-|[<-|[]]] & H); cbn in H; intuition discriminate.
Qed.
Print Assumptions C81_pressed_not_hovered_refuted.
(** With both Hovered and Interaction on a node, the outcome depends on the order the systems happen to run in. *)
Theorem C81_two_sources_refuted : exists ops o1 o2 d1 d2, Permutation o1 all_systems /\ Permutation o2 all_systems /\
  value (e_data (updates [(ops, o1)])) = Some d1 /\ value (e_data (updates [(ops, o2)])) = Some d2 /\ d_hovered d1 = true /\ d_hovered d2 = false.
Proof.
  exists [AddNode; SetHovered true; SetInteraction Pressed], [IsRoot; ApplyClasses; ApplyAttributes; SyncPressed; SyncDisabled; SyncChecked; SyncInteraction; SyncHovered; TrackName], all_systems.
  do 2 eexists. split; [|split; [apply Permutation_refl|done]]. unfold all_systems. do 6 apply perm_skip. apply perm_swap.
Qed.
Print Assumptions C81_two_sources_refuted.
(** An entity that becomes a UI node after it got its data is not seen as root until its parent changes. *)
Theorem C81_late_root_refuted : exists h d, runs_all h /\ node_from_start h /\ ~ does h RemoveNode /\ value (e_data (updates h)) = Some d /\ the_node h = Some tt /\ the_parent h = None /\ d_root d = false.
Proof.
  exists [([AddTextSpan], all_systems); ([AddNode], all_systems)]. eexists.
  split; [intros u [<-|[<-|[]]]; apply Permutation_refl|]. split; [split; [eauto 8 using in_eq|intros (u & [<-|[<-|[]]] & H); cbn in H; intuition discriminate]|].
  split; [intros (u & [<-|[<-|[]]] & H); cbn in H; intuition discriminate|]. done.
Qed.
Print Assumptions C81_late_root_refuted.

(** ** The hypotheses are met: a node over three updates with different orders of the systems *)
Definition sample : list (list op * list system) :=
  [([SetClasses [1]; AddNode; SetName 7; SetParent 3; AddChecked], all_systems);
   ([AddDisabled; RemoveDisabled; AddPressed; SetHovered true; SetClasses [1; 2]], rev all_systems);
   ([RemoveChecked; AddDisabled; RemoveParent; SetAttributes [(1, 1)]; SetName 8], all_systems)].
Example sample_meets : runs_all sample /\ node_from_start sample /\ no_rename sample /\ ~ does sample RemoveClasses /\ ~ does sample RemoveAttributes /\
  no_interaction sample /\ ~ does sample RemoveHovered /\ ui_node_from_start sample.
Proof.
  split; [intros u [<-|[<-|[<-|[]]]]; (apply Permutation_refl || (apply Permutation_sym, Permutation_rev))|].
  split; [split; [do 3 eexists; split; [reflexivity|left; cbn; auto]|intros (u & [<-|[<-|[<-|[]]]] & H); cbn in H; intuition discriminate]|].
  split; [intros u l1 l2 n Hu E; exfalso; assert (H : In RemoveName (fst u)) by (rewrite E; apply in_or_app; right; left; reflexivity); destruct Hu as [<-|[<-|[<-|[]]]]; cbn in H; intuition discriminate|].
  split; [intros (u & [<-|[<-|[<-|[]]]] & H); cbn in H; intuition discriminate|]. split; [intros (u & [<-|[<-|[<-|[]]]] & H); cbn in H; intuition discriminate|].
  split; [intros i (u & [<-|[<-|[<-|[]]]] & H); cbn in H; intuition discriminate|]. split; [intros (u & [<-|[<-|[<-|[]]]] & H); cbn in H; intuition discriminate|].
  split; [do 3 eexists; split; [reflexivity|cbn; auto]|intros (u & [<-|[<-|[<-|[]]]] & H); cbn in H; intuition discriminate].
Qed.
Example sample_data : value (e_data (updates sample)) = Some (mk_data true (Some 8) [1; 2] [(1, 1)] true true true false).
Proof. reflexivity. Qed.
Definition sample_interaction : list (list op * list system) := [([AddNode; SetInteraction Hovered], all_systems); ([SetInteraction NoInteraction; SetInteraction Pressed], all_systems)].
Example sample_interaction_meets : only_interaction sample_interaction /\ ~ does sample_interaction RemoveInteraction /\
  option_map d_pressed (value (e_data (updates sample_interaction))) = Some true.
Proof.
  split; [|split; [|reflexivity]]; [split; [intros i|]|]; intros (u & [<-|[<-|[]]] & H); cbn in H; intuition discriminate.
Qed.

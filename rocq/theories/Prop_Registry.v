(** C15, C16, C45: the property registries. *)
From Verif Require Import Base Inherit Registry RegistrySpec RegistryProofs.

(** C15.  After any successful sequence of registrations the properties are exactly those registered, in
    order, with distinct names; the id of a name is its position; and later registrations change no id. *)
Theorem C15_ids :
  forall (V : Type) (os os' : list (reg_op V)) r r',
  reg_run empty_registry os = Some r -> reg_run r os' = Some r' ->
  properties r = registered os /\ NoDup (map fst (registered os)) /\
  (forall k i, resolve r (RefName k) = Some i <-> nth_error (map fst (registered os)) i = Some k) /\
  (forall k i, resolve r (RefName k) = Some i -> resolve r' (RefName k) = Some i) /\
  (forall i p, nth_error (properties r) i = Some p -> nth_error (properties r') i = Some p).
Proof.
  intros V os os' r r' H H'. destruct (run_spec os empty_registry r ok_empty H) as [Hr P]. simpl in P.
  destruct (run_spec os' r r' Hr H') as [Hr' P']. split; [exact P|]. rewrite <- P. split; [apply Hr|].
  split; [intros; apply ok_resolve; exact Hr|]. split.
  - intros k i Hk. apply (ok_resolve r k i Hr) in Hk. apply (ok_resolve r' k i Hr'). rewrite P', map_app, nth_error_app1; [exact Hk|]. apply nth_error_Some. congruence.
  - intros i p Hp. rewrite P', nth_error_app1; [exact Hp|]. apply nth_error_Some. congruence.
Qed.
Print Assumptions C15_ids.

(** Registering properties succeeds exactly when no name repeats; the returned range is the fresh,
    consecutive block of their ids. *)
Theorem C15_register_properties :
  forall (V : Type) (os : list (reg_op V)) r ps,
  reg_run empty_registry os = Some r ->
  match register_properties r ps with
  | Some (r', (a, b)) => NoDup (map fst (registered os ++ ps)) /\ a = length (registered os) /\ b = a + length ps /\
       (forall j p, nth_error ps j = Some p -> resolve r' (RefName (fst p)) = Some (a + j))
  | None => ~ NoDup (map fst (registered os ++ ps))
  end.
Proof.
  intros V os r ps H. destruct (run_spec os empty_registry r ok_empty H) as [Hr P]. simpl in P.
  pose proof (register_all_spec ps r Hr) as S. rewrite <- P. unfold register_properties. destruct (register_all r ps) as [r'|]; [|exact S].
  destruct S as (A & B & _). split; [rewrite <- B; apply A|]. split; [reflexivity|]. split; [rewrite B, app_length; reflexivity|].
  intros j p Hj. apply (ok_resolve r' _ _ A). rewrite B, map_app, nth_error_app2; rewrite map_length; [|lia].
  replace (length (properties r) + j - length (properties r)) with j by lia. rewrite nth_error_map, Hj. reflexivity.
Qed.
Print Assumptions C15_register_properties.

(** The components' ranges never overlap; when every property came with a component each property has
    exactly one, and the initial values are the components' defaults in id order. *)
Theorem C15_components :
  forall (V : Type) (os : list (reg_op V)) r,
  reg_run empty_registry os = Some r ->
  (forall l1 c l2 c' l3 i, registrations r = l1 ++ c :: l2 ++ c' :: l3 -> ~ (fst (snd c) <= i < snd (snd c) /\ fst (snd c') <= i < snd (snd c'))) /\
  (only_components os ->
     (forall i, i < length (properties r) -> exists c, In c (registrations r) /\ fst (snd c) <= i < snd (snd c)) /\
     create_initial_values_map r = Some (map snd (registered os))).
Proof.
  intros V os r H. destruct (run_covered os r H) as (A & B & C). split; [|intros Ho; split].
  - intros l1 c l2 c' l3 i E [H1 H2]. rewrite E in B. assert (snd (snd c) <= fst (snd c')); [|lia].
    clear -B. induction l1 as [|x l1 IH]; simpl in B.
    + inversion B; subst. rewrite Forall_forall in H1. apply H1. apply in_or_app. right; left; reflexivity.
    + inversion B; subst. apply IH. assumption.
  - intros i Hi. destruct (C Ho i Hi) as (c & Hc & Hr). exists c. split; [exact Hc|]. unfold in_range in Hr. apply andb_true_iff in Hr.
    destruct Hr as [R1 R2]. apply Nat.leb_le in R1. apply Nat.ltb_lt in R2. lia.
  - apply (initial_values os r H Ho).
Qed.
Print Assumptions C15_components.

Example C15_witness :
  exists r, reg_run empty_registry [RegComponent 0 [(10, 1); (11, 2)]; SetUnset (RefName 11) PInherit; RegComponent 1 [(12, 3)]] = Some r /\
  resolve r (RefName 12) = Some 2 /\ create_initial_values_map r = Some [1; 2; 3] /\
  register_properties r [(13, 4); (10, 5)] = None /\ option_map snd (register_properties r [(13, 4); (14, 5)]) = Some (3, 5).
Proof. eexists. split; [reflexivity|]. repeat split; reflexivity. Qed.

(** C45.  The unset value of a property is the last one set for it (by id or by name), none otherwise;
    setting one never affects another property. *)
Theorem C45_unset_values :
  forall (V : Type) (os : list (reg_op V)) r i,
  reg_run empty_registry os = Some r -> i < length (registered os) ->
  nth_error (unset_values r) i = Some (last_unset os os i).
Proof.
  intros V os r i H Hi. apply (run_unset os os r); [exists []; rewrite app_nil_r; reflexivity| |exact H|exact Hi].
  destruct (run_spec os empty_registry r ok_empty H) as [Hr P]. simpl in P. rewrite <- P. apply Hr.
Qed.
Print Assumptions C45_unset_values.

(** ... but the documented rejection of the value [unset] itself is missing: it is accepted, and a later
    explicit [unset] of that property panics. *)
Theorem C45_unset_as_unset_refuted :
  exists (os : list (reg_op nat)) r,
    os = [RegComponent 0 [(10, 7)]; SetUnset (RefName 10) PUnset] /\ reg_run empty_registry os = Some r /\
    exists u, nth_error (unset_values r) 0 = Some u /\ compute_with_parent PUnset u 7 (CVal 3) = None.
Proof. eexists. eexists. split; [reflexivity|]. split; [reflexivity|]. eexists. split; reflexivity. Qed.
Print Assumptions C45_unset_as_unset_refuted.

(** C16.  Refuted: a property may be registered under the name of an earlier shorthand; the shorthand then
    hides it. *)
Theorem C16_exclusive_refuted :
  exists os c (r : registry nat), css_run empty_css os = Some c /\ reg_run empty_registry [RegComponent 0 [(10, 7); (11, 8)]] = Some r /\
  exists n p ps, get_property c n = Some p /\ get_shorthand c n = Some ps /\
    css_resolve r c n = Some (ResShorthand [1]) /\ resolve_property r c n = Some 0.
Proof.
  exists [RegShorthand 5 [RefName 11]; RegProperty 5 (RefName 10)]. eexists. eexists. split; [reflexivity|]. split; [reflexivity|].
  exists 5. eexists. eexists. repeat split; reflexivity.
Qed.
Print Assumptions C16_exclusive_refuted.

(** What holds: names are exclusive if no property reuses an earlier shorthand's name ... *)
Theorem C16_exclusive_partial :
  forall os c, css_run empty_css os = Some c -> no_reuse os ->
  forall n, get_property c n = None \/ get_shorthand c n = None.
Proof. intros os c H Hn. exact (css_exclusive os c H Hn). Qed.
Print Assumptions C16_exclusive_partial.

(** ... and what a name was registered for never changes. *)
Theorem C16_stable :
  forall os os' c c', css_run empty_css os = Some c -> css_run c os' = Some c' ->
  (forall n p, get_property c n = Some p -> get_property c' n = Some p) /\
  (forall n ps, get_shorthand c n = Some ps -> get_shorthand c' n = Some ps) /\
  (forall n p, In (RegProperty n p) os -> get_property c n = Some p) /\
  (forall n ps, In (RegShorthand n ps) os -> get_shorthand c n = Some ps).
Proof.
  intros os os' c c' H H'. destruct (css_run_grows os' c c' H') as [A B]. split; [exact A|]. split; [exact B|].
  assert (G : forall o l1 l2, os = l1 ++ o :: l2 -> exists c1 c2, css_step c1 o = Some c2 /\ css_run c2 l2 = Some c).
  { intros o l1 l2 E. rewrite E, css_run_app in H. destruct (css_run empty_css l1) as [c1|]; [|discriminate]. simpl in H.
    destruct (css_step c1 o) as [c2|] eqn:E2; [|discriminate]. exists c1, c2. split; assumption. }
  split; intros n p Hin; apply in_split in Hin; destruct Hin as (l1 & l2 & E); destruct (G _ l1 l2 E) as (c1 & c2 & S & R);
    destruct (css_run_grows l2 c2 c R) as [C D]; destruct (css_step_grows c1 _ c2 S) as (_ & _ & X).
  - destruct X as (_ & X & _). apply C. exact X.
  - destruct X as (_ & _ & X & _). apply D. exact X.
Qed.
Print Assumptions C16_stable.

Example C16_witness :
  exists c, css_run empty_css [RegProperty 1 (RefName 10); RegShorthand 2 [RefName 10; RefName 11]; RegProperty 3 (RefName 11)] = Some c /\
    css_run c [RegProperty 1 (RefName 11)] = None /\ css_run c [RegShorthand 1 []] = None /\ css_run c [RegShorthand 2 []] = None.
Proof. eexists. split; [reflexivity|]. repeat split; reflexivity. Qed.
Example C16_witness_no_reuse : no_reuse [RegProperty 1 (RefName 10); RegShorthand 2 [RefName 10]; RegProperty 3 (RefName 11)].
Proof.
  intros l1 n p l2 E ps H. destruct l1 as [|x [|y [|z l1]]]; simpl in E; injection E; intros; subst.
  - destruct H.
  - discriminate.
  - destruct H as [H|[H|[]]]; [discriminate|]. injection H as ? ?. lia.
  - destruct l1; discriminate.
Qed.

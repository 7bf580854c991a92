From Verif Require Import Base Tree TreeSpec TreeProofs Vars VarsSpec.
From Coq Require Import Relations.

Section Proofs.
  Context {name token : Type}.
  Variable r : env name token.
  Implicit Types ts def : list (var_or_token name token).

  Lemma inner_sound n ts out0 out :
    resolve_recursively_inner r n ts out0 = Ok out ->
    exists o d, out = out0 ++ o /\ expands r ts o d /\ d < n.
  Proof.
    revert ts out0 out; induction n as [|n IH]; intros ts out0 out H; [discriminate|].
    cbn [resolve_recursively_inner] in H. revert out0 H.
    induction ts as [|[v|t] ts IHts]; intros out0 H.
    - injection H as <-. exists [], 0. rewrite app_nil_r. repeat split; [constructor|lia].
    - destruct (r v) as [def|] eqn:Hv; [|discriminate].
      destruct (resolve_recursively_inner r n def out0) as [o1|e] eqn:E1; [|discriminate].
      apply IH in E1 as (o & d & -> & Hexp & Hd).
      apply IHts in H as (o2 & d2 & -> & Hexp2 & Hd2).
      exists (o ++ o2), (Nat.max (S d) d2). rewrite app_assoc. repeat split; [econstructor; eauto|lia].
    - apply IHts in H as (o & d & -> & Hexp & Hd).
      exists (t :: o), d. rewrite <- app_assoc. repeat split; [constructor; assumption|assumption].
  Qed.

  Lemma inner_complete ts o d : expands r ts o d ->
    forall n out0, d < n -> resolve_recursively_inner r n ts out0 = Ok (out0 ++ o).
  Proof.
    induction 1 as [|t ts out d H IH|v def ts out1 out2 d1 d2 Hv H1 IH1 H2 IH2]; intros n out0 Hn;
      (destruct n as [|n]; [lia|]).
    - simpl. rewrite app_nil_r. reflexivity.
    - specialize (IH (S n) (out0 ++ [t]) Hn). rewrite <- app_assoc in IH. exact IH.
    - cbn [resolve_recursively_inner]. rewrite Hv, (IH1 n out0) by lia.
      specialize (IH2 (S n) (out0 ++ out1) ltac:(lia)). rewrite <- app_assoc in IH2. exact IH2.
  Qed.

  Lemma resolve_iff ts out :
    resolve_recursively r ts = Ok out <-> exists d, expands r ts out d /\ d < 8.
  Proof.
    unfold resolve_recursively, MAX_DEFAULT_RECURSION. split.
    - intros H. apply inner_sound in H as (o & d & -> & He & Hd). exists d. auto.
    - intros (d & He & Hd). rewrite (inner_complete ts out d He 8 []) by lia. reflexivity.
  Qed.

  Lemma expands_det ts o d : expands r ts o d -> forall o' d', expands r ts o' d' -> o = o' /\ d = d'.
  Proof.
    induction 1 as [|t ts out d H IH|v def ts out1 out2 d1 d2 Hv H1 IH1 H2 IH2]; intros o' d' H'; inversion H'; subst.
    - auto.
    - match goal with E : expands r ts _ _ |- _ => apply IH in E as [-> ->] end. auto.
    - match goal with E : r v = Some ?x |- _ => assert (def = x) by congruence; subst x end.
      match goal with E : expands r def _ _, F : expands r ts _ _ |- _ => apply IH1 in E as [-> ->]; apply IH2 in F as [-> ->] end.
      auto.
  Qed.

  Lemma expands_In_var ts o d v : expands r ts o d -> In (Var v) ts ->
    exists def o' d', r v = Some def /\ expands r def o' d' /\ d' < d.
  Proof.
    induction 1 as [|t ts out d H IH|v' def ts out1 out2 d1 d2 Hv H1 IH1 H2 IH2]; intros Hin; simpl in Hin.
    - tauto.
    - destruct Hin as [E|Hin]; [discriminate|auto].
    - destruct Hin as [E|Hin].
      + injection E as ->. exists def, out1, d1. repeat split; auto. lia.
      + destruct (IH2 Hin) as (def' & o' & d' & ? & ? & ?). exists def', o', d'. repeat split; auto. lia.
  Qed.

  (** defined and expandable with depth < d *)
  Definition expandable (d : nat) (v : name) : Prop :=
    exists def o' d', r v = Some def /\ expands r def o' d' /\ d' < d.

  Lemma expandable_step d a b : expandable d a -> mentions_var r a b ->
    exists d', d' < d /\ expandable d' b.
  Proof.
    intros (def & o & d' & Ha & He & Hd) (def' & Ha' & Hb). assert (def = def') by congruence. subst def'.
    destruct (expands_In_var _ _ _ _ He Hb) as (def2 & o2 & d2 & H1 & H2 & H3).
    exists d'. split; [exact Hd|]. exists def2, o2, d2. auto.
  Qed.

  Lemma expandable_rt d a b : expandable d a -> leads_to r a b -> exists d', d' <= d /\ expandable d' b.
  Proof.
    intros H Hl. apply clos_rt_rt1n in Hl. revert d H. induction Hl as [a|a b c Hab Hbc IH]; intros d H.
    - exists d. auto.
    - destruct (expandable_step _ _ _ H Hab) as (d' & Hd & Hb). destruct (IH _ Hb) as (d2 & ? & ?).
      exists d2. split; [lia|auto].
  Qed.

  Lemma expandable_t d a b : expandable d a -> clos_trans name (mentions_var r) a b -> exists d', d' < d /\ expandable d' b.
  Proof.
    intros H Hl. apply clos_trans_t1n in Hl. revert d H. induction Hl as [a b Hab|a b c Hab Hbc IH]; intros d H.
    - eapply expandable_step; eauto.
    - destruct (expandable_step _ _ _ H Hab) as (d' & Hd & Hb). destruct (IH _ Hb) as (d2 & ? & ?).
      exists d2. split; [lia|auto].
  Qed.

  Lemma not_expandable_cyclic d a : cyclic r a -> ~ expandable d a.
  Proof.
    intros Hc. induction d as [d IH] using lt_wf_ind. intros H.
    destruct (expandable_t _ _ _ H Hc) as (d' & Hd & H'). exact (IH d' Hd H').
  Qed.

  Lemma resolve_cyclic ts v c : In (Var v) ts -> leads_to r v c -> cyclic r c ->
    exists e, resolve_recursively r ts = Err e.
  Proof.
    intros Hin Hl Hc. destruct (resolve_recursively r ts) as [out|e] eqn:E; [exfalso|eauto].
    apply resolve_iff in E as (d & He & _).
    pose proof (expands_In_var _ _ _ _ He Hin) as Hv.
    destruct (expandable_rt d v c Hv Hl) as (d' & _ & H'). exact (not_expandable_cyclic _ _ Hc H').
  Qed.

  (** Error causes *)
  Lemma inner_error n ts out0 e :
    resolve_recursively_inner r n ts out0 = Err e ->
    match e with
    | MaxRecursionReached => ref_chain r ts n
    | UnknownVarName u => r u = None /\ (In (Var u) ts \/ exists v, In (Var v) ts /\ leads_to r v u)
    end.
  Proof.
    revert ts out0; induction n as [|n IH]; intros ts out0 H.
    - injection H as <-. constructor.
    - cbn [resolve_recursively_inner] in H.
      assert (Hgen : forall all, (forall x, In x ts -> In x all) ->
        match e with
        | MaxRecursionReached => ref_chain r all (S n)
        | UnknownVarName u => r u = None /\ (In (Var u) all \/ exists v, In (Var v) all /\ leads_to r v u)
        end).
      2: { apply Hgen; auto. }
      intros all. revert out0 H. induction ts as [|[v|t] ts IHts]; intros out0 H Hall.
      + discriminate.
      + assert (Hv : In (Var v) all) by (apply Hall; left; reflexivity).
        destruct (r v) as [def|] eqn:Ev.
        * destruct (resolve_recursively_inner r n def out0) as [o1|e1] eqn:E1.
          -- eapply IHts; [exact H|]. intros; apply Hall; right; assumption.
          -- injection H as ->. apply IH in E1. destruct e as [u|].
             ++ destruct E1 as [Hu Hor]. split; [exact Hu|]. right. exists v. split; [exact Hv|].
                destruct Hor as [Hin|(v' & Hin & Hl)].
                ** apply rt_step. exists def. auto.
                ** eapply rt_trans; [apply rt_step; exists def; eauto|exact Hl].
             ++ econstructor; eauto.
        * injection H as <-. split; [exact Ev|]. left; exact Hv.
      + eapply IHts; [exact H|]. intros; apply Hall; right; assumption.
  Qed.

  Lemma resolve_errors ts e :
    resolve_recursively r ts = Err e ->
    match e with
    | MaxRecursionReached => ref_chain r ts 8
    | UnknownVarName u => r u = None /\ exists v, In (Var v) ts /\ leads_to r v u
    end.
  Proof.
    intros H. apply inner_error in H. destruct e as [u|]; [|exact H].
    destruct H as [Hu [H|H]]; split; auto. exists u. split; [exact H|apply rt_refl].
  Qed.
End Proofs.

Section NearestProofs.
  Context {name token : Type}.
  Variables (w : forest) (vars : nat -> env name token).

  Lemma nearest_chain v e l : ancestor_chain w e l ->
    nearest w vars v e (find_map (fun e' => vars e' v) (e :: l)).
  Proof.
    induction 1 as [e He|e p l He Hc IH].
    - simpl. destruct (vars e v) eqn:E; [constructor; assumption|apply near_root; assumption].
    - cbn [find_map]. destruct (vars e v) eqn:E; [constructor; assumption|].
      eapply near_up; eauto.
  Qed.

  Lemma nearest_det v e o : nearest w vars v e o -> forall o', nearest w vars v e o' -> o = o'.
  Proof.
    induction 1 as [e ts He|e p o He Hp Hn IH|e He Hp]; intros o' H'; inversion H'; subst; try congruence.
    match goal with E : parent w e = Some ?q |- _ => assert (p = q) by congruence; subst q end. auto.
  Qed.

  Lemma get_var_tokens_nearest v e : wf_forest w ->
    exists n0 o, nearest w vars v e o /\ forall n, n0 <= n -> get_var_tokens w vars n e v = Some o.
  Proof.
    intros Hw. destruct (ancestors_correct w e Hw) as (n0 & l & Hl & Hc).
    exists n0, (find_map (fun e' => vars e' v) (e :: l)). split; [apply nearest_chain, Hl|].
    intros n Hn. unfold get_var_tokens, iter_self_and_ancestors. rewrite (Hc n Hn). reflexivity.
  Qed.

  Lemma nearest_local (vars' : nat -> env name token) v e o :
    nearest w vars v e o ->
    (forall a, a = e \/ descendant w a e -> vars' a v = vars a v) ->
    nearest w vars' v e o.
  Proof.
    induction 1 as [e ts He|e p o He Hp Hn IH|e He Hp]; intros Heq.
    - constructor. rewrite Heq; auto.
    - eapply near_up; [rewrite Heq; auto|exact Hp|]. apply IH.
      intros a [->|Ha]; apply Heq; right; [constructor; exact Hp|econstructor 2; eauto].
    - apply near_root; auto. rewrite Heq; auto.
  Qed.
End NearestProofs.

(** Same environment pointwise => same resolution *)
Lemma inner_ext {name token} (r r' : env name token) : (forall v, r v = r' v) ->
  forall n ts out, resolve_recursively_inner r n ts out = resolve_recursively_inner r' n ts out.
Proof.
  intros Heq. induction n as [|n IH]; intros ts out; [reflexivity|].
  cbn [resolve_recursively_inner]. revert out. induction ts as [|[v|t] ts IHts]; intros out; [reflexivity| |].
  - rewrite <- Heq. destruct (r v) as [def|]; [|reflexivity]. rewrite IH.
    destruct (resolve_recursively_inner r' n def out); [apply IHts|reflexivity].
  - apply IHts.
Qed.

(** End to end: resolving at an entity = expansion against the nearest definitions *)
Lemma resolve_at_entity {name token} (w : forest) (vars : nat -> env name token) e : wf_forest w ->
  exists n0, forall n, n0 <= n ->
    (forall v, nearest w vars v e (resolver_at w vars n e v)) /\
    (forall vars' : nat -> env name token,
       (forall a v, a = e \/ descendant w a e -> vars' a v = vars a v) ->
       forall ts, resolve_recursively (resolver_at w vars' n e) ts = resolve_recursively (resolver_at w vars n e) ts).
Proof.
  intros Hw. destruct (ancestors_correct w e Hw) as (n0 & l & Hl & Hc).
  exists n0. intros n Hn.
  assert (Hr : forall vars v, resolver_at w vars n e v = find_map (fun e' => vars e' v) (e :: l) :> option (list (var_or_token name token))).
  { intros vs v. unfold resolver_at, get_var_tokens, iter_self_and_ancestors. rewrite (Hc n Hn). reflexivity. }
  split.
  - intros v. rewrite Hr. apply nearest_chain, Hl.
  - intros vars' Heq ts. apply inner_ext. intros v. rewrite !Hr.
    eapply nearest_det; [apply nearest_chain, Hl|].
    eapply nearest_local; [apply nearest_chain, Hl|]. intros a Ha. apply Heq, Ha.
Qed.

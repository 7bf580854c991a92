(** C05 (last declaration wins), duplicate selectors, custom property collection. *)
From Coq Require Import Ascii NArith.
From Verif Require Import Base Layers LayersSpec Cascade CascadeSpec CascadeProofs.
Local Open Scope list_scope.

Section C05.
  Context {Sel Med VN VT CN Value Dyn TP AP KN KF FF : Type}.
  Variable eval_dynamic : Dyn -> option (list (nat * Value)).
  Variable value_eqb : Value -> Value -> bool.
  Hypothesis value_eqb_eq : forall a b, value_eqb a b = true <-> a = b.
  Notation sheetT := (style_sheet Sel Med VN VT Value Dyn TP AP KN KF FF).
  Notation rulesetT := (ruleset VN VT Value Dyn TP AP).

  (** declarations of a list of rulesets, in order *)
  Definition declarations (rs : list rulesetT) : list (nat * Value) :=
    concat (map (fun r : rulesetT => concat (map (resolve_ruleset_property eval_dynamic) (properties r))) rs).

  Lemma set_if_neq_spec m id v i : set_if_neq value_eqb m id v i = if Nat.eqb i id then v else m i.
  Proof.
    unfold set_if_neq. destruct (value_eqb (m id) v) eqn:E; [|reflexivity].
    apply value_eqb_eq in E. destruct (Nat.eqb_spec i id) as [->|]; congruence.
  Qed.

  (** the value after applying declarations, for one property *)
  Definition last_value (ds : list (nat * Value)) (p : nat) (base : Value) : Value :=
    fold_left (fun acc d => if Nat.eqb p (fst d) then snd d else acc) ds base.

  Lemma apply_declarations_spec ds m p : apply_declarations value_eqb ds m p = last_value ds p (m p).
  Proof.
    unfold apply_declarations, last_value. revert m; induction ds as [|[id v] ds IH]; intros m; simpl; [reflexivity|].
    rewrite IH, set_if_neq_spec. reflexivity.
  Qed.

  Lemma last_value_app a b p base : last_value (a ++ b) p base = last_value b p (last_value a p base).
  Proof. unfold last_value. apply fold_left_app. Qed.

  Lemma get_property_values_spec (s : sheetT) ids inline base out :
    get_property_values eval_dynamic value_eqb s ids inline base = Some out ->
    exists rs, resolve_rulesets s ids inline = Some rs /\ forall p, out p = last_value (declarations rs) p (base p).
  Proof.
    unfold get_property_values. destruct (resolve_rulesets s ids inline) as [rs|]; [|discriminate].
    simpl. intros H; injection H as <-. exists rs. split; [reflexivity|]. intros p.
    revert base; induction rs as [|r rs IH]; intros base; simpl; [reflexivity|].
    rewrite IH. unfold declarations at 2. cbn [map concat]. rewrite last_value_app. fold (declarations rs).
    f_equal. clear IH. revert base. induction (properties r) as [|q ps IHp]; intros base; simpl; [reflexivity|].
    rewrite IHp, last_value_app. f_equal. apply apply_declarations_spec.
  Qed.

  Lemma last_value_none ds p base : (forall v, ~ In (p, v) ds) -> last_value ds p base = base.
  Proof.
    unfold last_value. revert base; induction ds as [|[id v] ds IH]; intros base H; simpl; [reflexivity|].
    destruct (Nat.eqb_spec p id) as [->|].
    - exfalso. apply (H v). left; reflexivity.
    - apply IH. intros v' Hv. apply (H v'). right; exact Hv.
  Qed.

  Lemma last_value_cases ds p base :
    last_declaration ds p (last_value ds p base) \/ ((forall v, ~ In (p, v) ds) /\ last_value ds p base = base).
  Proof.
    induction ds as [|[id v] ds IH] using rev_ind; [right; split; [intros v []|reflexivity]|].
    assert (E1 : forall x, last_value [(id, v)] p x = if Nat.eqb p id then v else x) by reflexivity.
    rewrite last_value_app, E1. destruct (Nat.eqb_spec p id) as [->|Hne].
    - left. exists ds, []. split; [reflexivity|]. intros v' [].
    - destruct IH as [(l1 & l2 & E & Hl2)|[Hn E]].
      + left. exists l1, (l2 ++ [(id, v)]). split; [rewrite E at 1; rewrite <- app_assoc; reflexivity|].
        intros v' Hv. apply in_app_iff in Hv as [Hv|[Hv|[]]]; [eapply Hl2; eauto|congruence].
      + right. split; [|exact E]. intros v' Hv. apply in_app_iff in Hv as [Hv|[Hv|[]]]; [eapply Hn; eauto|congruence].
  Qed.

  Lemma cascade_last_wins (s : sheetT) ids inline base out :
    get_property_values eval_dynamic value_eqb s ids inline base = Some out ->
    exists rs, Forall2 (fun id r => nth_error (s_rulesets s) id = Some r) ids rs /\
      let ds := declarations (rs ++ match inline with Some i => [i] | None => [] end) in
      forall p, last_declaration ds p (out p) \/ ((forall v, ~ In (p, v) ds) /\ out p = base p).
  Proof.
    intros H. apply get_property_values_spec in H as (rs & Hrs & Hout).
    unfold resolve_rulesets in Hrs. destruct (map_opt _ ids) as [rs0|] eqn:E; [|discriminate].
    simpl in Hrs. injection Hrs as <-. exists rs0. split; [apply map_opt_Forall2, E|].
    intros ds p. rewrite Hout. apply last_value_cases.
  Qed.

  Lemma inline_wins (s : sheetT) ids inl base out p v :
    get_property_values eval_dynamic value_eqb s ids (Some inl) base = Some out ->
    last_declaration (declarations [inl]) p v -> out p = v.
  Proof.
    intros H (l1 & l2 & E & Hn). apply get_property_values_spec in H as (rs & Hrs & ->).
    unfold resolve_rulesets in Hrs. destruct (map_opt _ ids) as [rs0|]; [|discriminate].
    simpl in Hrs. injection Hrs as <-.
    assert (Ed : declarations (rs0 ++ [inl]) = declarations rs0 ++ declarations [inl]).
    { unfold declarations. rewrite map_app, concat_app. reflexivity. }
    rewrite Ed, E, app_assoc, last_value_app. simpl.
    change (last_value l2 p (if Nat.eqb p p then v else last_value (declarations rs0 ++ l1) p (base p)) = v).
    rewrite Nat.eqb_refl. apply last_value_none, Hn.
  Qed.

  (** *** duplicates *)
  Lemma map_opt_app {A B} (f : A -> option B) a b :
    map_opt f (a ++ b) = match map_opt f a, map_opt f b with Some x, Some y => Some (x ++ y) | _, _ => None end.
  Proof.
    induction a as [|x a IH]; simpl; [destruct (map_opt f b); reflexivity|].
    rewrite IH. destruct (f x); [|reflexivity]. destruct (map_opt f a); [|reflexivity].
    destruct (map_opt f b); reflexivity.
  Qed.

  Lemma keep_last_In i ids : In i (keep_last ids) <-> In i ids.
  Proof.
    induction ids as [|j ids IH]; simpl; [tauto|]. destruct (in_dec Nat.eq_dec j ids) as [H|H].
    - rewrite IH. split; [auto|]. intros [<-|]; auto.
    - simpl. rewrite IH. tauto.
  Qed.
  Lemma keep_last_NoDup ids : NoDup (keep_last ids).
  Proof.
    induction ids as [|j ids IH]; simpl; [constructor|]. destruct (in_dec Nat.eq_dec j ids) as [H|H]; [exact IH|].
    constructor; [rewrite keep_last_In; exact H|exact IH].
  Qed.

  (** the last declared value in the ruleset named [id] overrides what precedes *)
  Definition step_of (s : sheetT) (p : nat) (id : nat) (acc : Value) : Value :=
    match nth_error (s_rulesets s) id with
    | Some r => last_value (declarations [r]) p acc
    | None => acc
    end.

  Lemma last_value_const_or_id ds p : (exists v, forall b, last_value ds p b = v) \/ (forall b, last_value ds p b = b).
  Proof.
    induction ds as [|[id v] ds IH] using rev_ind; [right; reflexivity|].
    destruct (Nat.eqb_spec p id) as [->|Hne].
    - left. exists v. intros b. rewrite last_value_app. unfold last_value at 1. simpl. rewrite Nat.eqb_refl. reflexivity.
    - assert (E : forall b, last_value (ds ++ [(id, v)]) p b = last_value ds p b).
      { intros b. rewrite last_value_app. unfold last_value at 1. simpl. destruct (Nat.eqb_spec p id); congruence. }
      destruct IH as [[v' H]|H]; [left; exists v'|right]; intros b; rewrite E; apply H.
  Qed.

  Lemma step_of_const_or_id s p id : (exists v, forall b, step_of s p id b = v) \/ (forall b, step_of s p id b = b).
  Proof. unfold step_of. destruct (nth_error _ id); [apply last_value_const_or_id|right; reflexivity]. Qed.

  Lemma fold_steps (s : sheetT) p ids rs base :
    map_opt (fun id => nth_error (s_rulesets s) id) ids = Some rs ->
    last_value (declarations rs) p base = fold_left (fun acc id => step_of s p id acc) ids base.
  Proof.
    revert rs base; induction ids as [|id ids IH]; intros rs base H; simpl in H.
    - injection H as <-. reflexivity.
    - destruct (nth_error (s_rulesets s) id) as [r|] eqn:E; [|discriminate].
      destruct (map_opt _ ids) as [rs'|]; [|discriminate]. injection H as <-.
      simpl. unfold step_of at 2. rewrite E. rewrite <- (IH rs' _ eq_refl).
      rewrite <- last_value_app. f_equal. unfold declarations. simpl. rewrite app_nil_r. reflexivity.
  Qed.

  Lemma fold_keep_last (s : sheetT) p ids base :
    fold_left (fun acc id => step_of s p id acc) (keep_last ids) base =
    fold_left (fun acc id => step_of s p id acc) ids base.
  Proof.
    assert (Hab : forall ids i, In i ids -> forall b,
      fold_left (fun acc id => step_of s p id acc) ids (step_of s p i b) =
      fold_left (fun acc id => step_of s p id acc) ids b).
    { clear ids base. induction ids as [|j ids IH]; intros i Hi b; [destruct Hi|].
      destruct (Nat.eq_dec j i) as [->|Hne].
      - simpl. f_equal. destruct (step_of_const_or_id s p i) as [[v Hv]|Hid]; [rewrite !Hv|rewrite !Hid]; reflexivity.
      - destruct Hi as [|Hi]; [congruence|]. simpl.
        destruct (step_of_const_or_id s p j) as [[v Hv]|Hid]; [rewrite !Hv; reflexivity|rewrite !Hid]. apply IH, Hi. }
    revert base; induction ids as [|j ids IH]; intros base; simpl; [reflexivity|].
    destruct (in_dec Nat.eq_dec j ids) as [H|H].
    - rewrite IH. symmetry. apply Hab, H.
    - simpl. apply IH.
  Qed.

  Lemma map_opt_subset {A B} (f : A -> option B) l l' r :
    map_opt f l = Some r -> (forall x, In x l' -> In x l) -> exists r', map_opt f l' = Some r'.
  Proof.
    intros H Hs. apply map_opt_total. intros x Hx. apply Hs in Hx.
    apply map_opt_Forall2 in H. clear Hs. induction H as [|a b l r Hab H IH]; [destruct Hx|].
    destruct Hx as [->|Hx]; eauto.
  Qed.

  Lemma duplicates_harmless (s : sheetT) ids inline base out :
    get_property_values eval_dynamic value_eqb s ids inline base = Some out ->
    exists out', get_property_values eval_dynamic value_eqb s (keep_last ids) inline base = Some out' /\
                 forall p, out' p = out p.
  Proof.
    intros H. pose proof H as H0. apply get_property_values_spec in H0 as (rs & Hrs & Hout).
    unfold resolve_rulesets in Hrs. destruct (map_opt _ ids) as [rs0|] eqn:E; [|discriminate].
    simpl in Hrs. injection Hrs as <-.
    destruct (map_opt_subset _ ids (keep_last ids) rs0 E (fun x => proj1 (keep_last_In x ids))) as [rs1 E1].
    assert (Hr : resolve_rulesets s (keep_last ids) inline = Some (rs1 ++ match inline with Some i => [i] | None => [] end)).
    { unfold resolve_rulesets. rewrite E1. reflexivity. }
    destruct (get_property_values eval_dynamic value_eqb s (keep_last ids) inline base) as [out'|] eqn:Eo.
    - exists out'. split; [reflexivity|]. intros p. apply get_property_values_spec in Eo as (rs2 & Hrs2 & Hout').
      rewrite Hr in Hrs2. injection Hrs2 as <-. rewrite Hout, Hout'.
      assert (Ed : forall a b, declarations (a ++ b) = declarations a ++ declarations b).
      { intros. unfold declarations. rewrite map_app, concat_app. reflexivity. }
      rewrite !Ed, !last_value_app. f_equal.
      rewrite (fold_steps s p _ _ _ E), (fold_steps s p _ _ _ E1). apply fold_keep_last.
    - unfold get_property_values in Eo. rewrite Hr in Eo. discriminate.
  Qed.

  (** get_vars: the entries seen are those of the rulesets in order *)
  Lemma get_vars_spec (s : sheetT) ids inline vs :
    get_vars s ids inline = Some vs ->
    exists rs, Forall2 (fun id r => nth_error (s_rulesets s) id = Some r) ids rs /\
      vs = concat (map (fun r : rulesetT => vars r) (rs ++ match inline with Some i => [i] | None => [] end)).
  Proof.
    unfold get_vars, resolve_rulesets. destruct (map_opt _ ids) as [rs|] eqn:E; [|discriminate].
    simpl. intros H; injection H as <-. exists rs. split; [apply map_opt_Forall2, E|reflexivity].
  Qed.
End C05.

From Coq Require Import Ascii String.
From Coq Require Import NArith.
From Verif Require Import Base Reflect ReflectSpec ReflectProofs ComponentTable.
Open Scope nat_scope.
Open Scope string_scope.
Open Scope list_scope.

Definition concerns (c : command) (ty : N) : Prop := match c with Insert t _ | Event t | Remove t => t = ty end.
Lemma flush_app q1 q2 e : flush (q1 ++ q2) e = flush q2 (flush q1 e).
Proof. apply fold_left_app. Qed.
Lemma flush_other q : forall e ty, (forall c, In c q -> ~ concerns c ty) -> comps (flush q e) ty = comps e ty.
Proof.
  induction q as [|c q IH]; intros e ty H; [reflexivity|]. cbn [flush fold_left]. change (fold_left run_command q (run_command e c)) with (flush q (run_command e c)).
  rewrite IH by (intros c' Hc'; apply H; right; exact Hc'). specialize (H c (or_introl eq_refl)). destruct c; cbn in *; try reflexivity; apply N.eqb_neq in H; rewrite N.eqb_sym, H; reflexivity.
Qed.
Lemma flush_cong q : forall e e' ty, comps e ty = comps e' ty -> comps (flush q e) ty = comps (flush q e') ty.
Proof.
  induction q as [|c q IH]; intros e e' ty H; [exact H|]. cbn [flush fold_left]. apply (IH (run_command e c) (run_command e' c)). destruct c; cbn; try exact H; destruct (N.eqb ty ty0); auto.
Qed.
Definition events (q : list command) : list N := flat_map (fun c => match c with Event t => [t] | _ => [] end) q.
Lemma flush_seen q : forall e, seen (flush q e) = seen e ++ events q.
Proof.
  induction q as [|c q IH]; intros e; [cbn; rewrite app_nil_r; reflexivity|]. cbn [flush fold_left]. change (fold_left run_command q (run_command e c)) with (flush q (run_command e c)). rewrite IH.
  destruct c; cbn; try reflexivity. rewrite <- app_assoc. reflexivity.
Qed.
Lemma apply_values_mut_local r e v e1 rest q ok : apply_values_mut r e v = (e1, rest, q, ok) ->
  (forall ty, ty <> r_type r -> comps e1 ty = comps e ty) /\ seen e1 = seen e /\ (forall c, In c q -> concerns c (r_type r)).
Proof.
  unfold apply_values_mut, apply_values_ref. destruct (r_mutable r), (comps e (r_type r)); cbn [negb].
  - destruct (internal_apply (r_props r) r0 v false) as ((c' & v') & [[|]|]); intros [= <- <- <- <-]; (split; [intros ty H; apply N.eqb_neq in H; cbn; rewrite H; reflexivity|]); split; try reflexivity; easy.
  - destruct (r_auto r); [destruct (internal_apply (r_props r) (r_default r) v false) as ((c' & v') & [[|]|])|]; intros [= <- <- <- <-]; (split; [reflexivity|]); (split; [reflexivity|]); try easy.
    intros c [<- | [<- | []]]; reflexivity.
  - destruct (internal_apply (r_props r) r0 v false) as ((c' & v') & [[|]|]); intros [= <- <- <- <-]; (split; [reflexivity|]); (split; [reflexivity|]); try easy. intros c [<- | []]. reflexivity.
  - destruct (r_auto r); [destruct (internal_apply (r_props r) (r_default r) v false) as ((c' & v') & [[|]|])|]; intros [= <- <- <- <-]; (split; [reflexivity|]); (split; [reflexivity|]); try easy.
    intros c [<- | [<- | []]]; reflexivity.
Qed.
(** what happens to the component of [r] depends on it alone *)
Lemma apply_values_mut_cong r e e' v e1 rest q ok : apply_values_mut r e v = (e1, rest, q, ok) -> comps e (r_type r) = comps e' (r_type r) ->
  exists e1', apply_values_mut r e' v = (e1', rest, q, ok) /\ comps e1 (r_type r) = comps e1' (r_type r).
Proof.
  intros H E. unfold apply_values_mut, apply_values_ref in *. rewrite <- E. destruct (r_mutable r), (comps e (r_type r)) eqn:Ec0; cbn [negb] in *.
  - destruct (internal_apply (r_props r) r0 v false) as ((c' & v') & [[|]|]); injection H as <- <- <- <-; eexists; (split; [reflexivity|]); cbn; rewrite N.eqb_refl; reflexivity.
  - destruct (r_auto r); [destruct (internal_apply (r_props r) (r_default r) v false) as ((c' & v') & [[|]|])|]; injection H as <- <- <- <-; eexists; split; try reflexivity; congruence.
  - destruct (internal_apply (r_props r) r0 v false) as ((c' & v') & [[|]|]); injection H as <- <- <- <-; eexists; split; try reflexivity; congruence.
  - destruct (r_auto r); [destruct (internal_apply (r_props r) (r_default r) v false) as ((c' & v') & [[|]|])|]; injection H as <- <- <- <-; eexists; split; try reflexivity; congruence.
Qed.
Lemma apply_all_spec regs : forall e vals, NoDup (map r_type regs) -> List.length regs = List.length vals -> forall e' q, apply_all regs e vals = (e', q) ->
  (forall ty, ~ In ty (map r_type regs) -> comps e' ty = comps e ty /\ forall c, In c q -> ~ concerns c ty) /\ seen e' = seen e /\
  (forall i r v, nth_error regs i = Some r -> nth_error vals i = Some v -> forall e1 rest q1 ok, apply_values_mut r e v = (e1, rest, q1, ok) ->
     comps (flush q e') (r_type r) = comps (flush q1 e1) (r_type r) /\ forall c, In c q -> concerns c (r_type r) -> In c q1).
Proof.
  induction regs as [|r regs IH]; intros e [|v vals] Hn Hl e' q E; try discriminate; cbn in E.
  - injection E as <- <-. split; [intros; split; [reflexivity | easy]|]. split; [reflexivity|]. intros [|i] ? ? E; discriminate E.
  - destruct (apply_values_mut r e v) as (((e1 & rest) & q1) & ok) eqn:E1. destruct (apply_all regs e1 vals) as (e2 & q2) eqn:E2. injection E as <- <-.
    inversion Hn as [|? ? Hnr Hn']; subst. injection Hl as Hl. destruct (IH e1 vals Hn' Hl _ _ E2) as (I1 & I2 & I3). destruct (apply_values_mut_local _ _ _ _ _ _ _ E1) as (L1 & L2 & L3).
    split; [|split].
    + intros ty Hty. cbn in Hty. destruct (I1 ty) as (A & B); [tauto|]. split; [rewrite A, L1; [reflexivity | intuition]|]. intros c Hc. apply in_app_or in Hc as [Hc|Hc]; [|apply B; exact Hc].
      intros Hcc. specialize (L3 c Hc). apply Hty. left. destruct c; cbn in *; congruence.
    + congruence.
    + intros [|i] r' v' Er Ev e3 rest3 q3 ok3 E3; cbn in Er, Ev.
      * injection Er as <-. injection Ev as <-. rewrite E1 in E3. injection E3 as <- <- <- <-. destruct (I1 (r_type r) Hnr) as (A & B). split.
        -- rewrite flush_app, flush_other by exact B. apply flush_cong. exact A.
        -- intros c Hc Hcc. apply in_app_or in Hc as [Hc|Hc]; [exact Hc|]. destruct (B c Hc Hcc).
      * assert (r_type r' <> r_type r) as Hne by (intros He; apply Hnr; rewrite <- He; apply in_map; eapply nth_error_In; eauto).
        destruct (apply_values_mut_cong _ _ e1 _ _ _ _ _ E3) as (e3' & E3' & Ec); [symmetry; apply L1; exact Hne|]. destruct (I3 i r' v' Er Ev _ _ _ _ E3') as (A & B). split.
        -- rewrite flush_app. rewrite (flush_cong q2 (flush q1 e2) e2).
           ++ rewrite A. apply flush_cong. symmetry. exact Ec.
           ++ apply flush_other. intros c Hc Hcc. specialize (L3 c Hc). destruct c; cbn in *; congruence.
        -- intros c Hc Hcc. apply in_app_or in Hc as [Hc|Hc]; [|apply B; assumption]. specialize (L3 c Hc). exfalso. destruct c; cbn in *; congruence.
Qed.

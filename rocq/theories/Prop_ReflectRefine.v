(** C96, second part: the components of AutoInsert.v, functions from property ids to values, are what the properties see of
    the components with paths and reflection. *)
From Coq Require Import Ascii String.
From Coq Require Import NArith.
From Verif Require Import Base Reflect ReflectSpec ReflectProofs Prop_Reflect.
From Verif Require AutoInsert.
Open Scope nat_scope.
Open Scope list_scope.

Definition view (ps : list property) (c : rv) (i : nat) : rv :=
  match nth_error ps i with Some p => match get_value p c with Some v => v | None => Opaque 0 0 end | None => Opaque 0 0 end.
Definition value_at (vals : list (option rv)) (i : nat) : option rv := match nth_error vals i with Some o => o | None => None end.

Lemma Forall2_same_length {A B} (R : A -> B -> Prop) l l' : Forall2 R l l' -> List.length l = List.length l'.
Proof. induction 1; cbn; congruence. Qed.
Lemma Forall2_at {A B} (R : A -> B -> Prop) l l' : Forall2 R l l' -> forall i a, nth_error l i = Some a -> exists b, nth_error l' i = Some b /\ R a b.
Proof. induction 1; intros [|i] a E; cbn in *; try discriminate; [injection E as <-; eauto | eauto]. Qed.
Lemma existsb_same {A} (f g : A -> bool) l : (forall x, f x = g x) -> existsb f l = existsb g l.
Proof. intros H. induction l as [|x l IH]; cbn; [reflexivity | rewrite H, IH; reflexivity]. Qed.

Lemma functions_result ids : forall (c : nat -> rv) vals any, NoDup ids ->
  exists f vals', AutoInsert.internal_apply (fun _ _ => true) ids c vals any = (f, vals', Some (any || existsb (fun i => match vals i with Some _ => true | None => false end) ids)) /\
    forall i, f i = if in_dec Nat.eq_dec i ids then match vals i with Some v => v | None => c i end else c i.
Proof.
  induction ids as [|p ids IH]; intros c vals any Hn; cbn [AutoInsert.internal_apply existsb].
  - exists c, vals. rewrite orb_false_r. split; [reflexivity|]. intros i. reflexivity.
  - inversion Hn; subst. destruct (vals p) as [v|] eqn:Ev.
    + destruct (IH (AutoInsert.set_field c p v) (AutoInsert.take vals p) true H2) as (f & vals' & E & Hf). exists f, vals'. rewrite E. split; [cbn; rewrite orb_true_r; reflexivity|].
      intros i. rewrite Hf. unfold AutoInsert.take, AutoInsert.set_field. destruct (in_dec Nat.eq_dec i (p :: ids)) as [Hi|Hi], (in_dec Nat.eq_dec i ids) as [Hj|Hj].
      * destruct (Nat.eqb_spec i p) as [->|]; [contradiction | reflexivity].
      * destruct Hi as [-> | Hi]; [|contradiction]. rewrite Nat.eqb_refl, Ev. reflexivity.
      * exfalso. apply Hi. right. exact Hj.
      * destruct (Nat.eqb_spec i p) as [->|]; [exfalso; apply Hi; left; reflexivity | reflexivity].
    + destruct (IH c vals any H2) as (f & vals' & E & Hf). exists f, vals'. rewrite E. split; [reflexivity|]. intros i. rewrite Hf.
      destruct (in_dec Nat.eq_dec i (p :: ids)) as [Hi|Hi], (in_dec Nat.eq_dec i ids) as [Hj|Hj]; try reflexivity.
      * destruct Hi as [-> | Hi]; [|contradiction]. rewrite Ev. reflexivity.
      * exfalso. apply Hi. right. exact Hj.
Qed.
Theorem C96_fields_as_functions_partial : forall t d c vals, proper t -> declares t d -> typed t c -> Forall2 value_for (properties_of d) vals ->
  Forall (fun p => without_lists (p_type p)) (properties_of d) ->
  exists c' rest f rest' b, internal_apply (properties_of d) c vals false = (c', rest, Some b) /\
    AutoInsert.internal_apply (fun _ _ => true) (seq 0 (List.length (properties_of d))) (view (properties_of d) c) (value_at vals) false = (f, rest', Some b) /\
    forall i, view (properties_of d) c' i = f i.
Proof.
  intros t d c vals Ht Hd Hc Hv Hw. pose proof (declares_sound t d Hd) as Hs. destruct (internal_apply_typed t Ht _ _ Hs Hv c false Hc) as (c' & E & Hc' & Hset).
  destruct (functions_result (seq 0 (List.length (properties_of d))) (view (properties_of d) c) (value_at vals) false (seq_NoDup _ _)) as (f & rest' & Ef & Hf).
  exists c', (map (fun _ => None) vals), f, rest', (some_set vals). split; [exact E|]. split.
  - rewrite Ef. cbn [orb]. do 2 f_equal. unfold some_set.
    assert (List.length (properties_of d) = List.length vals) as -> by (eapply Forall2_same_length; eauto). clear.
    assert (forall n, existsb (fun i => match value_at vals (i - n) with Some _ => true | None => false end) (seq n (List.length vals)) = existsb (fun o => match o with Some _ => true | None => false end) vals) as H.
    { induction vals as [|o vals IH]; intros n; [reflexivity|]. cbn [List.length seq existsb]. rewrite Nat.sub_diag. cbn [value_at nth_error]. f_equal. rewrite <- (IH (S n)).
      clear. assert (forall l, (forall i, In i l -> n < i) -> existsb (fun i => match value_at (o :: vals) (i - n) with Some _ => true | None => false end) l = existsb (fun i => match value_at vals (i - S n) with Some _ => true | None => false end) l) as H.
      { induction l as [|i l IH]; intros Hl; [reflexivity|]. cbn [existsb]. rewrite IH by (intros; apply Hl; right; assumption). f_equal. specialize (Hl i (or_introl eq_refl)). replace (i - n) with (S (i - S n)) by lia. reflexivity. }
      apply H. intros i Hi. apply in_seq in Hi. lia. }
    rewrite <- (H 0). apply existsb_same. intros i. rewrite Nat.sub_0_r. reflexivity.
  - intros i. rewrite Hf. destruct (in_dec Nat.eq_dec i (seq 0 (List.length (properties_of d)))) as [Hi|Hi].
    + apply in_seq in Hi. destruct (nth_error (properties_of d) i) as [p|] eqn:Ep; [|apply nth_error_None in Ep; lia]. destruct (value_at vals i) as [v|] eqn:Ev.
      * assert (given (properties_of d) vals p v) as Hg. { exists i. split; [exact Ep|]. unfold value_at in Ev. destruct (nth_error vals i); [congruence | discriminate]. }
        unfold view. rewrite Ep. rewrite (C96_value_shows_partial t d vals c c' p v Ht Hd Hc Hset Hg); [reflexivity | |].
        -- pose proof (Forall2_at _ _ _ Hv _ _ Ep) as (o & Eo & Hvo). unfold value_at in Ev. rewrite Eo in Ev. subst o. exact Hvo.
        -- rewrite Forall_forall in Hw. apply Hw. eapply nth_error_In; eauto.
      * unfold view. rewrite Ep. rewrite (C96_others_keep t d vals c c' p Hd Hset (nth_error_In _ _ Ep)); [reflexivity|]. intros v (j & Ej & Ejv).
        assert (i = j) as <-. { destruct Hs as (_ & S2). destruct (Nat.eq_dec i j) as [|Hne]; [assumption|]. destruct (S2 i j p p Hne Ep Ej) as (Ha & _). exfalso. apply Ha. exists []. rewrite app_nil_r. reflexivity. }
        unfold value_at in Ev. rewrite Ejv in Ev. discriminate.
    + assert (nth_error (properties_of d) i = None) as En. { apply nth_error_None. destruct (Nat.ltb_spec i (List.length (properties_of d))) as [Hl|Hl]; [exfalso; apply Hi, in_seq; lia | exact Hl]. }
      unfold view. rewrite En. reflexivity.
Qed.
Example C96_as_functions_ex : view (properties_of ex_decl) (ex_comp "Flex" 1 2 [5%N]) 2 = Opaque 1 2.
Proof. reflexivity. Qed.
Print Assumptions C96_fields_as_functions_partial.

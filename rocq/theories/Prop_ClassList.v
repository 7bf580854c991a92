(** C37: class lists behave as ordered sets; C52: attribute lists as maps. *)
From Verif Require Import Base ClassList ClassListSpec.

Section P.
  Context {A V : Type} (eq_dec : forall a b : A, {a = b} + {a <> b}).
  Lemma eqb_spec a b : Bool.reflect (a = b) (eqb eq_dec a b).
  Proof. unfold eqb. destruct (eq_dec a b); constructor; assumption. Qed.
  Lemma contains_in l c : contains eq_dec l c = true <-> In c l.
  Proof.
    unfold contains. rewrite existsb_exists. split.
    - intros (x & H & E). destruct (eqb_spec x c); [congruence|discriminate].
    - intros H. exists c. split; [exact H|]. destruct (eqb_spec c c); [reflexivity|contradiction].
  Qed.
  Lemma remove_position l c i : position (fun x => eqb eq_dec x c) l = Some i ->
    exists l1 l2, l = l1 ++ c :: l2 /\ remove_nth i l = l1 ++ l2 /\ ~ In c l1.
  Proof.
    revert i. induction l as [|x l IH]; intros i H; [discriminate|]. cbn in H. destruct (eqb_spec x c) as [->|N].
    - injection H as <-. exists [], l. cbn. auto.
    - destruct (position (fun x => eqb eq_dec x c) l) as [j|]; [|discriminate]. injection H as <-. destruct (IH j eq_refl) as (l1 & l2 & E1 & E2 & Hn).
      exists (x :: l1), l2. split; [rewrite E1; reflexivity|]. split; [cbn; rewrite E2; reflexivity|]. intros [G|G]; contradiction.
  Qed.
  Lemma position_none l c : position (fun x => eqb eq_dec x c) l = None <-> ~ In c l.
  Proof.
    induction l as [|x l IH]; cbn; [tauto|]. destruct (eqb_spec x c) as [->|N]; [split; [discriminate|intros H; exfalso; apply H; auto]|].
    destruct (position _ l); cbn; [split; [discriminate|]|].
    - intros H. exfalso. apply H. right. destruct IH as [_ IH]. destruct (in_dec eq_dec c l) as [I|I]; [exact I|specialize (IH I); discriminate].
    - split; [|reflexivity]. intros _ [H|H]; [congruence|]. apply IH; [reflexivity|exact H].
  Qed.

  Lemma step_spec l o : NoDup l ->
    NoDup (apply_op eq_dec l o) /\ (forall c, In c (apply_op eq_dec l o) <-> member_step eq_dec c (if in_dec eq_dec c l then true else false) o = true) /\
    filter (fun x => negb (eqb eq_dec x (op_class o))) (apply_op eq_dec l o) = filter (fun x => negb (eqb eq_dec x (op_class o))) l.
  Proof.
    intros N.
    assert (Rm : forall d i, position (fun x => eqb eq_dec x d) l = Some i -> NoDup (remove_nth i l) /\ (forall c, In c (remove_nth i l) <-> In c l /\ c <> d) /\
        filter (fun x => negb (eqb eq_dec x d)) (remove_nth i l) = filter (fun x => negb (eqb eq_dec x d)) l).
    { intros d i E. destruct (remove_position l d i E) as (l1 & l2 & E1 & E2 & Hn). rewrite E2. clear E E2. subst l. pose proof (NoDup_remove _ _ _ N) as [A1 A2].
      split; [exact A1|]. split.
      - intros c. rewrite !in_app_iff. cbn. split; [|intuition congruence]. intros H. split; [tauto|]. intros ->. apply A2. apply in_or_app. exact H.
      - rewrite !filter_app. cbn. destruct (eqb_spec d d); [reflexivity|contradiction]. }
    assert (Ap : forall d, ~ In d l -> NoDup (l ++ [d]) /\ (forall c, In c (l ++ [d]) <-> In c l \/ c = d) /\
        filter (fun x => negb (eqb eq_dec x d)) (l ++ [d]) = filter (fun x => negb (eqb eq_dec x d)) l).
    { intros d Hd. split; [|split].
      - clear Rm. induction l as [|x l IH]; cbn; [repeat constructor; tauto|]. inversion N; subst. constructor; [|apply IH; [assumption|intros G; apply Hd; right; exact G]].
        rewrite in_app_iff. intros [G|[G|[]]]; [contradiction|]. apply Hd. left. congruence.
      - intros c. rewrite in_app_iff. cbn. intuition congruence.
      - rewrite filter_app. cbn. destruct (eqb_spec d d); [apply app_nil_r|contradiction]. }
    destruct o as [d|d|d]; cbn.
    - unfold add. destruct (contains eq_dec l d) eqn:C.
      + apply contains_in in C. split; [exact N|]. split; [|reflexivity]. intros c. destruct (eq_dec d c) as [->|]; [tauto|]. destruct (in_dec eq_dec c l); intuition congruence.
      + assert (Hd : ~ In d l) by (rewrite <- contains_in; congruence). destruct (Ap d Hd) as (B1 & B2 & B3). split; [exact B1|]. split; [|exact B3].
        intros c. rewrite B2. destruct (eq_dec d c) as [->|]; [tauto|]. destruct (in_dec eq_dec c l); intuition congruence.
    - unfold remove. destruct (position _ l) as [i|] eqn:E.
      + destruct (Rm d i E) as (B1 & B2 & B3). split; [exact B1|]. split; [|exact B3]. intros c. rewrite B2.
        destruct (eq_dec d c) as [->|]; [intuition congruence|]. destruct (in_dec eq_dec c l); intuition congruence.
      + apply position_none in E. split; [exact N|]. split; [|reflexivity]. intros c. destruct (eq_dec d c) as [->|]; [intuition congruence|]. destruct (in_dec eq_dec c l); intuition congruence.
    - unfold toggle. destruct (position _ l) as [i|] eqn:E.
      + destruct (Rm d i E) as (B1 & B2 & B3). split; [exact B1|]. split; [|exact B3]. intros c. rewrite B2.
        assert (Hd : In d l) by (destruct (remove_position l d i E) as (l1 & l2 & -> & _); apply in_or_app; cbn; auto).
        destruct (eq_dec d c) as [->|]; destruct (in_dec eq_dec c l); cbn; intuition congruence.
      + apply position_none in E. destruct (Ap d E) as (B1 & B2 & B3). split; [exact B1|]. split; [|exact B3]. intros c. rewrite B2.
        destruct (eq_dec d c) as [->|]; destruct (in_dec eq_dec c l); cbn; intuition congruence.
  Qed.
End P.

(** C37.  After any sequence of operations on a list without duplicates (e.g. the empty one) a class is
    contained iff the operations on it say so, there are no duplicates, and each operation leaves the
    other classes and their order alone. *)
Theorem C37_classes_are_an_ordered_set :
  forall A (eq_dec : forall a b : A, {a = b} + {a <> b}) ops l, NoDup l ->
  let r := fold_left (apply_op eq_dec) ops l in
  NoDup r /\ forall c, contains eq_dec r c = member_after eq_dec c ops (contains eq_dec l c).
Proof.
  intros A eq_dec ops. induction ops as [|o ops IH]; intros l N; [cbn; auto|]. cbn [fold_left]. cbv zeta in *.
  destruct (step_spec eq_dec l o N) as (N1 & M1 & _). destruct (IH _ N1) as [N2 M2]. split; [exact N2|]. intros c. rewrite M2. unfold member_after. cbn [fold_left]. f_equal.
  assert (E : forall l, contains eq_dec l c = if in_dec eq_dec c l then true else false).
  { intros k. destruct (in_dec eq_dec c k) as [I|I]; [apply contains_in; exact I|apply not_true_iff_false; rewrite contains_in; exact I]. }
  rewrite (E l). specialize (M1 c). destruct (member_step eq_dec c (if in_dec eq_dec c l then true else false) o); [apply contains_in; tauto|].
  apply not_true_iff_false. rewrite contains_in. rewrite M1. discriminate.
Qed.
Print Assumptions C37_classes_are_an_ordered_set.

Theorem C37_other_classes_untouched :
  forall A (eq_dec : forall a b : A, {a = b} + {a <> b}) o l, NoDup l ->
  filter (fun x => if eq_dec x (op_class o) then false else true) (apply_op eq_dec l o) = filter (fun x => if eq_dec x (op_class o) then false else true) l.
Proof.
  intros A eq_dec o l N. destruct (step_spec eq_dec l o N) as (_ & _ & H).
  assert (E : forall k, filter (fun x => if eq_dec x (op_class o) then false else true) k = filter (fun x => negb (eqb eq_dec x (op_class o))) k).
  { intros k. apply filter_ext. intros x. unfold eqb. destruct (eq_dec x (op_class o)); reflexivity. }
  rewrite !E. exact H.
Qed.
Print Assumptions C37_other_classes_untouched.

(** C37.  A list built from names has each of them once, in order of first appearance. *)
Theorem C37_new_with_classes :
  forall A (eq_dec : forall a b : A, {a = b} + {a <> b}) cs, new_with_classes eq_dec cs = distinct_in_order eq_dec [] cs.
Proof.
  intros A eq_dec cs. unfold new_with_classes.
  assert (G : forall cs l seen, (forall x, In x l <-> In x seen) -> fold_left (fun l c => add eq_dec c l) cs l = l ++ distinct_in_order eq_dec seen cs).
  { clear. induction cs as [|c cs IH]; intros l seen H; cbn; [symmetry; apply app_nil_r|]. unfold add at 2. destruct (contains eq_dec l c) eqn:C.
    - apply contains_in in C. destruct (in_dec eq_dec c seen) as [I|I]; [apply IH; exact H|exfalso; apply I, H, C].
    - destruct (in_dec eq_dec c seen) as [I|I]; [apply H, (contains_in eq_dec) in I; congruence|].
      rewrite (IH (l ++ [c]) (c :: seen)); [rewrite <- app_assoc; reflexivity|]. intros x. rewrite in_app_iff, H. cbn. tauto. }
  exact (G cs [] [] (fun x => iff_refl _)).
Qed.
Print Assumptions C37_new_with_classes.
Example C37_witness :
  fold_left (apply_op Nat.eq_dec) [Add 1; Toggle 2; Add 1; Toggle 3; Remove 1; Toggle 3; Toggle 1] (new_with_classes Nat.eq_dec [5; 2; 5]) = [5; 1].
Proof. reflexivity. Qed.

(** C52.  After any sequence of operations an attribute has the value it was last given, none if it was
    removed since. *)
Theorem C52_attributes_are_a_map :
  forall A V (eq_dec : forall a b : A, {a = b} + {a <> b}) (ops : list (attr_op A V)) n,
  get_attribute eq_dec (fold_left (apply_attr eq_dec) ops []) n = attr_after eq_dec n ops.
Proof.
  intros A V eq_dec ops n. unfold attr_after.
  assert (F : forall (l : list (A * V)) m, get_attribute eq_dec (filter (fun kv => negb (eqb eq_dec (fst kv) m)) l) n = if eq_dec m n then None else get_attribute eq_dec l n).
  { induction l as [|[k v] l IH]; intros m; cbn; [destruct (eq_dec m n); reflexivity|]. destruct (eqb_spec eq_dec k m) as [->|N]; cbn.
    - rewrite IH. destruct (eq_dec m n); reflexivity.
    - rewrite IH. destruct (eq_dec k n) as [->|]; [destruct (eq_dec m n); [congruence|reflexivity]|reflexivity]. }
  change None with (get_attribute (V := V) eq_dec [] n) at 1. generalize (@nil (A * V)). induction ops as [|o ops IH]; intros l; [reflexivity|]. cbn. rewrite IH. f_equal.
  destruct o as [m v|m]; cbn; [|apply F]. unfold set_attribute. cbn. rewrite F. destruct (eq_dec m n); reflexivity.
Qed.
Print Assumptions C52_attributes_are_a_map.
Example C52_witness :
  map (get_attribute Nat.eq_dec (fold_left (apply_attr Nat.eq_dec) [SetAttr 1 10; SetAttr 2 20; SetAttr 1 11; RemoveAttr 2; SetAttr 3 30] [])) [1; 2; 3] = [Some 11; None; Some 30].
Proof. reflexivity. Qed.

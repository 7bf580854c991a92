From Coq Require Import Ascii String NArith.
From Verif Require Import Base Report ReportSpec ReportProofs LoadErrors LoadErrorsSpec.
Open Scope nat_scope.

(** ** Names *)
Lemma starts_spec w name : starts w name = true <-> map lower (firstn (String.length w) name) = tx w.
Proof. unfold starts. destruct (list_eq_dec N.eq_dec _ _); intuition congruence. Qed.
Lemma len8_small c : (c < 128)%N -> len8 c = 1.
Proof. intros H. unfold len8. apply N.ltb_lt in H. rewrite H. reflexivity. Qed.
Lemma bytes_small s : Forall (fun c => (c < 128)%N) s -> bytes s = length s.
Proof. induction 1 as [|c s Hc _ IH]; [reflexivity|]. rewrite bytes_cons, (len8_small _ Hc), IH. reflexivity. Qed.
Lemma lower_small c : (lower c < 128)%N -> (c < 128)%N.
Proof. unfold lower. destruct (_ && _)%bool; lia. Qed.
Lemma lower_small' c : (c < 128)%N -> (lower c < 128)%N.
Proof. unfold lower. destruct ((65 <=? c) && (c <=? 90))%N eqn:E; [|auto]. apply andb_prop in E as (_ & E). apply N.leb_le in E. lia. Qed.
Definition ascii_word (w : string) : Prop := Forall (fun c => (c < 128)%N) (tx w).
Lemma tx_length w : length (tx w) = String.length w.
Proof. unfold tx. rewrite map_length. induction w; simpl; congruence. Qed.
Lemma small_of_lower s w : map lower s = tx w -> ascii_word w -> Forall (fun c => (c < 128)%N) s.
Proof.
  unfold ascii_word. intros E H. rewrite <- E in H. clear E. induction s as [|c s IH]; [constructor|]. cbn [map] in H. inversion H; subst. constructor; [apply lower_small; assumption | auto].
Qed.
Lemma cut_firstn s n : Forall (fun c => (c < 128)%N) (firstn n s) -> cut n s = firstn n s.
Proof.
  revert n. induction s as [|c s IH]; intros [|n] H; cbn [cut firstn]; try reflexivity. cbn [firstn] in H. inversion H; subst.
  rewrite (len8_small c) by assumption. cbn [Nat.sub]. rewrite Nat.sub_0_r, IH by assumption. reflexivity.
Qed.
Lemma cut_spec s n a b : s = a ++ b -> bytes a = n -> cut n s = a.
Proof.
  revert n s. induction a as [|c a IH]; intros n s -> <-; [destruct b; reflexivity|]. cbn [app]. rewrite bytes_cons. pose proof (len8_pos c).
  unfold cut; fold cut. destruct (len8 c + bytes a) as [|m] eqn:E; [lia|]. rewrite <- E. f_equal. replace (len8 c + bytes a - len8 c) with (bytes a) by lia. apply (IH _ _ eq_refl eq_refl).
Qed.
Lemma eq_ci_spec a b : eq_ci a b = true <-> map lower a = map lower b.
Proof. unfold eq_ci. destruct (list_eq_dec N.eq_dec _ _); intuition congruence. Qed.
(** words of the tables are ASCII and lower case *)
Definition low_word (w : string) : Prop := ascii_word w /\ map lower (tx w) = tx w.
Lemma low_transition : low_word "transition". Proof. split; [repeat constructor|reflexivity]. Qed.
Lemma low_animation : low_word "animation". Proof. split; [repeat constructor|reflexivity]. Qed.
Lemma bytes_word w : low_word w -> bytes (tx w) = String.length w.
Proof. intros (H & _). rewrite bytes_small by exact H. apply tx_length. Qed.

Lemma boundary_false n s : boundary n s = false <-> forall a b, s = a ++ b -> bytes a <> n.
Proof.
  split.
  - intros H a b -> <-. assert (boundary (bytes a) (a ++ b) = true) by (apply boundary_at; eauto). congruence.
  - intros H. destruct (boundary n s) eqn:E; [|reflexivity]. apply boundary_at in E as (a & b & E & E'). exfalso. exact (H _ _ E (eq_sym E')).
Qed.
Lemma prefix_true w name : low_word w -> starts w name = true -> prefix_ci name (tx w) = Some true.
Proof.
  intros Hw H. apply starts_spec in H. pose proof (small_of_lower _ _ H (proj1 Hw)) as Hs.
  assert (length (firstn (String.length w) name) = String.length w) as Hl by (rewrite <- (map_length lower), H; apply tx_length).
  assert (name = firstn (String.length w) name ++ skipn (String.length w) name) as En by (symmetry; apply firstn_skipn).
  assert (bytes (firstn (String.length w) name) = String.length w) as Hb by (rewrite (bytes_small _ Hs); exact Hl).
  unfold prefix_ci. rewrite (bytes_word _ Hw). replace (bytes name <? String.length w) with false by (symmetry; apply Nat.ltb_ge; rewrite En, bytes_app, Hb; lia).
  replace (boundary (String.length w) name) with true by (symmetry; apply boundary_at; eauto).
  rewrite (cut_spec _ _ _ _ En Hb). f_equal. apply eq_ci_spec. rewrite H. symmetry. apply Hw.
Qed.
Lemma prefix_some w name x : low_word w -> prefix_ci name (tx w) = Some x -> starts w name = x.
Proof.
  intros Hw H. destruct (starts w name) eqn:E; [rewrite (prefix_true _ _ Hw E) in H; congruence|].
  destruct x; [|reflexivity]. exfalso. unfold prefix_ci in H. rewrite (bytes_word _ Hw) in H. destruct (_ <? _); [discriminate|]. destruct (boundary _ _) eqn:Eb; [|discriminate].
  injection H as H. apply eq_ci_spec in H. rewrite (proj2 Hw) in H. apply boundary_at in Eb as (a & b & -> & Ea). rewrite (cut_spec _ _ _ _ eq_refl (eq_sym Ea)) in H.
  assert (starts w (a ++ b) = true); [|congruence]. apply starts_spec.
  assert (length a = String.length w) as <- by (rewrite <- (map_length lower), H; apply tx_length). rewrite firstn_app, Nat.sub_diag, firstn_all, app_nil_r. exact H.
Qed.
Lemma prefix_none w name : low_word w -> prefix_ci name (tx w) = None <-> String.length w <= bytes name /\ boundary (String.length w) name = false.
Proof.
  intros Hw. unfold prefix_ci. rewrite (bytes_word _ Hw). destruct (_ <? _) eqn:E.
  - apply Nat.ltb_lt in E. split; [discriminate|]. intros (H & _). lia.
  - apply Nat.ltb_ge in E. destruct (boundary _ _); split; try discriminate; auto. intros (_ & H). discriminate.
Qed.
Lemma custom_spec name : starts_custom name = custom name.
Proof.
  unfold custom, starts, starts_custom. change (String.length "--") with 2. change (tx "--") with [45; 45]%N.
  destruct name as [|a [|b r]]; cbn [firstn map]; try (destruct (list_eq_dec _ _ _); [discriminate|reflexivity]).
  assert (forall x, lower x = 45%N <-> x = 45%N) as Hl.
  { intros x. unfold lower. destruct ((65 <=? x) && (x <=? 90))%N eqn:E; [|tauto]. apply andb_prop in E as (E & _). apply N.leb_le in E. lia. }
  destruct (N.eqb_spec a 45) as [->|Ha]; cbn [andb].
  - destruct (N.eqb_spec b 45) as [->|Hb].
    + destruct (list_eq_dec _ _ _) as [_|n]; [reflexivity|]. exfalso. apply n. reflexivity.
    + destruct (list_eq_dec _ _ _) as [e|_]; [|reflexivity]. apply (f_equal (fun l => nth 1 l 0%N)) in e. cbn [nth] in e. apply (proj1 (Hl _)) in e. contradiction.
  - destruct (list_eq_dec _ _ _) as [e|_]; [|reflexivity]. apply (f_equal (hd 0%N)) in e. cbn [hd] in e. apply (proj1 (Hl _)) in e. contradiction.
Qed.

(** the two tables of the parsers are that of the specification *)
Lemma one_of_low name l : Forall low_word l -> one_of name l = existsb (fun w => if list_eq_dec N.eq_dec (map lower name) (tx w) then true else false) l.
Proof.
  unfold one_of. induction 1 as [|w l Hw _ IH]; [reflexivity|]. cbn [existsb]. rewrite IH. f_equal. unfold eq_ci. rewrite (proj2 Hw). reflexivity.
Qed.
Lemma low_tables : Forall low_word animation_names /\ Forall low_word transition_names.
Proof. split; repeat (apply Forall_cons; [split; [repeat constructor|reflexivity]|]); apply Forall_nil. Qed.
Definition says (name : text) (w : string) : Prop := map lower name = tx w.
Lemma one_of_says name l : Forall low_word l -> one_of name l = true <-> exists w, In w l /\ says name w.
Proof.
  intros Hl. rewrite (one_of_low _ _ Hl), existsb_exists. unfold says. split; intros (w & Hw & H); exists w; (split; [exact Hw|]); destruct (list_eq_dec _ _ _); congruence.
Qed.
Lemma supported_says name : supported name = true <-> exists w, In w (animation_names ++ transition_names) /\ says name w.
Proof.
  unfold supported. rewrite existsb_exists. unfold says. split; intros (w & Hw & H); exists w; (split; [|destruct (list_eq_dec _ _ _); congruence]); cbn in *; tauto.
Qed.
Lemma says_starts name w v : says name w -> String.prefix v w = true -> low_word v -> starts v name = true.
Proof.
  unfold says. intros H Hp Hv. apply starts_spec. rewrite <- firstn_map, H. clear H name Hv. revert w Hp. induction v as [|a v IH]; intros [|b w] Hp; cbn in *; try reflexivity; try discriminate.
  destruct (ascii_dec a b) as [<-|]; [|discriminate]. unfold tx. cbn. f_equal. apply (IH w Hp).
Qed.
Lemma starts_apart name : transitions name = true -> animations name = true -> False.
Proof.
  unfold transitions, animations. intros H1 H2. apply starts_spec in H1, H2. destruct name as [|c r]; [discriminate|].
  apply (f_equal (hd 0%N)) in H1, H2. change (lower c = 116%N) in H1. change (lower c = 97%N) in H2. congruence.
Qed.
Lemma supported_transition name : transitions name = true -> one_of name transition_names = supported name.
Proof.
  intros Ht. destruct (supported name) eqn:E.
  - apply supported_says in E as (w & Hw & E). apply in_app_or in Hw as [Hw|Hw].
    + exfalso. apply (starts_apart name Ht). apply (says_starts _ _ _ E); [|apply low_animation]. cbn in Hw. intuition (subst; reflexivity).
    + apply one_of_says; [apply low_tables|]. eauto.
  - apply not_true_iff_false. intros H. apply one_of_says in H as (w & Hw & H); [|apply low_tables]. assert (supported name = true) by (apply supported_says; exists w; split; [apply in_or_app; right|]; assumption). congruence.
Qed.
Lemma supported_animation name : animations name = true -> one_of name animation_names = supported name.
Proof.
  intros Ht. destruct (supported name) eqn:E.
  - apply supported_says in E as (w & Hw & E). apply in_app_or in Hw as [Hw|Hw].
    + apply one_of_says; [apply low_tables|]. eauto.
    + exfalso. refine (starts_apart name _ Ht). apply (says_starts _ _ _ E); [|apply low_transition]. cbn in Hw. intuition (subst; reflexivity).
  - apply not_true_iff_false. intros H. apply one_of_says in H as (w & Hw & H); [|apply low_tables]. assert (supported name = true) by (apply supported_says; exists w; split; [apply in_or_app; left|]; assumption). congruence.
Qed.
Lemma supported_moves name : supported name = true -> custom name = false /\ (transitions name = true \/ animations name = true).
Proof.
  intros E. apply supported_says in E as (w & Hw & E). split.
  - unfold custom, starts. destruct (list_eq_dec _ _ _) as [e|]; [|reflexivity]. exfalso. unfold says in E. rewrite <- firstn_map, E in e. cbn in Hw. intuition (subst; discriminate).
  - apply in_app_or in Hw as [Hw|Hw].
    + right. apply (says_starts _ _ _ E); [|apply low_animation]. cbn in Hw. intuition (subst; reflexivity).
    + left. apply (says_starts _ _ _ E); [|apply low_transition]. cbn in Hw. intuition (subst; reflexivity).
Qed.

(** when parse_value panics *)
Lemma split_char_spec name : split_char name <-> 10 <= bytes name /\ (boundary 9 name = false \/ boundary 10 name = false).
Proof. unfold split_char. rewrite !boundary_false. reflexivity. Qed.
Lemma parse_value_none id name v : parse_value true id name v = None <-> custom name = false /\ split_char name.
Proof.
  unfold parse_value. rewrite custom_spec, split_char_spec. destruct (custom name) eqn:Ec; [split; [discriminate | intros (H & _); discriminate]|].
  destruct (prefix_ci name (tx "transition")) as [[]|] eqn:Et.
  - split; [discriminate|]. intros (_ & Hl & H). exfalso.
    apply (prefix_some _ _ _ low_transition) in Et. apply starts_spec in Et. change (String.length "transition") with 10 in Et.
    pose proof (small_of_lower _ _ Et (proj1 low_transition)) as Hs.
    assert (forall n, n <= 10 -> boundary n name = true) as Hb.
    { intros n Hn. apply boundary_at. exists (firstn n name), (skipn n name). split; [symmetry; apply firstn_skipn|].
      assert (length (firstn 10 name) = 10) as L by (rewrite <- (map_length lower), Et; reflexivity).
      assert (firstn n (firstn 10 name) = firstn n name) as E by (rewrite firstn_firstn, Nat.min_l by lia; reflexivity).
      rewrite <- E, bytes_small, firstn_length; [lia|].
      apply Forall_forall. intros x Hx. rewrite Forall_forall in Hs. apply Hs. rewrite <- (firstn_skipn n (firstn 10 name)). apply in_or_app. left. exact Hx. }
    destruct H as [H|H]; rewrite (Hb _) in H by lia; discriminate.
  - destruct (prefix_ci name (tx "animation")) as [[]|] eqn:Ea.
    + split; [discriminate|]. intros (_ & Hl & H). exfalso.
      assert (~ (9 <= bytes name /\ boundary 9 name = false)) as H1 by (intros H'; apply (prefix_none _ _ low_animation) in H'; congruence).
      assert (~ (10 <= bytes name /\ boundary 10 name = false)) as H2 by (intros H'; apply (prefix_none _ _ low_transition) in H'; congruence).
      destruct H; [apply H1 | apply H2]; split; auto; lia.
    + split; [discriminate|]. intros (_ & Hl & H). exfalso.
      assert (~ (9 <= bytes name /\ boundary 9 name = false)) as H1 by (intros H'; apply (prefix_none _ _ low_animation) in H'; congruence).
      assert (~ (10 <= bytes name /\ boundary 10 name = false)) as H2 by (intros H'; apply (prefix_none _ _ low_transition) in H'; congruence).
      destruct H; [apply H1 | apply H2]; split; auto; lia.
    + split; [intros _ | reflexivity]. apply (prefix_none _ _ low_animation) in Ea as (Hl & Hb). change (String.length "animation") with 9 in *. split; [reflexivity|]. split; [|left; exact Hb].
      destruct (Nat.eq_dec (bytes name) 9) as [E9|]; [|lia]. exfalso. rewrite <- E9 in Hb.
      assert (boundary (bytes name) name = true); [|congruence]. apply boundary_at. exists name, []. rewrite app_nil_r. auto.
  - split; [intros _ | reflexivity]. apply (prefix_none _ _ low_transition) in Et as (Hl & Hb). change (String.length "transition") with 10 in *. auto.
Qed.

From Coq Require Import String NArith.
From Verif Require Import Base Matching Specificity SpecificitySpec MatchingProofs.
Open Scope list_scope.

(** ** Ten bits each *)
Lemma lor_add (a b k : N) : (b < 2 ^ k)%N -> N.lor (N.shiftl a k) b = (a * 2 ^ k + b)%N.
Proof.
  intros H. rewrite <- N.shiftl_mul_pow2. assert (N.land (N.shiftl a k) b = 0%N) as L.
  { apply N.bits_inj. intros i. rewrite N.land_spec, N.bits_0. destruct (N.ltb_spec i k) as [Hi|Hi].
    - rewrite N.shiftl_spec_low by exact Hi. reflexivity.
    - rewrite <- (N.mod_small b (2 ^ k)) by exact H. rewrite N.mod_pow2_bits_high by exact Hi. apply andb_false_r. }
  rewrite N.add_nocarry_lxor by exact L. symmetry. apply N.lxor_lor. exact L.
Qed.
Definition m (n : N) : N := N.min n 1023.
Definition num (a b c : N) : N := (a * 1048576 + b * 1024 + c)%N.
Lemma pack_num c : pack c = num (m (ids c)) (m (classes c)) (m (elements c)).
Proof.
  unfold pack. change max_10bit with 1023%N. fold (m (ids c)) (m (classes c)) (m (elements c)).
  assert (forall n, m n < 1024)%N as L by (intros n; unfold m; lia). pose proof (L (ids c)). pose proof (L (classes c)). pose proof (L (elements c)).
  rewrite (lor_add (m (ids c)) (N.shiftl (m (classes c)) 10) 20) by (rewrite N.shiftl_mul_pow2; change (2 ^ 10)%N with 1024%N; change (2 ^ 20)%N with 1048576%N; lia).
  rewrite N.shiftl_mul_pow2. change (2 ^ 20)%N with 1048576%N. change (2 ^ 10)%N with 1024%N.
  replace (m (ids c) * 1048576 + m (classes c) * 1024)%N with ((m (ids c) * 1024 + m (classes c)) * 2 ^ 10)%N by (change (2 ^ 10)%N with 1024%N; lia).
  rewrite <- N.shiftl_mul_pow2, lor_add by (change (2 ^ 10)%N with 1024%N; lia). change (2 ^ 10)%N with 1024%N. unfold num. lia.
Qed.
Lemma unpack_num a b c : (a < 1024)%N -> (b < 1024)%N -> (c < 1024)%N -> unpack (num a b c) = mk_counts a b c.
Proof.
  intros Ha Hb Hc. unfold unpack. change max_10bit with (N.ones 10). rewrite !N.land_ones, !N.shiftr_div_pow2. change (2 ^ 20)%N with 1048576%N. change (2 ^ 10)%N with 1024%N. unfold num. f_equal.
  - symmetry. apply (N.div_unique _ _ _ (b * 1024 + c)); lia.
  - replace ((a * 1048576 + b * 1024 + c) / 1024)%N with (a * 1024 + b)%N by (apply (N.div_unique _ _ _ c); lia). symmetry. apply (N.mod_unique _ _ a); lia.
  - symmetry. apply (N.mod_unique _ _ (a * 1024 + b)); lia.
Qed.

(** ** The counters follow CSS as far as ten bits go *)
Definition follows (c : counts) (x : abc) : Prop :=
  match x with (a, b, e) =>
    m (ids c) = m (N.of_nat a) /\
    ((N.of_nat a < 1024)%N -> m (classes c) = m (N.of_nat b) /\ ((N.of_nat b < 1024)%N -> m (elements c) = m (N.of_nat e)))
  end.
Ltac cases := repeat match goal with
  | H : _ /\ _ |- _ => destruct H
  | H : (N.of_nat ?a < 1024)%N -> _ |- _ => let L := fresh "L" in destruct (N.lt_ge_cases (N.of_nat a) 1024) as [L|L]; [specialize (H L)|clear H]
  end.
Ltac solve_cases := cases; (split; [lia|]); intros; (split; [lia|]); intros; lia.
Lemma m_add i j a b : m i = m (N.of_nat a) -> m j = m (N.of_nat b) -> m (i + j) = m (N.of_nat (a + b)).
Proof. unfold m. lia. Qed.
Lemma small_l a b : (N.of_nat (a + b) < 1024)%N -> (N.of_nat a < 1024)%N. Proof. lia. Qed.
Lemma small_r a b : (N.of_nat (a + b) < 1024)%N -> (N.of_nat b < 1024)%N. Proof. lia. Qed.
Lemma follows_add c d x y : follows c x -> follows d y -> follows (plus c d) (add x y).
Proof.
  destruct x as [[a b] e], y as [[a' b'] e']. intros [H1 H2] [H3 H4]. split; [apply m_add; assumption|]. intros H.
  destruct (H2 (small_l _ _ H)) as [H5 H6], (H4 (small_r _ _ H)) as [H7 H8]. split; [apply m_add; assumption|]. intros H'.
  apply m_add; [exact (H6 (small_l _ _ H'))|exact (H8 (small_r _ _ H'))].
Qed.
Lemma follows_small c a b e : ids c = N.of_nat a -> classes c = N.of_nat b -> elements c = N.of_nat e -> follows c (a, b, e).
Proof. intros H1 H2 H3. unfold follows. rewrite H1, H2, H3. auto. Qed.
Lemma m_lt n : (m n < 1024)%N. Proof. unfold m. lia. Qed.
Lemma follows_unpack c x : follows c x -> follows (unpack (pack c)) x.
Proof. intros H. rewrite pack_num, unpack_num by apply m_lt. destruct x as [[a b] e]. unfold follows, m in *. cbn [ids classes elements]. solve_cases. Qed.
(** comparing what follows *)
Lemma num_lead p1 p2 p3 q1 q2 q3 : (p2 < 1024 -> p3 < 1024 -> p1 < q1 -> num p1 p2 p3 <= num q1 q2 q3)%N.
Proof. unfold num. lia. Qed.
Lemma num_second p p2 p3 q2 q3 : (p3 < 1024 -> p2 < q2 -> num p p2 p3 <= num p q2 q3)%N.
Proof. unfold num. lia. Qed.
Lemma num_third p q p3 q3 : (p3 <= q3 -> num p q p3 <= num p q q3)%N.
Proof. unfold num. lia. Qed.
Lemma m_le a b : a <= b -> (m (N.of_nat a) <= m (N.of_nat b))%N.
Proof. unfold m. lia. Qed.
Lemma m_eq a b : a <= b -> (N.of_nat b < 1024)%N -> m (N.of_nat a) = m (N.of_nat b) -> a = b.
Proof. unfold m. lia. Qed.
Lemma m_small n : (n < 1024)%N -> m n = n. Proof. unfold m. lia. Qed.
Lemma eq_of_le (p q : N) : (p <= q)%N -> ~ (p < q)%N -> p = q. Proof. lia. Qed.
Lemma follows_above c d x y : follows c x -> follows d y -> ~ below y x -> (pack c <= pack d)%N \/ follows (unpack (pack c)) y.
Proof.
  intros Hc Hd Hb. destruct (N.le_gt_cases (pack c) (pack d)) as [L|L]; [left; exact L|right].
  rewrite (pack_num c), unpack_num by apply m_lt. rewrite !pack_num in L. apply N.lt_nge in L.
  destruct x as [[a b] e], y as [[a' b'] e']. destruct Hc as [C1 C2], Hd as [D1 D2].
  assert (a <= a') as La by (destruct (le_lt_dec a a'); [assumption|exfalso; apply Hb; left; assumption]).
  assert (m (ids c) = m (ids d)) as E1.
  { apply eq_of_le; [rewrite C1, D1; apply m_le; exact La|]. intros H. apply L. apply num_lead; [apply m_lt|apply m_lt|exact H]. }
  unfold follows. cbn [ids classes elements]. rewrite !(m_small (m _)) by apply m_lt. split; [congruence|]. intros Ha.
  assert (a = a') as <- by (apply m_eq; [exact La|exact Ha|congruence]). destruct (C2 Ha) as [C3 C4], (D2 Ha) as [D3 D4].
  assert (b <= b') as Lb by (destruct (le_lt_dec b b'); [assumption|exfalso; apply Hb; right; auto]).
  assert (m (classes c) = m (classes d)) as E2.
  { apply eq_of_le; [rewrite C3, D3; apply m_le; exact Lb|]. intros H. apply L. rewrite E1. apply num_second; [apply m_lt|exact H]. }
  split; [congruence|]. intros Hb'.
  assert (b = b') as <- by (apply m_eq; [exact Lb|exact Hb'|congruence]).
  assert (e <= e') as Le by (destruct (le_lt_dec e e'); [assumption|exfalso; apply Hb; right; auto]).
  exfalso. apply L. rewrite E1, E2. apply num_third. rewrite (C4 Hb'), (D4 Hb'). apply m_le. exact Le.
Qed.
Lemma below_asym x y : below x y -> ~ below y x.
Proof. destruct x as [[a b] c], y as [[a' b'] c']. unfold below. lia. Qed.
Lemma pack_unpack c : pack (unpack (pack c)) = pack c.
Proof. rewrite (pack_num c) at 1. rewrite unpack_num by apply m_lt. rewrite pack_num. cbn [ids classes elements]. rewrite pack_num. unfold m, num. lia. Qed.
Lemma list_max_packed {A} (f : A -> counts) l : list_max f l = pack (unpack (list_max f l)).
Proof.
  induction l as [|x l IH]; cbn; [reflexivity|]. destruct (N.max_spec (pack (f x)) (list_max f l)) as [[_ ->]|[_ ->]]; [exact IH|rewrite pack_unpack; reflexivity].
Qed.

Lemma most_specific_follows l : Forall (fun s => forall x, counted_complex s x -> follows (complex_counts s) x) l ->
  forall x, most_specific l x -> follows (unpack (list_max complex_counts l)) x.
Proof.
  induction l as [|s l IH]; intros F x H; inversion H; subst.
  - apply follows_small; reflexivity.
  - inversion F as [|? ? F1 F2]; subst. specialize (F1 _ H2). specialize (IH F2 _ H3). cbn. rewrite list_max_packed.
    destruct (follows_above _ _ _ _ IH F1 H5) as [L|L].
    + rewrite N.max_l by exact L. apply follows_unpack. exact F1.
    + destruct (N.max_spec (pack (complex_counts s)) (pack (unpack (list_max complex_counts l)))) as [[_ ->]|[_ ->]]; [exact L|apply follows_unpack; exact F1].
  - inversion F as [|? ? F1 F2]; subst. specialize (F1 _ H2). specialize (IH F2 _ H3). cbn. rewrite list_max_packed.
    destruct (follows_above _ _ _ _ F1 IH (below_asym _ _ H5)) as [L|L].
    + rewrite N.max_r by exact L. apply follows_unpack. exact IH.
    + destruct (N.max_spec (pack (complex_counts s)) (pack (unpack (list_max complex_counts l)))) as [[_ ->]|[_ ->]]; [apply follows_unpack; exact IH|exact L].
Qed.
Lemma compound_follows c : Forall (fun s => forall x, counted_simple s x -> follows (simple_counts s) x) c ->
  forall x, counted_compound c x -> follows (sum simple_counts c) x.
Proof.
  induction c as [|s c IH]; intros F x H; inversion H; subst.
  - apply follows_small; reflexivity.
  - inversion F; subst. cbn. apply follows_add; auto.
Qed.
Lemma counts_follow s : forall x, counted_complex s x -> follows (complex_counts s) x.
Proof.
  revert s. refine (complex_all (fun s => forall x, counted_complex s x -> follows (complex_counts s) x) (fun s => forall x, counted_simple s x -> follows (simple_counts s) x) _ _ _ _ _ _ _).
  - intros c F x H. inversion H; subst. apply compound_follows; assumption.
  - intros c k r F IH x H. inversion H; subst. cbn. apply follows_add; [apply compound_follows; assumption|auto].
  - intros e a b l F x H. inversion H; subst. cbn. apply follows_add; [apply most_specific_follows; assumption|]. apply follows_small; reflexivity.
  - intros [|] l F x H; inversion H; subst; [apply follows_small; reflexivity|apply most_specific_follows; assumption].
  - intros l F x H. inversion H; subst. apply most_specific_follows; assumption.
  - intros l F x H. inversion H; subst. apply most_specific_follows; assumption.
  - intros x. destruct x; trivial; intros y H; inversion H; subst; apply follows_small; reflexivity.
Qed.

(** ** Every selector has one count *)
Lemma below_dec x y : {below x y} + {~ below x y}.
Proof.
  destruct x as [[a b] c], y as [[a' b'] c']. cbn. destruct (lt_eq_lt_dec a a') as [[H|H]|H]; [left; lia| |right; lia].
  destruct (lt_eq_lt_dec b b') as [[H'|H']|H']; [left; lia| |right; lia]. destruct (lt_dec c c'); [left|right]; lia.
Defined.
Lemma counted_total s : exists x, counted_complex s x /\ forall y, counted_complex s y -> y = x.
Proof.
  assert (ML : forall l, Forall (fun s => exists x, counted_complex s x /\ forall y, counted_complex s y -> y = x) l -> exists x, most_specific l x /\ forall y, most_specific l y -> y = x).
  { induction l as [|a l IH]; intros F.
    - exists (0, 0, 0). split; [constructor|]. intros y H. inversion H; reflexivity.
    - inversion F as [|? ? [x [Hx Ux]] F2]; subst. destruct (IH F2) as [z [Hz Uz]]. destruct (below_dec x z) as [B|B].
      + exists z. split; [eapply ms_old; eauto|]. intros y H. inversion H; subst; auto. apply Ux in H2. apply Uz in H3. subst. contradiction.
      + exists x. split; [eapply ms_new; eauto|]. intros y H. inversion H; subst; auto. apply Ux in H2. apply Uz in H3. subst. contradiction. }
  assert (CL : forall c, Forall (fun s => exists x, counted_simple s x /\ forall y, counted_simple s y -> y = x) c -> exists x, counted_compound c x /\ forall y, counted_compound c y -> y = x).
  { induction c as [|a l IH]; intros F.
    - exists (0, 0, 0). split; [constructor|]. intros y H. inversion H; reflexivity.
    - inversion F as [|? ? [x [Hx Ux]] F2]; subst. destruct (IH F2) as [z [Hz Uz]]. exists (add x z). split; [constructor; assumption|]. intros y H. inversion H; subst. apply Ux in H2. apply Uz in H4. subst. reflexivity. }
  revert s. refine (complex_all (fun s => exists x, counted_complex s x /\ forall y, counted_complex s y -> y = x) (fun s => exists x, counted_simple s x /\ forall y, counted_simple s y -> y = x) _ _ _ _ _ _ _).
  - intros c F. destruct (CL c F) as [x [Hx Ux]]. exists x. split; [constructor; exact Hx|]. intros y H. inversion H; subst. auto.
  - intros c k r F [z [Hz Uz]]. destruct (CL c F) as [x [Hx Ux]]. exists (add x z). split; [constructor; assumption|]. intros y H. inversion H; subst. match goal with M : counted_compound _ _ |- _ => apply Ux in M end. match goal with M : counted_complex r _ |- _ => apply Uz in M end. subst. reflexivity.
  - intros e a b l F. destruct (ML l F) as [x [Hx Ux]]. exists (add x (0, 1, 0)). split; [constructor; exact Hx|]. intros y H. inversion H; subst. match goal with M : most_specific _ _ |- _ => apply Ux in M end. subst. reflexivity.
  - intros [|] l F; [exists (0, 0, 0); split; [constructor|intros y H; inversion H; reflexivity]|]. destruct (ML l F) as [x [Hx Ux]]. exists x. split; [constructor; exact Hx|]. intros y H. inversion H; subst. auto.
  - intros l F. destruct (ML l F) as [x [Hx Ux]]. exists x. split; [constructor; exact Hx|]. intros y H. inversion H; subst. auto.
  - intros l F. destruct (ML l F) as [x [Hx Ux]]. exists x. split; [constructor; exact Hx|]. intros y H. inversion H; subst. auto.
  - intros x. destruct x; trivial; (eexists; split; [constructor|intros y H; inversion H; reflexivity]).
Qed.

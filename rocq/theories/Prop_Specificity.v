(** C102: specificity. *)
From Coq Require Import String NArith.
From Verif Require Import Base Matching MatchingSpec Specificity SpecificitySpec SpecificityProofs.
Open Scope string_scope.
Open Scope list_scope.

(** C102.  Every selector has one CSS specificity, and the numbers by which rules are sorted compare like it, for selectors with
    fewer than 1024 ids, classes and types each. *)
Theorem C102_specificity : forall s u, exists x y,
  (counted_complex s x /\ forall x', counted_complex s x' -> x' = x) /\ (counted_complex u y /\ forall y', counted_complex u y' -> y' = y) /\
  (countable x -> countable y -> ((specificity s < specificity u)%N <-> below x y) /\ (specificity s = specificity u <-> x = y)).
Proof.
  intros s u. destruct (counted_total s) as [x [Hx Ux]], (counted_total u) as [y [Hy Uy]]. exists x, y. split; [auto|]. split; [auto|]. intros Cx Cy.
  pose proof (counts_follow s x Hx) as Fx. pose proof (counts_follow u y Hy) as Fy. unfold specificity. rewrite !pack_num.
  destruct x as [[a b] c], y as [[a' b'] c']. destruct Cx as (A & B & C), Cy as (A' & B' & C'). destruct Fx as [E1 F1], Fy as [E2 F2].
  destruct (F1 ltac:(lia)) as [E3 F3]. specialize (F3 ltac:(lia)). destruct (F2 ltac:(lia)) as [E4 F4]. specialize (F4 ltac:(lia)). rewrite E1, E2, E3, E4, F3, F4. unfold m, num, below.
  rewrite !N.min_l by lia. split; [split; intros; lia|]. split; [intros H; repeat f_equal; lia|congruence].
Qed.
Print Assumptions C102_specificity.

(** Larger counts are clamped, as CSS asks for, and do not overflow: no number of classes counts as an id, and no number of types as
    a class. *)
Theorem C102_no_overflow : forall s u a b c a' b' c', counted_complex s (a, b, c) -> counted_complex u (a', b', c') ->
  (a < 1023 -> a < a' -> (specificity s < specificity u)%N) /\
  (b < 1023 -> a = a' -> b < b' -> a < 1024 -> (specificity s < specificity u)%N) /\ (specificity s < 2 ^ 30)%N.
Proof.
  intros s u a b c a' b' c' Hs Hu. pose proof (counts_follow s _ Hs) as [E1 F1]. pose proof (counts_follow u _ Hu) as [E2 F2].
  unfold specificity. rewrite !pack_num. pose proof (m_lt (classes (complex_counts s))) as L1. pose proof (m_lt (elements (complex_counts s))) as L2. pose proof (m_lt (ids (complex_counts s))) as L3.
  unfold num. split; [|split; [|change (2 ^ 30)%N with 1073741824%N; lia]].
  - intros A L. rewrite E1, E2. unfold m in *. lia.
  - intros B -> L A. destruct (F1 ltac:(lia)) as [E3 _], (F2 ltac:(lia)) as [E4 _]. rewrite E1, E2, E3, E4. unfold m in *. lia.
Qed.
Print Assumptions C102_no_overflow.

(** ** Non-vacuity: the examples of CSS Selectors 4, 17 *)
(** [ul ol li.red], [li.red.level], [#x34y], [:is(em, #foo)], [.qux:where(em, #foo#bar#baz)], [:nth-child(even of li, .item)],
    [:not(em, strong#foo)] *)
Definition ul_ol_li_red := Then [LocalName "li"; Class "red"] Descendant (Then [LocalName "ol"] Descendant (One [LocalName "ul"])).
Definition li_red_level := One [LocalName "li"; Class "red"; Class "level"].
Definition x34y := One [Id "x34y"].
Definition is_em_foo := One [Is false [One [LocalName "em"]; One [Id "foo"]]].
Definition qux_where := One [Class "qux"; Is true [One [LocalName "em"]; One [Id "foo"; Id "bar"; Id "baz"]]].
Definition nth_of_item := One [NthOf false 2 0 [One [LocalName "li"]; One [Class "item"]]].
Definition not_strong_foo := One [Not [One [LocalName "em"]; One [LocalName "strong"; Id "foo"]]].
Example C102_example :
  counted_complex ul_ol_li_red (0, 1, 3) /\ counted_complex li_red_level (0, 2, 1) /\ counted_complex x34y (1, 0, 0) /\ counted_complex is_em_foo (1, 0, 0) /\
  counted_complex qux_where (0, 1, 0) /\ counted_complex nth_of_item (0, 2, 0) /\ counted_complex not_strong_foo (1, 0, 1).
Proof.
  repeat split.
  - apply (cc_then _ _ _ (0, 1, 1) (0, 0, 2)); [|apply (cc_then _ _ _ (0, 0, 1) (0, 0, 1))]; try constructor; repeat apply (cp_cons _ _ (0, 0, 1) (0, 0, 0)) || apply (cp_cons _ _ (0, 0, 1) (0, 1, 0)) || apply (cp_cons _ _ (0, 1, 0) (0, 0, 0)) || constructor.
  - constructor. apply (cp_cons _ _ (0, 0, 1) (0, 2, 0)); [constructor|]. apply (cp_cons _ _ (0, 1, 0) (0, 1, 0)); [constructor|]. apply (cp_cons _ _ (0, 1, 0) (0, 0, 0)); constructor.
  - constructor. apply (cp_cons _ _ (1, 0, 0) (0, 0, 0)); constructor.
  - constructor. apply (cp_cons _ _ (1, 0, 0) (0, 0, 0)); [|constructor]. constructor. apply (ms_old _ _ (0, 0, 1)); [|apply (ms_new _ _ _ (0, 0, 0))|cbn; lia].
    + constructor. apply (cp_cons _ _ (0, 0, 1) (0, 0, 0)); constructor.
    + constructor. apply (cp_cons _ _ (1, 0, 0) (0, 0, 0)); constructor.
    + constructor.
    + cbn; lia.
  - constructor. apply (cp_cons _ _ (0, 1, 0) (0, 0, 0)); [constructor|]. apply (cp_cons _ _ (0, 0, 0) (0, 0, 0)); constructor.
  - constructor. apply (cp_cons _ _ (0, 2, 0) (0, 0, 0)); [|constructor]. apply (cs_nth_of _ _ _ _ (0, 1, 0)). apply (ms_old _ _ (0, 0, 1)); [|apply (ms_new _ _ _ (0, 0, 0))|cbn; lia].
    + constructor. apply (cp_cons _ _ (0, 0, 1) (0, 0, 0)); constructor.
    + constructor. apply (cp_cons _ _ (0, 1, 0) (0, 0, 0)); constructor.
    + constructor.
    + cbn; lia.
  - constructor. apply (cp_cons _ _ (1, 0, 1) (0, 0, 0)); [|constructor]. constructor. apply (ms_old _ _ (0, 0, 1)); [|apply (ms_new _ _ _ (0, 0, 0))|cbn; lia].
    + constructor. apply (cp_cons _ _ (0, 0, 1) (0, 0, 0)); constructor.
    + constructor. apply (cp_cons _ _ (0, 0, 1) (1, 0, 0)); [constructor|]. apply (cp_cons _ _ (1, 0, 0) (0, 0, 0)); constructor.
    + constructor.
    + cbn; lia.
Qed.
Example C102_example_numbers : map specificity [ul_ol_li_red; li_red_level; x34y; is_em_foo; qux_where; nth_of_item; not_strong_foo] =
  [1027; 2049; 1048576; 1048576; 1024; 2048; 1048577]%N.
Proof. vm_compute. reflexivity. Qed.

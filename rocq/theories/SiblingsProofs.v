From Coq Require Import Permutation.
From Verif Require Import Base Tree TreeSpec TreeProofs Siblings SiblingsSpec.

(** ** recalculate_with *)
Lemma nth_last {A} (l1 : list A) x l2 : nth_error (l1 ++ x :: l2) (length l1) = Some x.
Proof. rewrite nth_error_app2 by lia. rewrite Nat.sub_diag. reflexivity. Qed.

Lemma recalculate_neighbours e l s : recalculate_with e l = Some s -> neighbours l e s.
Proof.
  unfold recalculate_with. destruct (position (Nat.eqb e) l) as [i|] eqn:E; [|discriminate]. intros H. injection H as <-.
  apply position_Some in E. destruct E as (l1 & x & l2 & -> & Hi & Hx & _). apply Nat.eqb_eq in Hx. subst x i.
  exists l1, l2. split; [reflexivity|]. cbn [previous_sibling next_sibling]. split.
  - destruct l1 as [|y l1 _] using rev_ind; [reflexivity|]. rewrite app_length. cbn. replace (length l1 + 1) with (S (length l1)) by lia. cbn.
    rewrite Nat.sub_0_r, map_app. cbn. rewrite last_last, <- app_assoc. cbn. apply nth_last.
  - rewrite app_length. destruct l2 as [|z l2]; cbn [length hd_error].
    + destruct (Nat.ltb_spec (length l1) (length l1 + 1 - 1)); [lia|reflexivity].
    + destruct (Nat.ltb_spec (length l1) (length l1 + S (S (length l2)) - 1)); [|lia].
      rewrite nth_error_app2 by lia. replace (length l1 + 1 - length l1) with 1 by lia. reflexivity.
Qed.

Lemma recalculate_some e l : In e l -> exists s, recalculate_with e l = Some s.
Proof.
  intros H. unfold recalculate_with. destruct (position (Nat.eqb e) l) as [i|] eqn:E; [eauto|].
  exfalso. revert E. induction l as [|x l IH]; [destruct H|]. cbn. destruct (Nat.eqb_spec e x); [discriminate|].
  destruct H as [H|H]; [congruence|]. destruct (position (Nat.eqb e) l); [discriminate|]. intros _. apply (IH H eq_refl).
Qed.

Lemma existsb_in x l : existsb (Nat.eqb x) l = true <-> In x l.
Proof. rewrite existsb_exists. split; [intros (y & H & E); apply Nat.eqb_eq in E; congruence|intros H; exists x; split; [exact H|apply Nat.eqb_refl]]. Qed.

Section W.
  Variable w : forest.
  Hypothesis W : wf_forest w.

  (** the links of [e] are right if it has a parent *)
  Definition right_link (e : nat) (x : siblings) : Prop := forall p, parent w e = Some p -> neighbours (children w p) e x.

  Lemma recalc_right e p : parent w e = Some p -> exists x, recalculate_with e (iter_ui_siblings w e) = Some x /\ right_link e x.
  Proof.
    intros P. unfold iter_ui_siblings. rewrite P. destruct (recalculate_some e (children w p)) as (x & Hx); [apply (wf_agree _ W); exact P|].
    exists x. split; [exact Hx|]. intros q Hq. rewrite P in Hq. injection Hq as <-. apply recalculate_neighbours. exact Hx.
  Qed.

  Lemma first_loop_spec added changed has : forall s, exists s', first_loop w added changed has s = Some s' /\
    forall e, (link s' e = link s e \/ right_link e (link s' e)) /\
              (parent w e = None -> link s' e = link s e) /\
              (In e has -> forall p, parent w e = Some p -> added e = true \/ changed p = true -> right_link e (link s' e)).
  Proof.
    induction has as [|x has IH]; intros s; [exists s; split; [reflexivity|]; intros e; split; [auto|]; split; [reflexivity|intros []]|]. cbn.
    destruct (parent w x) as [p|] eqn:P.
    - destruct (negb (added x) && negb (changed p)) eqn:C.
      + destruct (IH s) as (s' & E & H). exists s'. split; [exact E|]. intros e. destruct (H e) as (A & A' & B). split; [exact A|]. split; [exact A'|].
        intros [->|He]; [|apply B; exact He]. intros q Q D. rewrite P in Q. injection Q as <-. apply andb_true_iff in C. rewrite !negb_true_iff in C. destruct C, D; congruence.
      + destruct (recalc_right x p P) as (v & -> & R). destruct (IH (set_link s x v)) as (s' & E & H). exists s'. split; [exact E|].
        intros e. destruct (H e) as (A & A' & B). cbn in A, A'. split; [|split].
        * destruct (Nat.eqb_spec e x) as [Ee|]; [subst e|exact A]. right. destruct A as [A|A]; [rewrite A; exact R|exact A].
        * intros N. rewrite (A' N). destruct (Nat.eqb_spec e x) as [Ee|]; [congruence|reflexivity].
        * intros [->|He]; [|apply B; exact He]. intros q _ _. rewrite Nat.eqb_refl in A. destruct A as [A|A]; [rewrite A; exact R|exact A].
    - destruct (IH s) as (s' & E & H). exists s'. split; [exact E|]. intros e. destruct (H e) as (A & A' & B). split; [exact A|]. split; [exact A'|].
      intros [->|He]; [|apply B; exact He]. intros q Q. congruence.
  Qed.

  Lemma children_loop_spec has p l : (forall e, In e l -> parent w e = Some p) -> forall s, exists s', children_loop w has p l s = Some s' /\
    forall e, (link s' e = link s e \/ right_link e (link s' e)) /\ (parent w e = None -> link s' e = link s e).
  Proof.
    induction l as [|x l IH]; intros L s; [exists s; split; [reflexivity|]; auto|]. cbn.
    destruct (existsb (Nat.eqb p) (recalculated s)); [apply IH; intros e He; apply L; right; exact He|].
    destruct (negb _); [apply IH; intros e He; apply L; right; exact He|].
    destruct (recalc_right x p (L x (or_introl eq_refl))) as (v & -> & R).
    destruct (IH (fun e He => L e (or_intror He)) (set_link s x v)) as (s' & E & H). exists s'. split; [exact E|].
    intros e. destruct (H e) as (A & A'). cbn in A, A'. split.
    - destruct (Nat.eqb_spec e x) as [Ee|]; [subst e|exact A]. right. destruct A as [A|A]; [rewrite A; exact R|exact A].
    - intros N. rewrite (A' N). destruct (Nat.eqb_spec e x) as [Ee|]; [subst e|reflexivity]. rewrite (L x (or_introl eq_refl)) in N. discriminate.
  Qed.

  Lemma second_loop_spec has ps : forall s, exists s', second_loop w has ps s = Some s' /\
    forall e, (link s' e = link s e \/ right_link e (link s' e)) /\ (parent w e = None -> link s' e = link s e).
  Proof.
    induction ps as [|p ps IH]; intros s; [exists s; split; [reflexivity|]; auto|]. cbn.
    destruct (children_loop_spec has p (children w p) (fun e => proj1 (wf_agree _ W p e)) s) as (s1 & -> & H1).
    destruct (IH s1) as (s' & E & H). exists s'. split; [exact E|]. intros e. destruct (H e) as [A A']. destruct (H1 e) as [B B'].
    split; [destruct A as [A|A]; [rewrite A; exact B|auto]|]. intros N. rewrite (A' N). apply B', N.
  Qed.

  Lemma sync_spec added changed has s : exists s', sync_siblings w added changed has s = Some s' /\
    forall e, (s' e = s e \/ right_link e (s' e)) /\ (parent w e = None -> s' e = s e) /\
              (In e has -> forall p, parent w e = Some p -> added e = true \/ In p changed -> right_link e (s' e)).
  Proof.
    unfold sync_siblings. destruct (first_loop_spec added (fun p => existsb (Nat.eqb p) changed) has (mk_links s [])) as (s1 & -> & H1).
    destruct (second_loop_spec has changed s1) as (s2 & -> & H2). exists (link s2). split; [reflexivity|].
    intros e. destruct (H1 e) as (A & A' & B). destruct (H2 e) as (C & C'). cbn in A, A'. split; [|split].
    - destruct C as [C|C]; [rewrite C; exact A|auto].
    - intros N. rewrite (C' N). apply A', N.
    - intros He p P D. destruct C as [C|C]; [|exact C]. rewrite C. apply (B He p P). destruct D as [D|D]; [left; exact D|right; apply existsb_in; exact D].
  Qed.
End W.

Lemma frame_links f0 f s0 : noticed f0 f -> wf_forest (l_tree f0) ->
  (forall e, In e (l_has f0) -> right_link (l_tree f0) e (s0 e)) ->
  exists s, link_frame f s0 = Some s /\ forall e, In e (l_has f) -> right_link (l_tree f) e (s e).
Proof.
  intros (W & D & A) W0 R. unfold link_frame.
  destruct (sync_spec (l_tree f) W (l_added f) (l_changed f) (l_has f) (fun e => if l_added f e then no_siblings else s0 e)) as (s & E & H).
  exists s. split; [exact E|]. intros e He. destruct (H e) as (B & _ & C).
  intros p P. destruct (l_added f e) eqn:Ad; [apply (C He p P); auto|].
  destruct (in_dec Nat.eq_dec p (l_changed f)) as [I|I]; [apply (C He p P); auto|].
  destruct B as [B|B]; [|apply B; exact P]. rewrite B, (D p I). apply (R e (A e He Ad)).
  apply (wf_agree _ W0). rewrite <- (D p I). apply (wf_agree _ W). exact P.
Qed.

(** ** The pseudo-element sort *)
Lemma precedes_cons x l a b : precedes (x :: l) a b <-> (x = a /\ In b l) \/ precedes l a b.
Proof.
  split.
  - intros ([|y l1] & l2 & l3 & E); cbn in E; injection E as E1 E2.
    + left. split; [exact E1|]. rewrite E2. apply in_or_app. right. left. reflexivity.
    + right. exists l1, l2, l3. exact E2.
  - intros [[-> H]|(l1 & l2 & l3 & ->)].
    + apply in_split in H. destruct H as (l2 & l3 & ->). exists [], l2, l3. reflexivity.
    + exists (x :: l1), l2, l3. reflexivity.
Qed.
Lemma precedes_in l a b : precedes l a b -> In a l /\ In b l.
Proof. intros (l1 & l2 & l3 & ->). split; rewrite !in_app_iff; cbn; rewrite ?in_app_iff; cbn; auto. Qed.
Lemma precedes_total l a b : In a l -> In b l -> a <> b -> precedes l a b \/ precedes l b a.
Proof.
  induction l as [|x l IH]; [intros []|]. intros [<-|Ha] [<-|Hb] N; try congruence.
  - left. apply precedes_cons. auto.
  - right. apply precedes_cons. auto.
  - destruct (IH Ha Hb N); [left|right]; apply precedes_cons; auto.
Qed.
Lemma precedes_antisym l a b : NoDup l -> precedes l a b -> precedes l b a -> False.
Proof.
  induction l as [|x l IH]; intros N H1 H2; [destruct H1 as ([|] & ? & ? & H1); discriminate|]. inversion N; subst.
  apply precedes_cons in H1, H2. destruct H1 as [[-> I1]|H1], H2 as [[-> I2]|H2]; try contradiction.
  - apply precedes_in in H2. tauto.
  - apply precedes_in in H1. tauto.
  - exact (IH H4 H1 H2).
Qed.

(** two duplicate-free lists with the same elements in the same relative order are equal *)
Lemma same_order : forall r r' : list nat, NoDup r -> NoDup r' -> (forall x, In x r <-> In x r') -> (forall a b, precedes r a b -> precedes r' a b) -> r = r'.
Proof.
  induction r as [|x r IH]; intros r' N N' I P.
  - destruct r' as [|y r']; [reflexivity|]. destruct (proj2 (I y)); left; reflexivity.
  - destruct r' as [|y r']; [destruct (proj1 (I x)); left; reflexivity|].
    assert (x = y) as ->.
    { destruct (Nat.eq_dec x y) as [->|Nxy]; [reflexivity|]. exfalso.
      assert (Hy : In y r) by (destruct (proj2 (I y) (or_introl eq_refl)); [congruence|assumption]).
      assert (H : precedes (y :: r') x y) by (apply P, precedes_cons; auto).
      assert (H2 : precedes (y :: r') y x) by (apply precedes_cons; left; split; [reflexivity|]; destruct (proj1 (I x) (or_introl eq_refl)); [congruence|assumption]).
      exact (precedes_antisym _ _ _ N' H H2). }
    inversion N; inversion N'; subst. f_equal. apply IH; try assumption.
    + intros z. split; intros Hz.
      * destruct (proj1 (I z) (or_intror Hz)) as [->|]; [contradiction|assumption].
      * destruct (proj2 (I z) (or_intror Hz)) as [->|]; [contradiction|assumption].
    + intros a b H. pose proof (P a b) as G. rewrite !precedes_cons in G. destruct (G (or_intror H)) as [[<- _]|G']; [|exact G'].
      apply precedes_in in H. tauto.
Qed.

Section Cmp.
  Variables before after : option nat.
  Notation cmp := (pseudo_cmp before after).
  Hypothesis distinct : forall x, before = Some x -> after = Some x -> False.
  Lemma opt_is_spec o x : opt_is o x = true <-> o = Some x.
  Proof. destruct o as [y|]; cbn; [|split; discriminate]. rewrite Nat.eqb_eq. split; congruence. Qed.
  Definition rank (x : nat) : nat := if opt_is before x then 0 else if opt_is after x then 2 else 1.
  Lemma cmp_rank a b : a <> b -> cmp a b = Nat.compare (rank a) (rank b).
  Proof.
    intros N. unfold pseudo_cmp, rank.
    destruct (opt_is before a) eqn:A, (opt_is after b) eqn:B, (opt_is before b) eqn:C, (opt_is after a) eqn:D; cbn; try reflexivity; exfalso;
      rewrite ?opt_is_spec in *; try congruence; try (apply (distinct a); assumption); try (apply (distinct b); assumption).
  Qed.
  (** a total order on distinct elements, as [sort_by] requires *)
  Lemma cmp_antisym a b : a <> b -> cmp b a = CompOpp (cmp a b).
  Proof. intros N. rewrite !cmp_rank by congruence. apply Nat.compare_antisym. Qed.
  Lemma cmp_trans a b c : a <> b -> b <> c -> a <> c -> forall o, cmp a b = o -> cmp b c = o -> cmp a c = o.
  Proof.
    intros N1 N2 N3 o. rewrite !cmp_rank by congruence. destruct o; rewrite ?Nat.compare_eq_iff, ?Nat.compare_lt_iff, ?Nat.compare_gt_iff; lia.
  Qed.

  Lemma insert_in x y l : In y (insert_sorted cmp x l) <-> y = x \/ In y l.
  Proof.
    induction l as [|z l IH]; cbn; [intuition congruence|]. destruct (cmp x z); cbn; rewrite ?IH; intuition congruence.
  Qed.
  Lemma insert_perm x l : Permutation (x :: l) (insert_sorted cmp x l).
  Proof.
    induction l as [|z l IH]; cbn; [reflexivity|]. destruct (cmp x z); try reflexivity. rewrite perm_swap. constructor. exact IH.
  Qed.
  Lemma sort_perm l : Permutation l (stable_sort cmp l).
  Proof. induction l as [|x l IH]; cbn; [constructor|]. rewrite <- insert_perm. constructor. exact IH. Qed.

  Lemma insert_precedes x l a b : ~ In x l -> (forall c d, precedes l c d -> cmp c d <> Gt) -> NoDup l -> precedes (insert_sorted cmp x l) a b ->
    precedes l a b \/ (a = x /\ In b l /\ cmp x b <> Gt) \/ (b = x /\ In a l /\ cmp x a = Gt).
  Proof.
    revert a b. induction l as [|z l IH]; intros a b Nx S N H; cbn in H.
    - apply precedes_cons in H. destruct H as [[_ []]|H]. destruct H as ([|] & ? & ? & H); discriminate.
    - assert (Nz : x <> z) by (intros ->; apply Nx; left; reflexivity). inversion N as [|? ? Hz Nl]; subst.
      destruct (cmp x z) eqn:C.
      3: { apply precedes_cons in H. destruct H as [[-> H]|H].
           - apply insert_in in H. destruct H as [->|H]; [right; right; split; [reflexivity|]; split; [left; reflexivity|exact C]|left; apply precedes_cons; auto].
           - destruct (IH a b) as [G|[(G1 & G2 & G3)|(G1 & G2 & G3)]]; try assumption.
             + intros G; apply Nx; right; exact G.
             + intros c d G. apply S, precedes_cons. auto.
             + left. apply precedes_cons. auto.
             + right; left. auto using in_cons.
             + right; right. auto using in_cons. }
      all: apply precedes_cons in H; destruct H as [[<- H]|H]; [|left; exact H]; right; left; split; [reflexivity|]; split; [exact H|].
      all: destruct H as [<-|H]; [congruence|].
      all: assert (G : cmp z b <> Gt) by (apply S, precedes_cons; auto).
      all: assert (Nb : x <> b) by (intros ->; apply Nx; right; exact H).
      all: assert (Nzb : z <> b) by (intros ->; contradiction).
      all: rewrite cmp_rank in C by congruence; rewrite cmp_rank in G by congruence; rewrite cmp_rank by congruence.
      all: rewrite ?Nat.compare_eq_iff, ?Nat.compare_lt_iff, ?Nat.compare_gt_iff in *; lia.
  Qed.

  Lemma sort_sorted l : NoDup l -> forall a b, precedes (stable_sort cmp l) a b -> cmp a b <> Gt /\ (cmp a b = Eq -> precedes l a b).
  Proof.
    induction l as [|x l IH]; intros N a b H; cbn in H; [destruct H as ([|] & ? & ? & H); discriminate|]. inversion N as [|? ? Hx Nl]; subst.
    assert (Px : ~ In x (stable_sort cmp l)) by (intros G; apply Hx, (Permutation_in _ (Permutation_sym (sort_perm l))), G).
    assert (Ns : NoDup (stable_sort cmp l)) by (apply (Permutation_NoDup (sort_perm l)), Nl).
    destruct (insert_precedes x (stable_sort cmp l) a b Px (fun c d G => proj1 (IH Nl c d G)) Ns H) as [G|[(-> & G & C)|(-> & G & C)]].
    - destruct (IH Nl a b G) as [A B]. split; [exact A|]. intros E. apply precedes_cons. right. apply B, E.
    - split; [exact C|]. intros _. apply precedes_cons. left. split; [reflexivity|]. apply (Permutation_in _ (Permutation_sym (sort_perm l))), G.
    - assert (a <> x) by (intros ->; contradiction). rewrite (cmp_antisym x a) by congruence. rewrite C. cbn. split; [discriminate|discriminate].
  Qed.

  Lemma stable_sort_unique l r r' : NoDup l -> stable_sort_of cmp l r -> stable_sort_of cmp l r' -> r = r'.
  Proof.
    intros N (P1 & S1 & T1) (P2 & S2 & T2).
    assert (I : forall x, In x r <-> In x r') by (intros x; split; apply Permutation_in; [rewrite <- P1|rewrite <- P2]; assumption).
    assert (N1 : NoDup r) by (apply (Permutation_NoDup P1), N). assert (N2 : NoDup r') by (apply (Permutation_NoDup P2), N).
    apply same_order; try assumption. intros a b H. pose proof (precedes_in _ _ _ H) as [Ha Hb].
    assert (Nab : a <> b) by (intros ->; exact (precedes_antisym _ _ _ N1 H H)).
    destruct (precedes_total r' a b) as [G|G]; [apply I; exact Ha|apply I; exact Hb|exact Nab|exact G|].
    exfalso. pose proof (S1 a b H) as C1. pose proof (S2 b a G) as C2. rewrite (cmp_antisym a b Nab) in C2.
    assert (E : cmp a b = Eq) by (destruct (cmp a b); cbn in C2; congruence).
    apply (precedes_antisym l a b N); [apply (T1 a b H E)|]. apply (T2 b a G). rewrite (cmp_antisym a b Nab), E. reflexivity.
  Qed.
End Cmp.

Lemma find_kind_distinct kind l x : find (is_kind Before kind) l = Some x -> find (is_kind After kind) l = Some x -> False.
Proof. intros A B. apply find_some in A, B. destruct A as [_ A], B as [_ B]. unfold is_kind in *. destruct (kind x) as [[]|]; discriminate. Qed.

Definition opt_list (o : option nat) : list nat := match o with Some x => [x] | None => [] end.
Lemma precedes_app l1 l2 a b : precedes (l1 ++ l2) a b <-> precedes l1 a b \/ (In a l1 /\ In b l2) \/ precedes l2 a b.
Proof.
  induction l1 as [|x l1 IH]; cbn.
  - split; [auto|]. intros [([|] & ? & ? & H)|[[[] _]|H]]; [discriminate|discriminate|exact H].
  - rewrite !precedes_cons, in_app_iff, IH. split.
    + intros [[-> [H|H]]|[H|[[H G]|H]]]; auto 6.
    + intros [[[-> H]|H]|[[[->|H] G]|H]]; auto 6.
Qed.
Lemma precedes_filter f (l : list nat) a b : precedes (filter f l) a b -> precedes l a b.
Proof.
  induction l as [|x l IH]; cbn; [auto|]. destruct (f x); rewrite !precedes_cons; [|auto].
  intros [[-> H]|H]; [|auto]. apply filter_In in H. tauto.
Qed.
Lemma precedes_one x a b : ~ precedes [x] a b.
Proof. intros H. apply precedes_cons in H. destruct H as [[_ []]|([|] & ? & ? & H)]; discriminate. Qed.
Lemma opt_list_in o x : In x (opt_list o) <-> o = Some x.
Proof. destruct o; cbn; split; [intros [->|[]]; reflexivity|intros H; injection H as ->; auto|intros []|discriminate]. Qed.
Lemma precedes_opt o a b : ~ precedes (opt_list o) a b.
Proof. destruct o; [apply precedes_one|intros ([|] & ? & ? & H); discriminate]. Qed.

Definition middle (before after : option nat) (l : list nat) : list nat :=
  filter (fun x => negb (opt_is before x) && negb (opt_is after x)) l.

Lemma expected_is_stable before after l : NoDup l -> (forall x, before = Some x -> after = Some x -> False) ->
  (forall x, before = Some x -> In x l) -> (forall x, after = Some x -> In x l) ->
  stable_sort_of (pseudo_cmp before after) l (opt_list before ++ middle before after l ++ opt_list after).
Proof.
  intros N D B A.
  assert (M : forall x, In x (middle before after l) <-> In x l /\ before <> Some x /\ after <> Some x).
  { intros x. unfold middle. rewrite filter_In, andb_true_iff, !negb_true_iff. rewrite <- !not_true_iff_false, !opt_is_spec. tauto. }
  assert (Nr : NoDup (opt_list before ++ middle before after l ++ opt_list after)).
  { assert (NA : forall l1 l2 : list nat, NoDup l1 -> NoDup l2 -> (forall x, In x l1 -> In x l2 -> False) -> NoDup (l1 ++ l2)).
    { induction l1 as [|x l1 IH]; intros l2 H1 H2 H3; [exact H2|]. inversion H1; subst. cbn. constructor.
      - rewrite in_app_iff. intros [G|G]; [contradiction|]. apply (H3 x); [left; reflexivity|exact G].
      - apply IH; try assumption. intros y Hy. apply H3. right. exact Hy. }
    apply NA; [destruct before; repeat constructor; cbn; tauto| |].
    - apply NA; [apply NoDup_filter; exact N|destruct after; repeat constructor; cbn; tauto|].
      intros x Hx Hy. apply M in Hx. apply opt_list_in in Hy. tauto.
    - intros x Hx Hy. apply opt_list_in in Hx. apply in_app_or in Hy. destruct Hy as [Hy|Hy]; [apply M in Hy; tauto|]. apply opt_list_in in Hy. exact (D x Hx Hy). }
  assert (R : forall a b, precedes (opt_list before ++ middle before after l ++ opt_list after) a b -> rank before after a <= rank before after b /\
            (rank before after a = rank before after b -> precedes (middle before after l) a b)).
  { assert (Rb : forall x, before = Some x -> rank before after x = 0) by (intros x Hx; unfold rank; rewrite (proj2 (opt_is_spec before x) Hx); reflexivity).
    assert (Ra : forall x, after = Some x -> rank before after x = 2).
    { intros x Hx. unfold rank. rewrite (proj2 (opt_is_spec after x) Hx). destruct (opt_is before x) eqn:E; [|reflexivity]. apply opt_is_spec in E. destruct (D x E Hx). }
    assert (Rm : forall x, In x (middle before after l) -> rank before after x = 1).
    { intros x Hx. apply M in Hx. unfold rank. destruct (opt_is before x) eqn:E; [apply opt_is_spec in E; tauto|]. destruct (opt_is after x) eqn:E2; [apply opt_is_spec in E2; tauto|reflexivity]. }
    intros a b H. rewrite !precedes_app in H. rewrite !in_app_iff in H. rewrite ?opt_list_in in H.
    destruct H as [H|[[H1 [H2|H2]]|[H|[[H1 H2]|H]]]]; try (exfalso; exact (precedes_opt _ _ _ H)).
    - rewrite (Rb a H1), (Rm b H2). split; [lia|lia].
    - rewrite (Rb a H1), (Ra b H2). split; lia.
    - pose proof (precedes_in _ _ _ H) as [Ia Ib]. rewrite (Rm a Ia), (Rm b Ib). auto.
    - rewrite (Rm a H1), (Ra b H2). split; lia. }
  split; [|split].
  - apply NoDup_Permutation; [exact N|exact Nr|]. intros x. rewrite !in_app_iff, M, !opt_list_in. split; [|intuition (subst; auto)].
    intros Hx. destruct (opt_is before x) eqn:E; [apply opt_is_spec in E; auto|]. destruct (opt_is after x) eqn:E2; [apply opt_is_spec in E2; auto|].
    right; left. split; [exact Hx|]. rewrite <- !opt_is_spec. rewrite E, E2. split; discriminate.
  - intros a b H. assert (Nab : a <> b) by (intros ->; exact (precedes_antisym _ _ _ Nr H H)).
    rewrite (cmp_rank before after D a b Nab). destruct (R a b H) as [G _]. rewrite Nat.compare_gt_iff. lia.
  - intros a b H E. assert (Nab : a <> b) by (intros ->; exact (precedes_antisym _ _ _ Nr H H)).
    rewrite (cmp_rank before after D a b Nab), Nat.compare_eq_iff in E. exact (precedes_filter _ l a b (proj2 (R a b H) E)).
Qed.

Lemma sort_pseudo_spec kind l : NoDup l ->
  let before := find (is_kind Before kind) l in let after := find (is_kind After kind) l in
  sort_pseudo_elements kind l = opt_list before ++ middle before after l ++ opt_list after.
Proof.
  intros N before after.
  assert (D : forall x, before = Some x -> after = Some x -> False) by (intros x; apply find_kind_distinct).
  assert (B : forall x, before = Some x -> In x l) by (intros x H; apply find_some in H; apply H).
  assert (A : forall x, after = Some x -> In x l) by (intros x H; apply find_some in H; apply H).
  assert (G : stable_sort (pseudo_cmp before after) l = opt_list before ++ middle before after l ++ opt_list after).
  { apply (stable_sort_unique before after D l); [exact N| |apply expected_is_stable; assumption].
    split; [apply sort_perm|]. split; intros a b H; apply (sort_sorted before after D l N a b H). }
  unfold sort_pseudo_elements. fold before after. destruct before as [b|], after as [a|]; try exact G.
  cbn. rewrite app_nil_r. unfold middle. cbn. clear. induction l as [|x l IH]; [reflexivity|]. cbn. f_equal. exact IH.
Qed.

From Coq Require Import Ascii NArith Sorted Permutation.
From Verif Require Import Base Layers LayersSpec LayersProofs Cascade CascadeSpec.
Local Open Scope list_scope.

(** ** Generic list facts *)

Lemma map_opt_Forall2 {A B} (f : A -> option B) l l' :
  map_opt f l = Some l' -> Forall2 (fun x y => f x = Some y) l l'.
Proof.
  revert l'; induction l as [|x l IH]; intros l' H; simpl in H.
  - injection H as <-. constructor.
  - destruct (f x) eqn:Hx; [|discriminate]. destruct (map_opt f l); [|discriminate].
    injection H as <-. constructor; auto.
Qed.

Lemma map_opt_total {A B} (f : A -> option B) l :
  (forall x, In x l -> exists y, f x = Some y) -> exists l', map_opt f l = Some l'.
Proof.
  induction l as [|x l IH]; intros H; simpl; [eauto|].
  destruct (H x (or_introl eq_refl)) as [y ->].
  destruct IH as [l' ->]; [intros; apply H; right; assumption|]. eauto.
Qed.

Lemma Forall2_nth_error {A B} (R : A -> B -> Prop) l l' i y :
  Forall2 R l l' -> nth_error l' i = Some y -> exists x, nth_error l i = Some x /\ R x y.
Proof.
  intros H. revert i; induction H as [|a b l l' Hab H IH]; intros [|i] E; simpl in *; try discriminate.
  - injection E as <-. eauto.
  - auto.
Qed.

Lemma Forall2_nth_error_l {A B} (R : A -> B -> Prop) l l' i x :
  Forall2 R l l' -> nth_error l i = Some x -> exists y, nth_error l' i = Some y /\ R x y.
Proof.
  intros H. revert i; induction H as [|a b l l' Hab H IH]; intros [|i] E; simpl in *; try discriminate.
  - injection E as <-. eauto.
  - auto.
Qed.

Lemma In_combine_seq {A} (l : list A) i x s :
  In (i, x) (combine (seq s (length l)) l) <-> s <= i /\ nth_error l (i - s) = Some x.
Proof.
  revert s; induction l as [|y l IH]; intros s; simpl.
  - split; [tauto|]. intros [_ H]. destruct (i - s); discriminate.
  - rewrite IH. split.
    + intros [E|[H1 H2]].
      * injection E as <- <-. rewrite Nat.sub_diag. auto.
      * split; [lia|]. replace (i - s) with (S (i - S s)) by lia. exact H2.
    + intros [H1 H2]. destruct (Nat.eq_dec i s) as [->|Hne].
      * rewrite Nat.sub_diag in H2. simpl in H2. injection H2 as <-. auto.
      * right. split; [lia|]. replace (i - s) with (S (i - S s)) in H2 by lia. exact H2.
Qed.

Lemma combine_seq_sorted {A} (l : list A) s :
  StronglySorted (fun a b : nat * A => fst a < fst b) (combine (seq s (length l)) l).
Proof.
  revert s; induction l as [|y l IH]; intros s; simpl; constructor; [apply IH|].
  apply Forall_forall. intros [i x] H. apply In_combine_seq in H as [H _]. simpl. lia.
Qed.

Lemma map_snd_combine {A B} (a : list A) (b : list B) : length a = length b -> map snd (combine a b) = b.
Proof. revert b; induction a as [|x a IH]; intros [|y b] H; simpl in *; try lia; [reflexivity|]. f_equal. apply IH. lia. Qed.

Lemma StronglySorted_map {A B} (f : A -> B) (R : A -> A -> Prop) (R' : B -> B -> Prop) l :
  (forall a b, In a l -> In b l -> R a b -> R' (f a) (f b)) -> StronglySorted R l -> StronglySorted R' (map f l).
Proof.
  intros H Hs. induction Hs as [|x l Hs IH Hf]; simpl; constructor.
  - apply IH. intros a b Ha Hb. apply H; right; assumption.
  - rewrite Forall_forall in *. intros y Hy. apply in_map_iff in Hy as (z & <- & Hz).
    apply H; [left; reflexivity|right; exact Hz|auto].
Qed.

Lemma StronglySorted_filter {A} (R : A -> A -> Prop) (f : A -> bool) l :
  StronglySorted R l -> StronglySorted R (filter f l).
Proof.
  induction 1 as [|x l Hs IH Hf]; simpl; [constructor|].
  destruct (f x); [|exact IH]. constructor; [exact IH|].
  rewrite Forall_forall in *. intros y Hy. apply filter_In in Hy as [Hy _]. auto.
Qed.

(** ** Stable sort *)

Section Sort.
  Context {A : Type}.
  Variable leb : A -> A -> bool.
  Hypothesis leb_total : forall x y, leb x y = true \/ leb y x = true.
  Hypothesis leb_trans : forall x y z, leb x y = true -> leb y z = true -> leb x z = true.

  Lemma insert_perm x l : Permutation (insert_sorted leb x l) (x :: l).
  Proof.
    induction l as [|y l IH]; simpl; [reflexivity|]. destruct (leb x y); [reflexivity|].
    rewrite IH. apply perm_swap.
  Qed.
  Lemma sort_perm l : Permutation (stable_sort leb l) l.
  Proof. induction l as [|x l IH]; simpl; [reflexivity|]. rewrite insert_perm. constructor; exact IH. Qed.

  Variable R0 : A -> A -> Prop.
  Definition stable_lt (a b : A) : Prop := leb a b = true /\ (leb b a = true -> R0 a b).

  Lemma insert_stable x l : Forall (R0 x) l ->
    StronglySorted stable_lt l -> StronglySorted stable_lt (insert_sorted leb x l).
  Proof.
    induction l as [|y l IH]; intros Hx Hs; simpl.
    - constructor; constructor.
    - inversion Hs as [|? ? Hs' Hf]; subst. inversion Hx as [|? ? Hxy Hx']; subst.
      destruct (leb x y) eqn:E.
      + constructor; [exact Hs|]. constructor.
        * split; auto.
        * rewrite Forall_forall in *. intros z Hz. split; [|auto].
          eapply leb_trans; [exact E|]. apply (Hf z Hz).
      + constructor; [apply IH; assumption|].
        apply (Permutation_Forall (Permutation_sym (insert_perm x l))). constructor.
        * split; [destruct (leb_total x y); congruence|congruence].
        * exact Hf.
  Qed.

  Lemma sort_stable l : StronglySorted R0 l -> StronglySorted stable_lt (stable_sort leb l).
  Proof.
    induction 1 as [|x l Hs IH Hf]; simpl; [constructor|].
    apply insert_stable; [|exact IH].
    apply (Permutation_Forall (Permutation_sym (sort_perm l))). exact Hf.
  Qed.
End Sort.

Lemma insert_sorted_map {A B} (f : A -> B) (leb : B -> B -> bool) x l :
  insert_sorted leb (f x) (map f l) = map f (insert_sorted (fun a b => leb (f a) (f b)) x l).
Proof. induction l as [|y l IH]; simpl; [reflexivity|]. destruct (leb (f x) (f y)); [reflexivity|]. simpl. f_equal; exact IH. Qed.
Lemma stable_sort_map {A B} (f : A -> B) (leb : B -> B -> bool) l :
  stable_sort leb (map f l) = map f (stable_sort (fun a b => leb (f a) (f b)) l).
Proof. induction l as [|x l IH]; simpl; [reflexivity|]. rewrite IH. apply insert_sorted_map. Qed.

Lemma key_leb_total a b : key_leb a b = true \/ key_leb b a = true.
Proof.
  unfold key_leb. destruct (lt_eq_lt_dec (fst a) (fst b)) as [[H|H]|H].
  - left. apply Nat.ltb_lt in H. rewrite H. reflexivity.
  - rewrite H, Nat.ltb_irrefl, Nat.eqb_refl. simpl.
    destruct (N.leb_spec (snd a) (snd b)); [auto|right]. apply N.leb_le. lia.
  - right. apply Nat.ltb_lt in H. rewrite H. reflexivity.
Qed.

Lemma key_leb_iff a b : key_leb a b = true <-> fst a < fst b \/ (fst a = fst b /\ (snd a <= snd b)%N).
Proof.
  unfold key_leb. rewrite orb_true_iff, andb_true_iff, Nat.ltb_lt, Nat.eqb_eq, N.leb_le. reflexivity.
Qed.

Lemma key_leb_trans a b c : key_leb a b = true -> key_leb b c = true -> key_leb a c = true.
Proof. rewrite !key_leb_iff. lia. Qed.

Section C04.
  Context {Sel Med VN VT CN Value Dyn TP AP KN KF FF : Type}.
  Variables (specificity : Sel -> N) (resolve_name : CN -> option nat) (type_ok : nat -> Value -> bool)
            (path_ok : FF -> bool) (placeholder : Value -> Value).
  Notation builderT := (builder Sel Med VN VT CN Value Dyn TP AP KN KF FF).
  Notation buildB := (build specificity resolve_name type_ok path_ok placeholder).

  Lemma build_css (b : builderT) s :
    buildB b = Built s -> sort_css specificity (layers_hierarchy b) (css_selectors_to_rulesets b) = Some (s_css s).
  Proof.
    unfold build. destruct (negb _); [discriminate|]. destruct (orphan b); [discriminate|].
    destruct (sort_css _ _ _) as [css|]; [|discriminate].
    destruct (map_opt _ (rulesets b)) as [rs|]; [|discriminate].
    destruct (validate_all_properties _ _); [|discriminate].
    intros H; injection H as <-. reflexivity.
  Qed.

  Lemma build_rulesets (b : builderT) s :
    buildB b = Built s -> map_opt (resolve_ruleset resolve_name placeholder) (rulesets b) = Some (s_rulesets s).
  Proof.
    unfold build. destruct (negb _); [discriminate|]. destruct (orphan b); [discriminate|].
    destruct (sort_css _ _ _) as [css|]; [|discriminate].
    destruct (map_opt _ (rulesets b)) as [rs|]; [|discriminate].
    destruct (validate_all_properties _ _); [|discriminate].
    intros H; injection H as <-. reflexivity.
  Qed.

  (** The sorted list as an index sequence *)
  Lemma sort_css_indices h (css out : list (css_selector Sel Med * nat)) :
    sort_css specificity h css = Some out ->
    exists ixs : list (nat * (css_selector Sel Med * nat)),
      out = map snd ixs /\
      (forall i e, In (i, e) ixs <-> nth_error css i = Some e) /\
      StronglySorted (cascade_before specificity h css) (map fst ixs) /\
      Permutation ixs (combine (seq 0 (length css)) css).
  Proof using Type.
    unfold sort_css. destruct (map_opt _ css) as [dec|] eqn:Hdec; [|discriminate].
    simpl. intros H; injection H as <-.
    apply map_opt_Forall2 in Hdec.
    set (ps := combine (seq 0 (length dec)) dec).
    set (leb' := fun a b : nat * ((nat * N) * (css_selector Sel Med * nat)) => key_leb (fst (snd a)) (fst (snd b))).
    set (st := stable_sort leb' ps).
    assert (Hdecps : dec = map snd ps) by (unfold ps; rewrite map_snd_combine; [reflexivity|apply seq_length]).
    assert (Hsort : stable_sort (fun a b => key_leb (fst a) (fst b)) dec = map snd st).
    { rewrite Hdecps at 1. rewrite stable_sort_map. reflexivity. }
    assert (Hperm : Permutation st ps) by (apply sort_perm).
    assert (Hlen : length dec = length css) by (symmetry; eapply Forall2_len; eauto).
    assert (Hin : forall i k e, In (i, (k, e)) st <-> nth_error dec i = Some (k, e)).
    { intros i k e. rewrite (Permutation_in' (eq_refl (i, (k, e))) Hperm). unfold ps. rewrite In_combine_seq, Nat.sub_0_r.
      split; [intros [_ Hx]; exact Hx|intros Hx; split; [apply Nat.le_0_l|exact Hx]]. }
    assert (Hde : forall i k e, nth_error dec i = Some (k, e) -> nth_error css i = Some e /\ sort_key specificity h (fst e) = Some k).
    { intros i k e Hn. destruct (Forall2_nth_error _ _ _ _ _ Hdec Hn) as (e' & He' & Hk).
      destruct (sort_key specificity h (fst e')) as [k'|] eqn:Ek; [|discriminate]. simpl in Hk. injection Hk as <- <-.
      auto. }
    exists (map (fun x => (fst x, snd (snd x))) st). split; [|split; [|split]].
    - rewrite Hsort, !map_map. reflexivity.
    - intros i e. rewrite in_map_iff. split.
      + intros ([i' [k e']] & E & Hx). simpl in E. injection E as <- <-. apply Hin, Hde in Hx. apply Hx.
      + intros He. destruct (Forall2_nth_error_l _ _ _ _ _ Hdec He) as ([k e'] & Hn & Hk).
        exists (i, (k, e')). destruct (sort_key specificity h (fst e)); [|discriminate]. simpl in Hk. injection Hk as <- <-.
        split; [reflexivity|]. apply Hin, Hn.
    - rewrite map_map. simpl.
      apply (StronglySorted_map _ (stable_lt leb' (fun a b => fst a < fst b))).
      + intros [i [ki [si idi]]] [j [kj [sj idj]]] Hi Hj [Hle Hlt]. simpl in *.
        apply Hin, Hde in Hi as [Hi Hki]. apply Hin, Hde in Hj as [Hj Hkj]. simpl in *.
        unfold sort_key in Hki, Hkj.
        destruct (get_layer_priority h (layer si)) as [pi|] eqn:Epi; [|discriminate].
        destruct (get_layer_priority h (layer sj)) as [pj|] eqn:Epj; [|discriminate].
        simpl in Hki, Hkj. injection Hki as <-. injection Hkj as <-.
        exists si, idi, sj, idj, pi, pj. repeat split; auto.
        unfold leb' in Hle, Hlt. simpl in Hle, Hlt. rewrite key_leb_iff in Hle, Hlt. simpl in Hle, Hlt.
        destruct (lt_eq_lt_dec pi pj) as [[?|?]|?]; [auto| |lia].
        right. split; [assumption|].
        destruct (N.lt_trichotomy (specificity (selector si)) (specificity (selector sj))) as [?|[?|?]]; [auto|right|lia].
        split; [assumption|]. apply Hlt. right. split; [auto|lia].
      + apply sort_stable.
        * intros x y. apply key_leb_total.
        * intros x y z. apply key_leb_trans.
        * apply combine_seq_sorted.
    - rewrite Hperm. unfold ps.
      assert (E : forall (d : list ((nat * N) * (css_selector Sel Med * nat))) c s,
        Forall2 (fun e ke => option_map (fun k => (k, e)) (sort_key specificity h (fst e)) = Some ke) c d ->
        map (fun x => (fst x, snd (snd x))) (combine (seq s (length d)) d) = combine (seq s (length c)) c).
      { clear. intros d c s H. revert s. induction H as [|e ke c d He H IH]; intros s; simpl; [reflexivity|].
        rewrite IH. f_equal. destruct (sort_key specificity h (fst e)); [|discriminate]. simpl in He. injection He as <-. reflexivity. }
      rewrite (E dec css 0 Hdec). reflexivity.
  Qed.

  Lemma matching_cascade (b : builderT) s ms mm :
    buildB b = Built s ->
    exists ix : list nat,
      Forall2 (fun i id => exists sel, nth_error (css_selectors_to_rulesets b) i = Some (sel, id))
              ix (get_matching_ruleset_ids ms mm s) /\
      (forall i, In i ix <-> exists sel id, nth_error (css_selectors_to_rulesets b) i = Some (sel, id) /\
                                            ms (selector sel) = true /\ mm (media sel) = true) /\
      StronglySorted (cascade_before specificity (layers_hierarchy b) (css_selectors_to_rulesets b)) ix.
  Proof.
    intros Hb. apply build_css in Hb. apply sort_css_indices in Hb as (ixs & Hout & Hin & Hs & _).
    set (f := fun e : css_selector Sel Med * nat => (ms (selector (fst e)) && mm (media (fst e)))%bool).
    exists (map fst (filter (fun x => f (snd x)) ixs)). split; [|split].
    - unfold get_matching_ruleset_ids. rewrite Hout. fold f. clear Hs Hout.
      assert (Hin' : forall i e, In (i, e) ixs -> nth_error (css_selectors_to_rulesets b) i = Some e) by (intros; apply Hin; assumption).
      clear Hin. induction ixs as [|[i e] ixs IH]; simpl; [constructor|].
      fold f. specialize (IH ltac:(intros; apply Hin'; right; assumption)).
      change (f e) with (f (snd (i, e))). simpl. destruct (f e); simpl; [constructor|exact IH].
      + exists (fst e). rewrite (Hin' i e (or_introl eq_refl)). destruct e; reflexivity.
      + exact IH.
    - intros i. rewrite in_map_iff. split.
      + intros ([i' [sel id]] & <- & Hx). apply filter_In in Hx as [Hx Hf]. apply Hin in Hx. simpl.
        unfold f in Hf. simpl in Hf. apply andb_true_iff in Hf as [H1 H2]. exists sel, id. auto.
      + intros (sel & id & Hn & H1 & H2). exists (i, (sel, id)). split; [reflexivity|].
        apply filter_In. split; [apply Hin, Hn|]. unfold f. simpl. rewrite H1, H2. reflexivity.
    - (* StronglySorted on the pairs first *)
      assert (Hs' : StronglySorted (fun a c : nat * (css_selector Sel Med * nat) =>
                cascade_before specificity (layers_hierarchy b) (css_selectors_to_rulesets b) (fst a) (fst c)) ixs).
      { clear -Hs. induction ixs as [|x ixs IH]; simpl in *; [constructor|].
        inversion Hs; subst. constructor; [auto|]. rewrite Forall_map in H2. exact H2. }
      apply (StronglySorted_map fst _ _ _ (fun a c _ _ H => H)).
      apply StronglySorted_filter, Hs'.
  Qed.
End C04.

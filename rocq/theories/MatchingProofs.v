(** Proofs for C101. *)
From Coq Require Import String.
From Verif Require Import Base Tree TreeSpec TreeProofs Siblings SiblingsSpec Matching MatchingSpec.
Open Scope list_scope.

Section Forest.
  Context (t : forest) (W : wf_forest t).
  Lemma child_split n p : parent t n = Some p -> exists l1 l2, children t p = l1 ++ n :: l2.
  Proof. intros H. apply in_split. apply (wf_agree t W). exact H. Qed.
  Lemma child_parent n p l1 l2 : children t p = l1 ++ n :: l2 -> parent t n = Some p.
  Proof. intros H. apply (wf_agree t W). rewrite H. apply in_elt. Qed.
  Lemma split_unique {A} (l1 l2 m1 m2 : list A) n : NoDup (l1 ++ n :: l2) -> l1 ++ n :: l2 = m1 ++ n :: m2 -> l1 = m1 /\ l2 = m2.
  Proof.
    revert m1. induction l1 as [|a l1 IH]; intros m1 N E.
    - destruct m1 as [|b m1]; [injection E as E; auto|]. cbn in E. injection E as E1 E2. subst. cbn in N. inversion N; subst. exfalso. apply H1. apply in_elt.
    - destruct m1 as [|b m1]; cbn in E; injection E as E1 E2.
      + subst. cbn in N. inversion N; subst. exfalso. apply H1. apply in_elt.
      + subst. cbn in N. inversion N; subst. destruct (IH m1 H2 E2) as [-> ->]. auto.
  Qed.
  Lemma same_split p n l1 l2 m1 m2 : children t p = l1 ++ n :: l2 -> l1 ++ n :: l2 = m1 ++ n :: m2 -> l1 = m1 /\ l2 = m2.
  Proof. intros E H. eapply split_unique; [|exact H]. rewrite <- E. apply wf_nodup. exact W. Qed.
  Lemma earlier_in p l1 n l2 m : children t p = l1 ++ n :: l2 -> (earlier t m n <-> In m l1).
  Proof.
    intros E. split.
    - intros (q & a & b & c & E2). assert (q = p) as ->.
      { assert (parent t n = Some q) by (eapply child_parent with (l1 := a ++ m :: b); rewrite <- app_assoc; exact E2). assert (parent t n = Some p) by (eapply child_parent; eauto). congruence. }
      rewrite E in E2. assert (l1 ++ n :: l2 = (a ++ m :: b) ++ n :: c) as E3 by (rewrite <- app_assoc; exact E2).
      destruct (same_split p n l1 l2 _ _ E E3) as [-> _]. apply in_elt.
    - intros H. destruct (in_split _ _ H) as (a & b & ->). exists p, a, b, l2. rewrite E, <- app_assoc. reflexivity.
  Qed.
  Lemma just_before_last p l1 n l2 m : children t p = l1 ++ n :: l2 -> (just_before t m n <-> exists l0, l1 = l0 ++ [m]).
  Proof.
    intros E. split.
    - intros (q & a & c & E2). assert (q = p) as ->.
      { assert (parent t n = Some q) by (eapply child_parent with (l1 := a ++ [m]); rewrite <- app_assoc; exact E2). assert (parent t n = Some p) by (eapply child_parent; eauto). congruence. }
      rewrite E in E2. assert (l1 ++ n :: l2 = (a ++ [m]) ++ n :: c) as E3 by (rewrite <- app_assoc; exact E2).
      destruct (same_split p n l1 l2 _ _ E E3) as [-> _]. eauto.
    - intros [l0 ->]. exists p, l0, l2. rewrite E, <- app_assoc. reflexivity.
  Qed.
  Lemma earlier_parent m n : earlier t m n -> exists p, parent t m = Some p /\ parent t n = Some p.
  Proof.
    intros (p & a & b & c & E). exists p. split; [eapply child_parent; eauto|]. eapply child_parent with (l1 := a ++ m :: b). rewrite <- app_assoc. exact E.
  Qed.
  Lemma just_before_earlier m n : just_before t m n -> earlier t m n.
  Proof. intros (p & a & b & E). exists p, a, [], b. exact E. Qed.
  Lemma earlier_trans a b c : earlier t a b -> earlier t b c -> earlier t a c.
  Proof.
    intros H1 H2. destruct (earlier_parent _ _ H2) as (p & Hb & Hc). destruct (child_split _ _ Hb) as (l1 & l2 & E). apply (earlier_in _ _ _ _ _ E) in H1.
    assert (In c l2) as Hc2.
    { destruct H2 as (q & x & y & z & E2). assert (q = p) as -> by (apply child_parent in E2; congruence). rewrite E in E2.
      destruct (same_split p b l1 l2 _ _ E E2) as [_ ->]. apply in_elt. }
    destruct (in_split _ _ H1) as (x & y & ->). destruct (in_split _ _ Hc2) as (u & v & ->).
    exists p, x, (y ++ b :: u), v. rewrite E, <- !app_assoc. reflexivity.
  Qed.
  Lemma earlier_case q n m : just_before t q n -> earlier t m n -> m = q \/ earlier t m q.
  Proof.
    intros H1 H2. destruct (earlier_parent _ _ H2) as (p & _ & Hn). destruct (child_split _ _ Hn) as (l1 & l2 & E).
    apply (just_before_last _ _ _ _ _ E) in H1. destruct H1 as [l0 ->]. apply (earlier_in _ _ _ _ _ E) in H2. apply in_app_or in H2 as [H2|[H2|[]]]; [right|left; auto].
    rewrite <- app_assoc in E. apply (earlier_in _ _ _ _ _ E). exact H2.
  Qed.
  Lemma just_before_unique a b n : just_before t a n -> just_before t b n -> a = b.
  Proof.
    intros H1 H2. destruct (earlier_parent _ _ (just_before_earlier _ _ H1)) as (p & _ & Hn). destruct (child_split _ _ Hn) as (l1 & l2 & E).
    apply (just_before_last _ _ _ _ _ E) in H1, H2. destruct H1 as [x ->], H2 as [y Hy]. apply app_inj_tail in Hy. tauto.
  Qed.
  Lemma descendant_parent a n : descendant t a n -> exists p, parent t n = Some p /\ (a = p \/ descendant t a p).
  Proof. intros H. destruct H; eauto. Qed.
  Lemma descendant_trans a b c : descendant t a b -> descendant t b c -> descendant t a c.
  Proof. intros H1 H2. induction H2; [eapply desc_step; eauto|eapply desc_step; eauto]. Qed.
  Lemma descendant_same a m n p : parent t m = Some p -> parent t n = Some p -> (descendant t a m -> descendant t a n).
  Proof. intros H1 H2 H. destruct (descendant_parent _ _ H) as (q & Hq & [->|D]); [apply desc_child; congruence|eapply desc_step; eauto; congruence]. Qed.
  Lemma descendant_earlier a m n : earlier t m n -> (descendant t a m <-> descendant t a n).
  Proof. intros H. destruct (earlier_parent _ _ H) as (p & H1 & H2). split; eapply descendant_same; eauto. Qed.

  (** the nodes an attempt that started at [n] can still get to *)
  Definition reach (m n : nat) : Prop := exists a, (a = n \/ descendant t a n) /\ (m = a \/ earlier t m a).
  Lemma reach_refl n : reach n n.
  Proof. exists n. auto. Qed.
  Lemma reach_earlier m n : earlier t m n -> reach m n.
  Proof. exists n. auto. Qed.
  Lemma reach_anc m n : descendant t m n -> reach m n.
  Proof. exists m. auto. Qed.
  Lemma reach_desc a m n : reach m n -> descendant t a m -> descendant t a n.
  Proof.
    intros (b & Hb & Hm) Ha. assert (descendant t a b) as Hab by (destruct Hm as [->|Hm]; [exact Ha|apply (descendant_earlier a m b Hm); exact Ha]).
    destruct Hb as [->|Hb]; [exact Hab|eapply descendant_trans; eauto].
  Qed.
  Lemma reach_parent m n x p : reach m n -> parent t m = Some x -> parent t n = Some p -> reach x p.
  Proof.
    intros H Hx Hp. assert (descendant t x n) as D by (eapply reach_desc; [exact H|apply desc_child; exact Hx]).
    destruct (descendant_parent _ _ D) as (q & Hq & Hd). assert (q = p) as -> by congruence. destruct Hd as [->|Hd]; [apply reach_refl|apply reach_anc; exact Hd].
  Qed.
  Lemma reach_root m n : reach m n -> parent t n = None -> m = n.
  Proof.
    intros (a & Ha & Hm) Hn. assert (a = n) as -> by (destruct Ha as [->|Ha]; [reflexivity|destruct (descendant_parent _ _ Ha) as (q & Hq & _); congruence]).
    destruct Hm as [->|Hm]; [reflexivity|]. destruct (earlier_parent _ _ Hm) as (q & _ & Hq). congruence.
  Qed.
  (** a node before something reached from [n] is before [n] or reached from any sibling of [n] *)
  Lemma reach_before x m n q : reach m n -> earlier t x m -> earlier t q n -> earlier t x n \/ reach x q.
  Proof.
    intros (a & Ha & Hm) Hx Hq. assert (earlier t x a) as Hxa by (destruct Hm as [->|Hm]; [exact Hx|eapply earlier_trans; eauto]).
    destruct Ha as [->|Ha]; [left; exact Hxa|right]. exists a. split; [right; apply (descendant_earlier a q n Hq); exact Ha|auto].
  Qed.
End Forest.

Lemma last_map (l : list nat) a : last (map Some (l ++ [a])) None = Some a.
Proof. rewrite map_app. apply last_last. Qed.
(** Induction on selectors *)
Section Ind.
  Context (P : complex -> Prop) (Q : simple -> Prop).
  Hypothesis HOne : forall c, Forall Q c -> P (One c).
  Hypothesis HThen : forall c k r, Forall Q c -> P r -> P (Then c k r).
  Hypothesis HNthOf : forall e a b l, Forall P l -> Q (NthOf e a b l).
  Hypothesis HIs : forall b l, Forall P l -> Q (Is b l).
  Hypothesis HNot : forall l, Forall P l -> Q (Not l).
  Hypothesis HHas : forall l, Forall P l -> Q (Has l).
  Hypothesis HLeaf : forall x, match x with NthOf _ _ _ _ | Is _ _ | Not _ | Has _ => True | _ => Q x end.
  Fixpoint complex_all (s : complex) : P s :=
    match s with
    | One c => HOne c ((fix go (l : list simple) : Forall Q l := match l with [] => Forall_nil Q | x :: l => Forall_cons x (simple_all x) (go l) end) c)
    | Then c k r => HThen c k r ((fix go (l : list simple) : Forall Q l := match l with [] => Forall_nil Q | x :: l => Forall_cons x (simple_all x) (go l) end) c) (complex_all r)
    end
  with simple_all (x : simple) : Q x :=
    let goP := fix go (l : list complex) : Forall P l := match l with [] => Forall_nil P | s :: l => Forall_cons s (complex_all s) (go l) end in
    match x with
    | NthOf e a b l => HNthOf e a b l (goP l)
    | Is b l => HIs b l (goP l)
    | Not l => HNot l (goP l)
    | Has l => HHas l (goP l)
    | x => HLeaf x
    end.
End Ind.

Section World.
  Context (nodes : list nat) (w : world) (C : consistent nodes w).
  Notation t := (w_tree w).
  Let W := c_forest _ _ C.
  Lemma parent_element_eq n : parent_element w n = parent t n.
  Proof.
    unfold parent_element, related_new. destruct (parent t n) as [p|] eqn:E; [|reflexivity]. destruct (c_nodes _ _ C n p E) as (_ & _ & H). destruct (w_data w p); [reflexivity|contradiction].
  Qed.
  Lemma links_of n p l1 l2 : children t p = l1 ++ n :: l2 ->
    prev_sibling_element w n = last (map Some l1) None /\ next_sibling_element w n = hd_error l2.
  Proof.
    intros E. assert (parent t n = Some p) as Hp by (eapply child_parent; eauto). destruct (c_links _ _ C n p Hp) as (s & Hs & (m1 & m2 & E2 & H1 & H2)).
    rewrite E in E2. destruct (split_unique l1 l2 m1 m2 n) as [<- <-]; [rewrite <- E; apply wf_nodup; exact W|exact E2|].
    assert (forall x, In x (children t p) -> w_data w x <> None) as HD. { intros x Hx. apply (wf_agree _ W) in Hx. apply (c_nodes _ _ C _ _ Hx). }
    unfold prev_sibling_element, next_sibling_element. rewrite Hs, H1, H2. split.
    - destruct l1 as [|a l1 _] using rev_ind; [reflexivity|]. rewrite last_map. cbn. specialize (HD a). destruct (w_data w a); [reflexivity|].
      exfalso. apply HD; [|reflexivity]. rewrite E, <- app_assoc. apply in_elt.
    - destruct l2 as [|a l2]; [reflexivity|]. cbn. specialize (HD a). destruct (w_data w a); [reflexivity|]. exfalso. apply HD; [|reflexivity]. rewrite E. apply in_or_app. right. right. left. reflexivity.
  Qed.
  Lemma links_root n : parent t n = None -> prev_sibling_element w n = None /\ next_sibling_element w n = None.
  Proof.
    intros Hn. unfold prev_sibling_element, next_sibling_element. destruct (w_links w n) as [s|] eqn:E; [|auto]. rewrite (c_alone _ _ C n s Hn E). auto.
  Qed.
  Lemma first_child_eq n : first_element_child w n = hd_error (children t n).
  Proof.
    unfold first_element_child, related_new. destruct (children t n) as [|c l] eqn:E; [reflexivity|]. cbn.
    assert (parent t c = Some n) as Hc by (apply (wf_agree _ W); rewrite E; left; reflexivity). destruct (c_nodes _ _ C _ _ Hc) as (_ & H & _). destruct (w_data w c); [reflexivity|contradiction].
  Qed.

  (** *** chains *)
  Lemma chain_prev p n l1 l2 fuel : children t p = l1 ++ n :: l2 -> List.length l1 <= fuel -> chain (prev_sibling_element w) fuel n = rev l1.
  Proof.
    revert n l1 l2. induction fuel as [|fuel IH]; intros n l1 l2 E H.
    - destruct l1; [reflexivity|cbn in H; lia].
    - cbn. rewrite (proj1 (links_of n p l1 l2 E)). destruct l1 as [|a l1 _] using rev_ind; [reflexivity|]. rewrite last_map. rewrite rev_app_distr. cbn. f_equal.
      rewrite <- app_assoc in E. eapply IH; [exact E|]. rewrite app_length in H. cbn in H. lia.
  Qed.
  Lemma chain_next p n l1 l2 fuel : children t p = l1 ++ n :: l2 -> List.length l2 <= fuel -> chain (next_sibling_element w) fuel n = l2.
  Proof.
    revert n l1 l2. induction fuel as [|fuel IH]; intros n l1 l2 E H.
    - destruct l2; [reflexivity|cbn in H; lia].
    - cbn. rewrite (proj2 (links_of n p l1 l2 E)). destruct l2 as [|a l2]; [reflexivity|]. cbn. f_equal.
      eapply (IH a (l1 ++ [n])); [rewrite <- app_assoc; exact E|]. cbn in H. lia.
  Qed.
  Lemma chain_alone fuel n : parent t n = None -> chain (prev_sibling_element w) fuel n = [] /\ chain (next_sibling_element w) fuel n = [].
  Proof. intros H. destruct (links_root n H) as [H1 H2]. destruct fuel; cbn; rewrite ?H1, ?H2; auto. Qed.

  Context (fuel : nat) (Fn : List.length nodes <= fuel).
  Context (depth : nat -> nat) (Hdepth : forall c p, parent t c = Some p -> depth c = S (depth p)) (Hbound : forall n, depth n <= fuel).
  Lemma family_length p : List.length (children t p) <= fuel.
  Proof.
    transitivity (List.length nodes); [|exact Fn]. apply NoDup_incl_length; [apply wf_nodup; exact W|]. intros x Hx. apply (wf_agree _ W) in Hx. apply (c_nodes _ _ C _ _ Hx).
  Qed.
  Lemma chain_up_gen k n : depth n <= k -> ancestor_chain t n (chain (parent_element w) k n).
  Proof.
    revert n. induction k as [|k IH]; intros n H; cbn.
    - apply chain_root. destruct (parent t n) as [p|] eqn:E; [|reflexivity]. apply Hdepth in E. lia.
    - rewrite parent_element_eq. destruct (parent t n) as [p|] eqn:E; [|apply chain_root; exact E]. eapply chain_up; [exact E|]. apply IH. apply Hdepth in E. lia.
  Qed.
  Lemma chain_parents n : ancestor_chain t n (chain (parent_element w) fuel n).
  Proof. apply chain_up_gen, Hbound. Qed.

  (** *** the loop over the candidates *)
  Definition out_ok (P : nat -> Prop) (n : nat) (o : outcome) : Prop :=
    match o with
    | Matched => P n
    | RestartLaterSibling => ~ P n
    | RestartDescendant => forall m, m = n \/ earlier t m n -> ~ P m
    | NotGlobally => forall m, reach t m n -> ~ P m
    end.
  Lemma out_ok_matched P n o : out_ok P n o -> (is_matched o = true <-> P n).
  Proof.
    destruct o; cbn; intros H; split; try discriminate; auto; intros Hp; exfalso.
    - apply (H n); [left; reflexivity|exact Hp].
    - apply (H n); [apply reach_refl|exact Hp].
  Qed.
  Lemma out_ok_not P n o : out_ok P n o -> o <> Matched -> ~ P n.
  Proof. intros H N Hp. apply (out_ok_matched P n o H) in Hp. destruct o; try discriminate. apply N; reflexivity. Qed.
  Lemma try_desc run P l x : (forall m, out_ok P m (run m)) -> ancestor_chain t x l ->
    (try_all Descendant run l = Matched /\ exists a, In a l /\ P a) \/ (try_all Descendant run l = NotGlobally /\ forall a, In a l -> ~ P a).
  Proof.
    intros R H. induction H as [x Hx|x p l Hx H IH]; [right; cbn; split; [reflexivity|intros a []]|].
    cbn. pose proof (R p) as Rp. destruct (run p) eqn:E; cbn in Rp.
    - left. split; [reflexivity|]. exists p. split; [left; reflexivity|exact Rp].
    - destruct IH as [[-> (a & Ha & Hp)]|[-> IH]]; [left; split; [reflexivity|]; exists a; split; [right; exact Ha|exact Hp]|right; split; [reflexivity|]]. intros a [<-|Ha]; auto.
    - destruct IH as [[-> (a & Ha & Hp)]|[-> IH]]; [left; split; [reflexivity|]; exists a; split; [right; exact Ha|exact Hp]|right; split; [reflexivity|]]. intros a [<-|Ha]; auto.
    - right. split; [reflexivity|]. intros a Ha. apply Rp. apply (chain_descendant t x (p :: l)) in Ha; [|eapply chain_up; eauto].
      destruct (descendant_parent t _ _ Ha) as (q & Hq & Hd). assert (q = p) as -> by congruence. destruct Hd as [->|Hd]; [apply reach_refl|apply reach_anc; exact Hd].
  Qed.
  Lemma try_later run P l l2 p n : (forall m, out_ok P m (run m)) -> children t p = l ++ n :: l2 ->
    match try_all LaterSibling run (rev l) with
    | Matched => exists a, In a l /\ P a
    | RestartLaterSibling => False
    | RestartDescendant => forall a, In a l -> ~ P a
    | NotGlobally => (forall a, In a l -> ~ P a) /\ exists q, In q l /\ forall x, reach t x q -> ~ P x
    end.
  Proof.
    intros R. revert n l2. induction l as [|m l IH] using rev_ind; intros n l2 E; [cbn; intros a []|].
    rewrite rev_app_distr. cbn [rev app try_all]. rewrite <- app_assoc in E. cbn in E. specialize (IH m (n :: l2) E).
    assert (forall a, In a l -> earlier t a m) as HE by (intros a Ha; apply (earlier_in t W _ _ _ _ _ E); exact Ha).
    pose proof (R m) as Rm. destruct (run m); cbn in Rm.
    - exists m. split; [apply in_elt|exact Rm].
    - destruct (try_all LaterSibling run (rev l)); [|exact IH| |].
      + destruct IH as (a & Ha & Hp). exists a. split; [apply in_or_app; auto|exact Hp].
      + intros a Ha. apply in_app_or in Ha as [Ha|[<-|[]]]; auto.
      + destruct IH as (IH1 & q & Hq & IH2). split; [|exists q; split; [apply in_or_app; auto|exact IH2]]. intros a Ha. apply in_app_or in Ha as [Ha|[<-|[]]]; auto.
    - intros a Ha. apply in_app_or in Ha as [Ha|[<-|[]]]; auto.
    - split; [|exists m; split; [apply in_elt|exact Rm]]. intros a Ha. apply Rm. apply in_app_or in Ha as [Ha|[<-|[]]]; [apply reach_earlier; auto|apply reach_refl].
  Qed.
  Lemma fuel_positive n p : parent t n = Some p -> exists f, fuel = S f.
  Proof. intros H. apply Hdepth in H. specialize (Hbound n). destruct fuel; [lia|eauto]. Qed.
  Lemma prev_cases n : match prev_sibling_element w n with Some q => just_before t q n | None => forall m, ~ earlier t m n end.
  Proof.
    destruct (parent t n) as [p|] eqn:E.
    - destruct (child_split t W n p E) as (l1 & l2 & El). rewrite (proj1 (links_of n p l1 l2 El)). destruct l1 as [|q l1 _] using rev_ind.
      + cbn. intros m H. apply (earlier_in t W _ _ _ _ _ El) in H. destruct H.
      + rewrite last_map. apply (just_before_last t W _ _ _ _ _ El). eauto.
    - rewrite (proj1 (links_root n E)). intros m H. destruct (earlier_parent t W _ _ H) as (q & _ & Hq). congruence.
  Qed.
  Lemma try_child k run P n : k = Child \/ k = PseudoOf -> (forall m, out_ok P m (run m)) ->
    out_ok (fun x => exists m, related t k m x /\ P m) n (try_all k run (chain (step_for w k) fuel n)).
  Proof.
    intros Hk R. assert (step_for w k = parent_element w) as Es by (destruct Hk as [-> | ->]; reflexivity).
    assert (forall m x, related t k m x <-> parent t x = Some m) as Er by (intros m x; destruct Hk as [-> | ->]; reflexivity).
    rewrite Es. destruct (parent t n) as [p|] eqn:E.
    - destruct (fuel_positive n p E) as [f Ef]. rewrite Ef. cbn [chain]. rewrite parent_element_eq, E. cbn [try_all].
      pose proof (R p) as Rp.
      assert (run p = Matched \/ run p = NotGlobally \/ (run p <> Matched /\ match run p, k with
      | Matched, _ => Matched | NotGlobally, _ => NotGlobally | r, NextSibling => r | _, Child | _, PseudoOf => RestartDescendant
      | RestartDescendant, LaterSibling => RestartDescendant | _, _ => try_all k run (chain (parent_element w) f p) end = RestartDescendant)) as D.
      { destruct Hk as [-> | ->]; destruct (run p); auto; right; right; split; auto; discriminate. }
      destruct D as [D|[D|[D1 D2]]].
      + rewrite D in *. cbn in *. exists p. rewrite Er. auto.
      + rewrite D in *. cbn in *. intros m Hm (x & Hx & Hp). rewrite Er in Hx. revert Hp. apply Rp. eapply reach_parent; eauto.
      + rewrite D2. cbn. intros m Hm (x & Hx & Hp). rewrite Er in Hx. assert (x = p) as ->.
        { destruct Hm as [->|Hm]; [congruence|]. destruct (earlier_parent t W _ _ Hm) as (q & Hq1 & Hq2). congruence. }
        eapply out_ok_not; eauto.
    - assert (chain (parent_element w) fuel n = []) as -> by (destruct fuel; cbn; rewrite ?parent_element_eq, ?E; reflexivity).
      cbn. replace (match k with NextSibling | LaterSibling => RestartDescendant | _ => NotGlobally end) with NotGlobally by (destruct Hk as [-> | ->]; reflexivity).
      cbn. intros m Hm (x & Hx & _). rewrite Er in Hx. apply (reach_root t W) in Hm; [|exact E]. congruence.
  Qed.
  Lemma try_ok k run P n : (forall m, out_ok P m (run m)) ->
    out_ok (fun x => exists m, related t k m x /\ P m) n (try_all k run (chain (step_for w k) fuel n)).
  Proof.
    intros R. destruct k; try (apply try_child; auto; fail).
    - (* Descendant *) cbn [step_for]. pose proof (chain_parents n) as HC.
      destruct (try_desc run P _ n R HC) as [[-> (a & Ha & Hp)]|[-> H]]; cbn.
      + exists a. split; [apply (chain_descendant t n _ HC); exact Ha|exact Hp].
      + intros m Hm (x & Hx & Hp). revert Hp. apply H. apply (chain_descendant t n _ HC). eapply reach_desc; eauto.
    - (* NextSibling *) cbn [step_for]. pose proof (prev_cases n) as HP. destruct (parent t n) as [p|] eqn:E; cycle 1.
      + rewrite (proj1 (chain_alone fuel n E)). cbn.
        intros m Hm (x & Hx & _). apply (just_before_earlier t) in Hx. assert (parent t m = None) as Em by (destruct Hm as [->|Hm]; [exact E|destruct (earlier_parent t W _ _ Hm) as (q & _ & Hq); congruence]).
        destruct (earlier_parent t W _ _ Hx) as (q & _ & Hq). congruence.
      + destruct (fuel_positive n p E) as [f Ef]. rewrite Ef. cbn [chain]. destruct (prev_sibling_element w n) as [q|].
        * cbn [try_all]. pose proof (R q) as Rq. destruct (run q) eqn:Eq; cbn in Rq |- *.
          -- exists q. auto.
          -- intros (x & Hx & Hp). rewrite (just_before_unique t W _ _ _ Hx HP) in Hp. contradiction.
          -- intros m Hm (x & Hx & Hp). revert Hp. apply Rq. destruct Hm as [->|Hm]; [left; eapply just_before_unique; eauto|].
             right. apply (earlier_case t W q n m HP) in Hm. destruct Hm as [->|Hm]; [apply just_before_earlier; exact Hx|]. eapply earlier_trans; [exact W| |exact Hm]. apply just_before_earlier; exact Hx.
          -- intros m Hm (x & Hx & Hp). revert Hp. apply Rq. destruct (reach_before t W x m n q Hm (just_before_earlier t _ _ Hx) (just_before_earlier t _ _ HP)) as [Hr|Hr]; [|exact Hr].
             apply (earlier_case t W q n x HP) in Hr. destruct Hr as [->|Hr]; [apply reach_refl|apply reach_earlier; exact Hr].
        * cbn. intros m Hm (x & Hx & _). apply just_before_earlier in Hx. destruct Hm as [->|Hm]; [eapply HP; eauto|]. eapply HP. eapply earlier_trans; eauto.
    - (* LaterSibling *) cbn [step_for]. destruct (parent t n) as [p|] eqn:E.
      + destruct (child_split t W n p E) as (l1 & l2 & El). assert (List.length l1 <= fuel) as Hl.
        { pose proof (family_length p) as Hf. rewrite El, app_length in Hf. lia. }
        rewrite (chain_prev p n l1 l2 fuel El Hl). pose proof (try_later run P l1 l2 p n R El) as H.
        destruct (try_all LaterSibling run (rev l1)); cbn.
        * destruct H as (a & Ha & Hp). exists a. split; [apply (earlier_in t W _ _ _ _ _ El); exact Ha|exact Hp].
        * destruct H.
        * intros m Hm (x & Hx & Hp). revert Hp. apply H. apply (earlier_in t W _ _ _ _ x El). destruct Hm as [->|Hm]; [exact Hx|eapply earlier_trans; eauto].
        * destruct H as (H1 & q & Hq & H2). intros m Hm (x & Hx & Hp). apply (earlier_in t W _ _ _ _ q El) in Hq.
          destruct (reach_before t W x m n q Hm Hx Hq) as [Hr|Hr]; [|exact (H2 x Hr Hp)]. apply (earlier_in t W _ _ _ _ x El) in Hr. exact (H1 x Hr Hp).
      + rewrite (proj1 (chain_alone fuel n E)). cbn. intros m Hm (x & Hx & _).
        assert (parent t m = None) as Em by (destruct Hm as [->|Hm]; [exact E|destruct (earlier_parent t W _ _ Hm) as (q & _ & Hq); congruence]).
        destruct (earlier_parent t W _ _ Hx) as (q & _ & Hq). congruence.
  Qed.

  (** *** [An+B] *)
  Lemma nth_index_spec a b i : nth_index_ok a b i = true <-> exists k : nat, (a * Z.of_nat k + b = i)%Z.
  Proof.
    unfold nth_index_ok. destruct (Z.eqb_spec a 0) as [->|Ha].
    - rewrite Z.eqb_eq. split; [intros H; exists 0; lia|intros [k H]; lia].
    - rewrite andb_true_iff, Z.leb_le, Z.eqb_eq. split.
      + intros [H1 H2]. exists (Z.to_nat (Z.quot (i - b) a)). rewrite Z2Nat.id by exact H1. lia.
      + intros [k H]. replace (i - b)%Z with (Z.of_nat k * a)%Z by lia. rewrite Z.quot_mul by exact Ha. lia.
  Qed.
  Lemma counted_filter (P : nat -> Prop) f l k : (forall x, f x = true <-> P x) -> (counted P l k <-> List.length (filter f l) = k).
  Proof.
    intros F. split.
    - induction 1 as [|x l k H _ IH|x l k H _ IH]; [reflexivity| |]; cbn.
      + apply F in H. rewrite H. cbn. lia.
      + destruct (f x) eqn:E; [apply F in E; contradiction|exact IH].
    - revert k. induction l as [|x l IH]; cbn; intros k H; [subst; constructor|]. destruct (f x) eqn:E.
      + cbn in H. subst. constructor; [apply F; exact E|apply IH; reflexivity].
      + apply counted_no; [intros Hp; apply F in Hp; congruence|apply IH; exact H].
  Qed.
  Lemma filter_rev {A} (f : A -> bool) l : List.length (filter f (rev l)) = List.length (filter f l).
  Proof. induction l as [|x l IH]; [reflexivity|]. cbn. rewrite filter_app, app_length, IH. cbn. destruct (f x); cbn; lia. Qed.
  Lemma family_split n : exists l1 l2, family t n = l1 ++ n :: l2 /\
    (forall m1 m2, family t n = m1 ++ n :: m2 -> l1 = m1 /\ l2 = m2) /\
    prev_sibling_element w n = last (map Some l1) None /\ next_sibling_element w n = hd_error l2 /\
    siblings_to w false fuel n = rev l1 /\ siblings_to w true fuel n = l2.
  Proof.
    unfold family, siblings_to. destruct (parent t n) as [p|] eqn:E.
    - destruct (child_split t W n p E) as (l1 & l2 & El). exists l1, l2. split; [exact El|]. split; [intros m1 m2 H; rewrite El in H; eapply same_split; eauto|].
      destruct (links_of n p l1 l2 El) as [H1 H2]. pose proof (family_length p) as Hf. rewrite El, app_length in Hf. cbn in Hf.
      split; [exact H1|]. split; [exact H2|]. split; [eapply chain_prev; eauto; lia|eapply chain_next; eauto; lia].
    - exists [], []. split; [reflexivity|]. split; [|destruct (links_root n E) as [H1 H2], (chain_alone fuel n E) as [H3 H4]; auto].
      intros m1 m2 H. destruct m1 as [|a m1]; [injection H as <-; auto|]. exfalso. destruct m1; discriminate.
  Qed.
  Lemma nth_ok from_end edge a b f (P : nat -> Prop) n : (forall x, f x = true <-> P x) -> (edge = true -> forall x, P x) ->
    (nth_matches w fuel from_end edge a b f n = true <-> nth_among t from_end a b P n).
  Proof.
    intros F HE. destruct (family_split n) as (l1 & l2 & Ef & U & Hprev & Hnext & Sp & Sn).
    assert (nth_among t from_end a b P n <-> exists i : nat, (a * Z.of_nat i + b = 1 + Z.of_nat (List.length (filter f (if from_end then l2 else l1))))%Z) as ->.
    { split.
      - intros (m1 & m2 & k & i & E & Hk & Hi). destruct (U m1 m2 E) as [<- <-]. apply (counted_filter P f _ _ F) in Hk. exists i. rewrite Hk. exact Hi.
      - intros [i Hi]. exists l1, l2, (List.length (filter f (if from_end then l2 else l1))), i. split; [exact Ef|]. split; [apply (counted_filter P f _ _ F); reflexivity|exact Hi]. }
    unfold nth_matches. destruct (edge && (a =? 0)%Z && (b =? 1)%Z)%bool eqn:Eb.
    - apply andb_true_iff in Eb as [Eb Hb]. apply andb_true_iff in Eb as [Eb Ha]. apply Z.eqb_eq in Ha, Hb. subst a b.
      assert (forall l, filter f l = l) as Hall. { induction l as [|x l IH]; [reflexivity|]. cbn. rewrite (proj2 (F x) (HE Eb x)), IH. reflexivity. }
      rewrite Hall. destruct from_end.
      + rewrite Hnext. destruct l2 as [|y l2]; cbn [hd_error List.length]; [split; [intros _; exists 0; reflexivity|reflexivity]|]. split; [discriminate|intros [i Hi]; lia].
      + rewrite Hprev. destruct l1 as [|y l1 _] using rev_ind; [cbn [map last List.length]; split; [intros _; exists 0; reflexivity|reflexivity]|]. rewrite last_map. split; [discriminate|].
        intros [i Hi]. rewrite app_length in Hi. cbn [List.length] in Hi. lia.
    - rewrite nth_index_spec. destruct from_end; [rewrite Sn; reflexivity|rewrite Sp, filter_rev; reflexivity].
  Qed.

  (** *** where [:has] looks *)
  Lemma children_walk n : first_and_next w fuel n = children t n.
  Proof.
    unfold first_and_next. rewrite first_child_eq. destruct (children t n) as [|c l] eqn:E; [reflexivity|]. cbn. f_equal.
    eapply (chain_next n c [] l); [exact E|]. pose proof (family_length n) as H. rewrite E in H. cbn in H. lia.
  Qed.
  Lemma subtree_gen k e m : descendant t e m -> depth m <= depth e + k -> In m (subtree w fuel k e).
  Proof.
    revert e. induction k as [|k IH]; intros e D H.
    - exfalso. assert (depth e < depth m); [|lia]. clear - D Hdepth. induction D as [e0 D|p e0 D IH D2]; [apply Hdepth in D; lia|apply Hdepth in D2; lia].
    - cbn [subtree]. rewrite children_walk. apply in_flat_map.
      assert (exists c, parent t c = Some e /\ (m = c \/ descendant t c m)) as (c & Hc & Hm).
      { clear - D. induction D as [e0 D|p e0 D IH D2]; [exists e0; auto|]. destruct IH as (c & Hc & [->|IH]); exists c; (split; [exact Hc|right]); [apply desc_child; exact D2|eapply desc_step; eauto]. }
      exists c. split; [apply (wf_agree _ W); exact Hc|]. destruct Hm as [->|Hm]; [left; reflexivity|right]. apply IH; [exact Hm|]. apply Hdepth in Hc. lia.
  Qed.
  Lemma subtree_all e m : descendant t e m -> In m (subtree w fuel fuel e).
  Proof. intros D. apply subtree_gen; [exact D|]. pose proof (Hbound m). lia. Qed.
  Lemma nexts_all e m : earlier t e m -> In m (chain (next_sibling_element w) fuel e).
  Proof.
    intros (p & l1 & l2 & l3 & E). rewrite (chain_next p e l1 (l2 ++ m :: l3) fuel E); [apply in_elt|].
    pose proof (family_length p) as H. rewrite E, app_length in H. cbn in H. lia.
  Qed.
  Lemma next_is e m : just_before t e m -> next_sibling_element w e = Some m.
  Proof. intros (p & l1 & l2 & E). rewrite (proj2 (links_of e p l1 (m :: l2) E)). reflexivity. Qed.

  Definition placed (s : complex) (n m : nat) : Prop :=
    let down := existsb vertical (others s) in
    let along := existsb (fun k => negb (vertical k)) (others s) in
    match leftmost s with
    | Some Descendant => descendant t n m
    | Some Child => if down then descendant t n m else parent t m = Some n
    | Some LaterSibling => if down then exists q, earlier t n q /\ descendant t q m else earlier t n m
    | Some NextSibling =>
        if down then exists q, (if along then earlier t n q else just_before t n q) /\ descendant t q m
        else if along then earlier t n m else just_before t n m
    | _ => False
    end.
  Lemma down_desc k x m q : vertical k = true -> related t k x m -> (x = q \/ descendant t q x) -> descendant t q m.
  Proof.
    intros V R H. destruct k; try discriminate; cbn in R.
    - destruct H as [->|H]; [apply desc_child; exact R|eapply desc_step; eauto].
    - destruct H as [->|H]; [exact R|eapply descendant_trans; eauto].
    - destruct H as [->|H]; [apply desc_child; exact R|eapply desc_step; eauto].
  Qed.
  Lemma side_earlier k x m : vertical k = false -> related t k x m -> earlier t x m.
  Proof. intros V R. destruct k; try discriminate; cbn in R; [apply just_before_earlier; exact R|exact R]. Qed.
  Lemma placed_sat s anchor m n : starts_relative s -> anchor = Some n -> sat w s anchor m -> placed s n m.
  Proof.
    intros Hs Ha. revert m Hs. induction s as [c|c k r IH]; intros m Hs Hsat; [destruct Hs|].
    destruct Hsat as [_ (x & Hx & Hr)]. destruct r as [c2|c2 k2 r2].
    - destruct Hs as [-> Hk]. cbn in Hr. destruct Hr as [[Hr|Hr] _]; [congruence|]. assert (x = n) as -> by congruence.
      destruct k; cbn in *; try exact Hx. contradiction.
    - specialize (IH x Hs Hr). unfold placed in *. change (leftmost (Then c k (Then c2 k2 r2))) with (match leftmost (Then c2 k2 r2) with None => Some k | o => o end).
      change (others (Then c k (Then c2 k2 r2))) with (k :: others (Then c2 k2 r2)).
      destruct (leftmost (Then c2 k2 r2)) as [k0|]; [|destruct IH]. cbn [existsb]. set (o := others (Then c2 k2 r2)) in *. clearbody o.
      destruct (vertical k) eqn:V; cbn [negb orb].
      + pose proof (fun q => down_desc k x m q V Hx) as HD. destruct k0; try exact IH.
        * destruct (existsb vertical o); apply HD; [right; exact IH|right; apply desc_child; exact IH].
        * apply HD. right; exact IH.
        * destruct (existsb vertical o).
          -- destruct IH as (q & H1 & H2). exists q. split; [exact H1|]. apply HD. right; exact H2.
          -- exists x. split; [exact IH|]. apply HD. left; reflexivity.
        * destruct (existsb vertical o).
          -- destruct IH as (q & H1 & H2). exists q. split; [exact H1|]. apply HD. right; exact H2.
          -- exists x. split; [exact IH|]. apply HD. left; reflexivity.
      + pose proof (side_earlier k x m V Hx) as HE. assert (forall q, descendant t q x -> descendant t q m) as HD by (intros q; apply (descendant_earlier t W q x m HE)).
        destruct k0; try exact IH.
        * destruct (existsb vertical o); [apply HD; exact IH|]. destruct (earlier_parent t W _ _ HE) as (q & H1 & H2). congruence.
        * apply HD. exact IH.
        * destruct (existsb vertical o).
          -- destruct IH as (q & H1 & H2). exists q. split; [|apply HD; exact H2]. destruct (existsb (fun k => negb (vertical k)) o); [exact H1|apply just_before_earlier; exact H1].
          -- eapply earlier_trans; [exact W| |exact HE]. destruct (existsb (fun k => negb (vertical k)) o); [exact IH|apply just_before_earlier; exact IH].
        * destruct (existsb vertical o).
          -- destruct IH as (q & H1 & H2). exists q. split; [exact H1|apply HD; exact H2].
          -- eapply earlier_trans; [exact W|exact IH|exact HE].
  Qed.
  Lemma has_complete s n m : starts_relative s -> sat w s (Some n) m -> In m (has_candidates w fuel s n).
  Proof.
    intros Hs Hm. apply (placed_sat s (Some n) m n Hs eq_refl) in Hm. unfold placed in Hm. unfold has_candidates.
    destruct (leftmost s) as [[]|]; try contradiction.
    - destruct (existsb vertical (others s)); [apply subtree_all; exact Hm|]. rewrite children_walk. apply (wf_agree _ W). exact Hm.
    - apply subtree_all. exact Hm.
    - destruct (existsb vertical (others s)).
      + destruct Hm as (q & H1 & H2). apply in_flat_map. exists q. split; [|apply subtree_all; exact H2].
        destruct (existsb (fun k => negb (vertical k)) (others s)); [apply nexts_all; exact H1|rewrite (next_is n q H1); left; reflexivity].
      + destruct (existsb (fun k => negb (vertical k)) (others s)); [apply nexts_all; exact Hm|rewrite (next_is n m Hm); left; reflexivity].
    - destruct (existsb vertical (others s)).
      + destruct Hm as (q & H1 & H2). apply in_flat_map. exists q. split; [apply nexts_all; exact H1|apply subtree_all; exact H2].
      + apply nexts_all. exact Hm.
  Qed.


  Lemma all_forallb {A} (f : A -> bool) (P : A -> Prop) l : Forall (fun x => f x = true <-> P x) l -> (forallb f l = true <-> all_of P l).
  Proof. induction 1 as [|x l H _ IH]; [cbn; tauto|]. cbn. rewrite andb_true_iff, H, IH. reflexivity. Qed.
  Lemma any_existsb {A} (f : A -> bool) (P : A -> Prop) l : Forall (fun x => f x = true <-> P x) l -> (existsb f l = true <-> any_of P l).
  Proof. induction 1 as [|x l H _ IH]; [cbn; split; [discriminate|tauto]|]. cbn. rewrite orb_true_iff, H, IH. reflexivity. Qed.
  Lemma all_of_forall {A} (P : A -> Prop) l : all_of P l -> Forall P l.
  Proof. induction l as [|x l IH]; cbn; [constructor|]. intros [H1 H2]. constructor; auto. Qed.
  Lemma ask_spec n f P : (forall d, w_data w n = Some d -> (f d = true <-> P d)) -> (ask w n f = true <-> exists d, w_data w n = Some d /\ P d).
  Proof.
    intros H. unfold ask. destruct (w_data w n) as [d|]; [|split; [discriminate|intros (d & E & _); discriminate]]. rewrite (H d eq_refl). split; [eauto|intros (d' & E & Hp)]. injection E as <-. exact Hp.
  Qed.
  Lemma opt_eqb_spec a b : opt_eqb a b = true <-> a = b.
  Proof. destruct a, b; cbn; try rewrite String.eqb_eq; split; congruence. Qed.
  Lemma attribute_spec d k v : NoDup (map fst (nd_attributes d)) -> (attribute d k = Some v <-> In (k, v) (nd_attributes d)).
  Proof.
    unfold attribute. generalize (nd_attributes d). induction l as [|[k2 v2] l IH]; intros N; [cbn; split; [discriminate|tauto]|].
    cbn. cbn in N. inversion N; subst. destruct (String.eqb_spec k2 k) as [->|Hk]; cbn.
    - split; [intros E; injection E as ->; auto|]. intros [E|E]; [injection E as ->; reflexivity|]. exfalso. apply H1. apply in_map_iff. exists (k, v). auto.
    - rewrite IH by assumption. split; [auto|]. intros [E|E]; [congruence|exact E].
  Qed.
  Lemma attribute_none d k : attribute d k = None -> forall v, ~ In (k, v) (nd_attributes d).
  Proof.
    unfold attribute. generalize (nd_attributes d). induction l as [|[k2 v2] l IH]; intros E v H; [destruct H|]. cbn in E. destruct (String.eqb_spec k2 k) as [->|Hk]; [discriminate|].
    destruct H as [H|H]; [congruence|]. exact (IH E v H).
  Qed.
  Lemma same_type_spec n m : is_same_type w n m = true <-> same_type w n m.
  Proof.
    unfold is_same_type, same_type. rewrite ask_spec with (P := fun d => exists e name, w_data w m = Some e /\ nd_type d = Some name /\ nd_type e = Some name).
    - split; [intros (d & H & e & name & H2)|intros (d & e & name & H & H2)]; eauto 10.
    - intros d _. rewrite ask_spec with (P := fun e => exists name, nd_type d = Some name /\ nd_type e = Some name).
      + split; [intros (e & H & name & H2)|intros (e & name & H & H2)]; eauto 10.
      + intros e _. destruct (nd_type d) as [x|]; [|split; [discriminate|intros (y & H & _); discriminate]]. rewrite opt_eqb_spec. split; [eauto|intros (y & H1 & H2); congruence].
  Qed.
  Lemma leaf_ok x : match x with NthOf _ _ _ _ | Is _ _ | Not _ | Has _ => True | _ => parsed_simple x -> forall anchor n, test w fuel x anchor n = true <-> holds w x anchor n end.
  Proof.
    destruct x; try exact I; intros _ anchor n; cbn [test holds].
    - tauto.
    - apply ask_spec. intros d _. apply opt_eqb_spec.
    - apply ask_spec. intros d _. destruct (nd_id d); [rewrite String.eqb_eq; split; congruence|split; discriminate].
    - apply ask_spec. intros d _. rewrite existsb_exists. split; [intros (c & H1 & H2); apply String.eqb_eq in H2; subst; exact H1|intros H; exists s; split; [exact H|apply String.eqb_refl]].
    - unfold has_attr. rewrite ask_spec with (P := fun d => exists v, In (k, v) (nd_attributes d)).
      + split; [intros (d & H & v & H2)|intros (d & v & H & H2)]; eauto.
      + intros d Hd. pose proof (c_keys _ _ C n d Hd) as N. destruct (attribute d k) as [v|] eqn:E.
        * split; [intros _; exists v; apply attribute_spec; assumption|reflexivity].
        * split; [discriminate|intros [v Hv]; exfalso; eapply attribute_none; eauto].
    - unfold attr_matches. rewrite ask_spec with (P := fun d => exists v, In (k, v) (nd_attributes d) /\ op v = true).
      + split; [intros (d & H & v & H2)|intros (d & v & H & H2)]; eauto.
      + intros d Hd. pose proof (c_keys _ _ C n d Hd) as N. destruct (attribute d k) as [v|] eqn:E.
        * apply attribute_spec in E; [|exact N]. split; [eauto|intros (v2 & H1 & H2)]. apply (attribute_spec d k v2 N) in H1. apply (attribute_spec d k v N) in E. congruence.
        * split; [discriminate|intros (v & Hv & _); exfalso; eapply attribute_none; eauto].
    - apply ask_spec. tauto.
    - unfold is_root. rewrite ask_spec with (P := fun d => parent t n = None); [|intros d Hd; apply (c_root _ _ C n d Hd)].
      destruct (w_data w n) as [d|]; split; [intros (d2 & _ & H); split; [discriminate|exact H]|intros [_ H]; eauto|intros (d2 & H & _); discriminate|intros [H _]; contradiction].
    - unfold is_empty. destruct (children t n); cbn; split; congruence.
    - apply ask_spec. intros d _. destruct (nd_pseudo d) as [[]|], k; split; congruence.
    - destruct anchor as [a|]; [rewrite Nat.eqb_eq; split; [intros ->; auto|intros [H|H]; congruence]|tauto].
    - apply nth_ok.
      + intros m. destruct of_type; cbn; [rewrite same_type_spec; tauto|split; [discriminate|reflexivity]].
      + intros E m H. destruct of_type; discriminate.
  Qed.
  Lemma run_ok s : parsed s -> forall anchor n, out_ok (sat w s anchor) n (run w fuel s anchor n).
  Proof.
    revert s. apply (complex_all (fun s => parsed s -> forall anchor n, out_ok (sat w s anchor) n (run w fuel s anchor n))
      (fun x => parsed_simple x -> forall anchor n, test w fuel x anchor n = true <-> holds w x anchor n)).
    - intros c F HP anchor n. cbn [run sat]. assert (forallb (fun x => test w fuel x anchor n) c = true <-> all_of (fun x => holds w x anchor n) c) as H.
      { apply all_forallb. apply all_of_forall in HP. rewrite Forall_forall in *. intros x Hx. apply (F x Hx (HP x Hx)). }
      destruct (forallb _ c); cbn; [apply H; reflexivity|intros Hp; apply H in Hp; discriminate].
    - intros c k r F IH [HP HPr] anchor n. cbn [run sat]. assert (forallb (fun x => test w fuel x anchor n) c = true <-> all_of (fun x => holds w x anchor n) c) as H.
      { apply all_forallb. apply all_of_forall in HP. rewrite Forall_forall in *. intros x Hx. apply (F x Hx (HP x Hx)). }
      destruct (forallb _ c); [|cbn; intros [Hp _]; apply H in Hp; discriminate].
      pose proof (try_ok k (run w fuel r anchor) (sat w r anchor) n (IH HPr anchor)) as T.
      destruct (try_all _ _ _); cbn in *.
      + split; [apply H; reflexivity|exact T].
      + intros [_ Hp]. auto.
      + intros m Hm [_ Hp]. exact (T m Hm Hp).
      + intros m Hm [_ Hp]. exact (T m Hm Hp).
    - intros e a b l F HP anchor n. cbn [test holds]. apply all_of_forall in HP.
      assert (forall m, existsb (fun s => is_matched (run w fuel s anchor m)) l = true <-> any_of (fun s => sat w s anchor m) l) as H.
      { intros m. apply any_existsb. rewrite Forall_forall in *. intros s Hs. eapply out_ok_matched. apply (F s Hs (HP s Hs)). }
      rewrite andb_true_iff, H. rewrite (nth_ok e false a b _ _ n H); [reflexivity|discriminate].
    - intros wh l F HP anchor n. cbn [test holds]. apply all_of_forall in HP. apply any_existsb. rewrite Forall_forall in *. intros s Hs. eapply out_ok_matched. apply (F s Hs (HP s Hs)).
    - intros l F HP anchor n. cbn [test holds]. apply all_of_forall in HP.
      assert (existsb (fun s => is_matched (run w fuel s anchor n)) l = true <-> any_of (fun s => sat w s anchor n) l) as H.
      { apply any_existsb. rewrite Forall_forall in *. intros s Hs. eapply out_ok_matched. apply (F s Hs (HP s Hs)). }
      rewrite <- H. destruct (existsb _ l); cbn; split; congruence.
    - intros l F HP anchor n. cbn [test holds]. apply all_of_forall in HP. apply any_existsb. rewrite Forall_forall in *. intros s Hs.
      destruct (HP s Hs) as [Hr Hps]. assert (forall m, is_matched (run w fuel s (Some n) m) = true <-> sat w s (Some n) m) as H by (intros m; eapply out_ok_matched; apply (F s Hs Hps)).
      rewrite existsb_exists. split; [intros (m & _ & Hm); exists m; apply H; exact Hm|intros [m Hm]; exists m; split; [apply has_complete; assumption|apply H; exact Hm]].
    - apply leaf_ok.
  Qed.
End World.

Lemma matching_ok nodes w : consistent nodes w -> exists enough, forall fuel, enough <= fuel -> forall s, parsed s -> forall n,
  matches_selector w fuel s n = true <-> sat w s None n.
Proof.
  intros C. destruct (wf_depth _ (c_forest _ _ C)) as (depth & bound & H1 & H2). exists (Nat.max (List.length nodes) bound). intros fuel F s P n.
  unfold matches_selector. eapply out_ok_matched. eapply (run_ok nodes w C fuel) with (depth := depth); [lia|exact H1| |exact P].
  intros m. specialize (H2 m). lia.
Qed.

(** ** Pseudo-elements *)
Lemma strip_descendant w a n : pseudo_leaves w -> real w n = true -> (descendant (w_tree (without_pseudo w)) a n <-> descendant (w_tree w) a n).
Proof.
  intros L R. split.
  - induction 1 as [e H|p e H IH H2]; cbn in *.
    + destruct (real w e); [|discriminate]. apply desc_child. exact H.
    + destruct (real w e) eqn:E; [|discriminate]. eapply desc_step; [apply IH; eapply L; eauto|exact H2].
  - intros D. revert R. induction D as [e H|p e H IH H2]; intros R.
    + apply desc_child. cbn. rewrite R. exact H.
    + eapply desc_step; [apply IH; eapply L; eauto|]. cbn. rewrite R. exact H2.
Qed.
Lemma all_of_iff {A} (P Q : A -> Prop) l : (forall x, In x l -> (P x <-> Q x)) -> (all_of P l <-> all_of Q l).
Proof. induction l as [|x l IH]; cbn; intros H; [tauto|]. rewrite IH by auto. rewrite (H x) by auto. tauto. Qed.
Lemma any_of_iff {A} (P Q : A -> Prop) l : (forall x, In x l -> (P x <-> Q x)) -> (any_of P l <-> any_of Q l).
Proof. induction l as [|x l IH]; cbn; intros H; [tauto|]. rewrite IH by auto. rewrite (H x) by auto. tauto. Qed.
Lemma all_of_in {A} (P : A -> Prop) l x : all_of P l -> In x l -> P x.
Proof. induction l as [|y l IH]; cbn; [tauto|]. intros [H1 H2] [<-|H]; auto. Qed.
Lemma strip_sat w : pseudo_leaves w -> forall s, upwards s -> forall anchor n, real w n = true -> (sat w s anchor n <-> sat (without_pseudo w) s anchor n).
Proof.
  intros L. apply (complex_all (fun s => upwards s -> forall anchor n, real w n = true -> (sat w s anchor n <-> sat (without_pseudo w) s anchor n))
    (fun x => upwards_simple x -> forall anchor n, real w n = true -> (holds w x anchor n <-> holds (without_pseudo w) x anchor n))).
  - intros c F U anchor n R. cbn [sat]. apply all_of_iff. intros x Hx. rewrite Forall_forall in F. apply F; auto. eapply all_of_in in Hx; eauto.
  - intros c k r F IH (U & Hk & Ur) anchor n R. cbn [sat].
    rewrite (all_of_iff _ (fun x => holds (without_pseudo w) x anchor n) c). 2:{ intros x Hx. rewrite Forall_forall in F. apply F; auto. eapply all_of_in in Hx; eauto. }
    assert (forall m, (related (w_tree w) k m n /\ sat w r anchor m) <-> (related (w_tree (without_pseudo w)) k m n /\ sat (without_pseudo w) r anchor m)) as E.
    { intros m. assert (related (w_tree w) k m n <-> related (w_tree (without_pseudo w)) k m n) as Er.
      { destruct Hk as [-> | ->]; [cbn; rewrite R; tauto|]. cbn [related]. rewrite strip_descendant; tauto. }
      rewrite <- Er. split; intros [H1 H2]; split; auto; (apply IH; auto).
      all: destruct Hk as [-> | ->]; cbn in H1; [eapply L; eauto|]; clear - H1 L; induction H1; eauto. }
    split; intros [H1 (m & H2)]; (split; [exact H1|]); exists m; apply E; exact H2.
  - intros e a b l _ [].
  - intros wh l F U anchor n R. cbn [holds]. apply any_of_iff. intros s Hs. rewrite Forall_forall in F. apply F; auto. eapply all_of_in in Hs; eauto.
  - intros l F U anchor n R. cbn [holds].
    rewrite (any_of_iff (fun s => sat w s anchor n) (fun s => sat (without_pseudo w) s anchor n) l); [tauto|]. intros s Hs. rewrite Forall_forall in F. apply F; auto. eapply all_of_in in Hs; eauto.
  - intros l _ [].
  - intros x; destruct x; try exact I; intros U anchor n R; try (destruct U; fail); try (cbn; tauto). cbn. rewrite R. tauto.
Qed.

(** ** Histories *)
Lemma first_loop_root w added changed has s s' e : first_loop w added changed has s = Some s' -> parent w e = None -> link s' e = link s e.
Proof.
  revert s. induction has as [|x has IH]; intros s H He; [injection H as <-; reflexivity|]. cbn in H. destruct (parent w x) as [p|] eqn:E; [|eauto].
  destruct (negb (added x) && negb (changed p))%bool; [eauto|]. destruct (recalculate_with x (iter_ui_siblings w x)); [|discriminate].
  rewrite (IH _ H He). cbn. destruct (Nat.eqb_spec e x) as [->|_]; [congruence|reflexivity].
Qed.
Lemma children_loop_root w has p l s s' e : children_loop w has p l s = Some s' -> (forall x, In x l -> parent w x <> None) -> parent w e = None -> link s' e = link s e.
Proof.
  revert s. induction l as [|x l IH]; intros s H Hl He; [injection H as <-; reflexivity|]. cbn in H.
  destruct (existsb (Nat.eqb p) (recalculated s)); [apply IH; auto; intros; apply Hl; right; auto|]. destruct (negb (existsb (Nat.eqb x) has)); [apply IH; auto; intros; apply Hl; right; auto|].
  destruct (recalculate_with x (iter_ui_siblings w x)); [|discriminate]. rewrite (IH _ H); auto; [|intros; apply Hl; right; auto].
  cbn. destruct (Nat.eqb_spec e x) as [->|_]; [exfalso; apply (Hl x); [left; reflexivity|exact He]|reflexivity].
Qed.
Lemma second_loop_root w has ps s s' e : wf_forest w -> second_loop w has ps s = Some s' -> parent w e = None -> link s' e = link s e.
Proof.
  intros W. revert s. induction ps as [|p ps IH]; intros s H He; [injection H as <-; reflexivity|]. cbn in H. destruct (children_loop w has p (children w p) s) as [s1|] eqn:E; [|discriminate].
  rewrite (IH _ H He). eapply children_loop_root; eauto. intros x Hx. apply (wf_agree _ W) in Hx. congruence.
Qed.
Lemma sync_root w added changed has s s' e : wf_forest w -> sync_siblings w added changed has s = Some s' -> parent w e = None -> s' e = s e.
Proof.
  intros W H He. unfold sync_siblings in H. destruct (first_loop _ _ _ _ _) as [s1|] eqn:E; [|discriminate]. destruct (second_loop w has changed s1) as [s2|] eqn:E2; [|discriminate].
  injection H as <-. rewrite (second_loop_root _ _ _ _ _ _ W E2 He). rewrite (first_loop_root _ _ _ _ _ _ _ E He). reflexivity.
Qed.
Lemma roots_unlinked fs f0 s0 s : all_noticed f0 fs -> never_detached f0 fs -> link_frames fs s0 = Some s ->
  (forall e, In e (l_has f0) -> parent (l_tree f0) e = None -> s0 e = no_siblings) ->
  forall e, In e (l_has (last fs f0)) -> parent (l_tree (last fs f0)) e = None -> s e = no_siblings.
Proof.
  revert f0 s0. induction fs as [|f fs IH]; intros f0 s0 N D L H0 e He Hp; [injection L as <-; auto|].
  assert (last (f :: fs) f0 = last fs f) as EL.
  { clear. revert f f0. induction fs as [|g fs IH]; intros f f0; [reflexivity|]. change (last (g :: fs) f0 = last (g :: fs) f). rewrite (IH g f0), (IH g f). reflexivity. }
  rewrite EL in *. destruct N as [N1 N2], D as [D1 D2]. cbn in L. destruct (link_frame f s0) as [s1|] eqn:E1; [|discriminate].
  eapply (IH f s1 N2 D2 L); eauto. clear e He Hp. intros e He Hp. unfold link_frame in E1. rewrite (sync_root _ _ _ _ _ _ e (proj1 N1) E1 Hp).
  destruct (l_added f e) eqn:Ea; [reflexivity|]. apply H0; [apply N1; assumption|]. destruct (parent (l_tree f0) e) eqn:Ep; [|reflexivity]. exfalso. apply (D1 e He Ea); [congruence|exact Hp].
Qed.

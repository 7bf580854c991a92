From Verif Require Import Base Tree TreeSpec.

Lemma collect_more {S I} (next : S -> option (I * S)) n m s l :
  n <= m -> collect next n s = Some l -> collect next m s = Some l.
Proof.
  revert m s l; induction n as [|n IH]; intros m s l Hm H; [discriminate|].
  destruct m as [|m]; [lia|]. simpl in *.
  destruct (next s) as [[i s']|]; [|exact H].
  destruct (collect next n s') as [l'|] eqn:E; [|discriminate].
  rewrite (IH m s' l') by (auto; lia). exact H.
Qed.

Lemma collect_det {S I} (next : S -> option (I * S)) n m s l l' :
  collect next n s = Some l -> collect next m s = Some l' -> l = l'.
Proof.
  intros H H'. destruct (Nat.le_ge_cases n m) as [Hle|Hle].
  - rewrite (collect_more next n m s l Hle H) in H'. congruence.
  - rewrite (collect_more next m n s l' Hle H') in H. congruence.
Qed.

(** ** Ancestors *)

Lemma ancestors_collect w e l : ancestor_chain w e l -> iter_ui_ancestors w (S (length l)) e = Some l.
Proof.
  induction 1 as [e He|e p l He Hc IH]; unfold iter_ui_ancestors in *.
  - simpl. rewrite He. reflexivity.
  - cbn [collect ancestors_next length]. rewrite He. simpl in IH |- *.
    rewrite IH. reflexivity.
Qed.

Lemma chain_exists w e : wf_forest w -> exists l, ancestor_chain w e l.
Proof.
  intros Hw. destruct (wf_depth w Hw) as (depth & bound & Hd & _).
  remember (depth e) as d eqn:Ed. revert e Ed. induction d as [d IH] using lt_wf_ind; intros e Ed.
  destruct (parent w e) as [p|] eqn:Hp.
  - destruct (IH (depth p)) with (e := p) as [l Hl]; [rewrite (Hd e p Hp) in Ed; lia|reflexivity|].
    exists (p :: l). constructor; assumption.
  - exists []. constructor; assumption.
Qed.

Lemma chain_det w e l l' : ancestor_chain w e l -> ancestor_chain w e l' -> l = l'.
Proof.
  intros H; revert l'; induction H as [e He|e p l He Hc IH]; intros l' H'; inversion H'; subst; try congruence.
  rewrite He in H. injection H as <-. f_equal. auto.
Qed.

Lemma chain_descendant w e l : ancestor_chain w e l -> forall a, In a l <-> descendant w a e.
Proof.
  induction 1 as [e He|e p l He Hc IH]; intros a; simpl.
  - split; [tauto|]. intros H. inversion H; congruence.
  - split.
    + intros [<-|H]; [constructor; exact He|]. apply IH in H. econstructor 2; eauto.
    + intros H. inversion H as [x Hx|q x Hq Hx]; subst.
      * left. congruence.
      * right. apply IH. assert (p = q) by congruence. subst. exact Hq.
Qed.

Lemma ancestors_correct w e : wf_forest w ->
  exists n0 l, ancestor_chain w e l /\ forall n, n0 <= n -> iter_ui_ancestors w n e = Some l.
Proof.
  intros Hw. destruct (chain_exists w e Hw) as [l Hl].
  exists (S (length l)), l. split; [exact Hl|]. intros n Hn.
  eapply collect_more; [exact Hn|]. apply ancestors_collect, Hl.
Qed.

(** ** Descendants *)

Definition edges_below (w : forest) (q : list (nat * nat)) : list (nat * nat) :=
  flat_map (fun pe => map (fun c => (snd pe, c)) (children w (snd pe))) q.

Fixpoint levels (w : forest) (k : nat) (q : list (nat * nat)) : list (nat * nat) :=
  match k with
  | 0 => []
  | S k => q ++ levels w k (edges_below w q)
  end.

Lemma collect_level w q rest l n :
  collect (descendants_next w) n (rest ++ edges_below w q) = Some l ->
  collect (descendants_next w) (length q + n) (q ++ rest) = Some (q ++ l).
Proof.
  revert rest l n; induction q as [|[p e] q IH]; intros rest l n H; simpl in *.
  - rewrite app_nil_r in H. exact H.
  - rewrite <- app_assoc. rewrite (IH (rest ++ map (fun c => (e, c)) (children w e)) l n); [reflexivity|].
    rewrite <- app_assoc. exact H.
Qed.

Lemma collect_levels w k q : levels w (S k) q = levels w k q ->
  exists n, collect (descendants_next w) n q = Some (levels w k q).
Proof.
  revert q; induction k as [|k IH]; intros q H.
  - simpl in H. rewrite app_nil_r in H. subst q. exists 1. reflexivity.
  - change (q ++ levels w (S k) (edges_below w q) = q ++ levels w k (edges_below w q)) in H.
    apply app_inv_head in H. destruct (IH _ H) as [n Hn].
    exists (length q + n). cbn [levels]. pose proof (collect_level w q [] _ n Hn) as E.
    rewrite app_nil_r in E. exact E.
Qed.

Section Levels.
  Variable w : forest.
  Hypothesis Hw : wf_forest w.
  Variable depth : nat -> nat.
  Variable bound : nat.
  Hypothesis Hd : forall c p, parent w c = Some p -> depth c = S (depth p).
  Hypothesis Hb : forall n, depth n <= bound.

  Definition good_level (q : list (nat * nat)) (d : nat) : Prop :=
    NoDup (map snd q) /\ forall p e, In (p, e) q -> parent w e = Some p /\ depth e = d.

  Lemma good_below q d : good_level q d -> good_level (edges_below w q) (S d).
  Proof.
    intros [Hn Hq]. split.
    - clear d Hq. unfold edges_below. induction q as [|[p e] q IH]; simpl; [constructor|].
      inversion Hn as [|? ? He Hn']; subst. specialize (IH Hn').
      rewrite map_app, map_map, map_id.
      assert (Happ : forall a b : list nat, NoDup a -> NoDup b -> (forall x, In x a -> ~ In x b) -> NoDup (a ++ b)).
      { clear. induction a as [|x a IHa]; simpl; intros b Ha Hb Hab; [exact Hb|].
        inversion Ha; subst. constructor.
        - rewrite in_app_iff. intros [H|H]; [tauto|]. apply (Hab x); auto.
        - apply IHa; auto. }
      apply Happ; [apply (wf_nodup w Hw)|exact IH|].
      intros c Hc Hc'. apply (wf_agree w Hw) in Hc.
      apply in_map_iff in Hc' as ([p' c'] & Ec & Hc'). simpl in Ec. subst c'.
      apply in_flat_map in Hc' as ([p2 e2] & Hin & Hc'). simpl in Hc'.
      apply in_map_iff in Hc' as (c2 & E2 & Hc2). injection E2 as <- <-.
      apply (wf_agree w Hw) in Hc2. assert (e = e2) by congruence. subst e2.
      apply He. change e with (snd (p2, e)). apply in_map, Hin.
    - intros p e H. apply in_flat_map in H as ([p1 e1] & Hin & H). simpl in H.
      apply in_map_iff in H as (c & E & Hc). injection E as <- <-.
      apply (wf_agree w Hw) in Hc. destruct (Hq _ _ Hin) as [_ Hde].
      split; [exact Hc|]. rewrite (Hd _ _ Hc). congruence.
  Qed.

  Lemma levels_depth k q d : good_level q d -> forall p e, In (p, e) (levels w k q) ->
    parent w e = Some p /\ d <= depth e < d + k.
  Proof.
    revert q d; induction k as [|k IH]; intros q d Hg p e H; simpl in H; [tauto|].
    apply in_app_iff in H as [H|H].
    - destruct Hg as [_ Hq]. destruct (Hq _ _ H). split; [assumption|lia].
    - destruct (IH _ (S d) (good_below _ _ Hg) _ _ H). split; [assumption|lia].
  Qed.

  Lemma levels_nodup k q d : good_level q d -> NoDup (map snd (levels w k q)).
  Proof.
    revert q d; induction k as [|k IH]; intros q d Hg; simpl; [constructor|].
    rewrite map_app.
    pose proof (IH _ _ (good_below _ _ Hg)) as H2. destruct Hg as [H1 Hq].
    pose proof (levels_depth k (edges_below w q) (S d) (good_below _ _ (conj H1 Hq))) as Hdep.
    assert (Hdisj : forall x, In x (map snd q) -> ~ In x (map snd (levels w k (edges_below w q)))).
    { intros x Hx Hx'. apply in_map_iff in Hx as ([p e] & <- & Hx).
      apply in_map_iff in Hx' as ([p' e'] & E & Hx'). simpl in *. subst e'.
      destruct (Hq _ _ Hx) as [_ E1]. destruct (Hdep _ _ Hx') as [_ E2]. lia. }
    revert H1 H2 Hdisj. generalize (map snd q) (map snd (levels w k (edges_below w q))). clear.
    induction l as [|x a IHa]; simpl; intros b Ha Hb Hab; [exact Hb|].
    inversion Ha; subst. constructor.
    - rewrite in_app_iff. intros [H|H]; [tauto|]. apply (Hab x); auto.
    - apply IHa; auto.
  Qed.

  Lemma level_empty_beyond q d : good_level q d -> bound < d -> q = [].
  Proof.
    intros [_ Hq] H. destruct q as [|[p e] q]; [reflexivity|].
    destruct (Hq p e (or_introl eq_refl)) as [_ E]. pose proof (Hb e). lia.
  Qed.

  Lemma levels_stable k q d : good_level q d -> bound < d + k -> levels w (S k) q = levels w k q.
  Proof.
    revert q d; induction k as [|k IH]; intros q d Hg H.
    - simpl. rewrite app_nil_r. apply (level_empty_beyond q d Hg). lia.
    - cbn [levels] in *. f_equal. apply (IH _ (S d)); [apply good_below, Hg|lia].
  Qed.

  (** parents first, inside [levels] *)
  Lemma levels_parent_first k q d : good_level q d ->
    forall l1 p e l2, levels w k q = l1 ++ (p, e) :: l2 ->
    In (p, e) q \/ In p (map snd l1).
  Proof.
    revert q d; induction k as [|k IH]; intros q d Hg l1 p e l2 E; simpl in E.
    - destruct l1; discriminate.
    - assert (Hcase : (exists t, q = l1 ++ (p, e) :: t) \/ (exists t, l1 = q ++ t /\ levels w k (edges_below w q) = t ++ (p, e) :: l2)).
      { clear -E. revert E. generalize (levels w k (edges_below w q)) as lv. intros lv E.
        revert l1 E. induction q as [|x q IHq]; intros l1 E; simpl in *.
        - right. exists l1. auto.
        - destruct l1 as [|y l1]; simpl in *.
          + injection E as -> _. left. exists q. reflexivity.
          + injection E as -> E. destruct (IHq l1 E) as [[t ->]|(t & -> & E')].
            * left. exists t. reflexivity.
            * right. exists t. auto. }
      destruct Hcase as [[t ->]|(t & -> & E')].
      + left. apply in_elt.
      + right. rewrite map_app, in_app_iff.
        destruct (IH _ (S d) (good_below _ _ Hg) _ _ _ _ E') as [Hin|Hin]; [left|right; exact Hin].
        apply in_flat_map in Hin as ([p1 e1] & Hin & H). simpl in H.
        apply in_map_iff in H as (c & Ec & Hc). injection Ec as <- <-.
        change e1 with (snd (p1, e1)). apply in_map, Hin.
  Qed.

  (** descendants are exactly covered *)
  Lemma levels_closed k q d p e : good_level q d -> bound < d + k ->
    In p (map snd (levels w k q)) -> parent w e = Some p -> In (p, e) (levels w k q).
  Proof.
    revert q d; induction k as [|k IH]; intros q d Hg Hk Hp He; simpl in *; [tauto|].
    rewrite map_app, in_app_iff in Hp. rewrite in_app_iff. right.
    destruct Hp as [Hp|Hp].
    - destruct k as [|k].
      + destruct Hg as [_ Hq]. apply in_map_iff in Hp as ([p' e'] & E & Hp). simpl in E. subst e'.
        destruct (Hq _ _ Hp) as [_ Ep]. pose proof (Hb e). rewrite (Hd _ _ He) in H. lia.
      + cbn [levels]. rewrite in_app_iff. left. apply in_flat_map.
        apply in_map_iff in Hp as (pe & E & Hp). exists pe. split; [exact Hp|].
        rewrite E. apply in_map_iff. exists e. split; [reflexivity|]. apply (wf_agree w Hw), He.
    - apply (IH _ (S d)); auto; [apply good_below, Hg|lia].
  Qed.

  Lemma levels_descendant k q d r : good_level q d ->
    (forall p e, In (p, e) q -> p = r) ->
    forall p e, In (p, e) (levels w k q) -> descendant w r e.
  Proof.
    intros Hg Hr. assert (H : forall k q d, good_level q d ->
       (forall p e, In (p, e) q -> descendant w r e) ->
       forall p e, In (p, e) (levels w k q) -> descendant w r e).
    { clear k q d Hg Hr. induction k as [|k IH]; intros q d Hg Hq p e H; simpl in H; [tauto|].
      apply in_app_iff in H as [H|H]; [eauto|].
      eapply (IH _ (S d) (good_below _ _ Hg)); [|exact H].
      intros p' e' H'. pose proof (good_below _ _ Hg) as [_ Hg']. destruct (Hg' _ _ H') as [Hp' _].
      apply in_flat_map in H' as ([p1 e1] & Hin & H'). simpl in H'.
      apply in_map_iff in H' as (c & Ec & Hc). injection Ec as <- <-.
      econstructor 2; eauto. }
    intros p e Hin. eapply H; eauto. intros p' e' H'.
    destruct Hg as [_ Hq]. destruct (Hq _ _ H') as [Hp _]. rewrite (Hr _ _ H') in Hp. constructor; exact Hp.
  Qed.
End Levels.

Lemma descendants_correct w r : wf_forest w ->
  exists n0 l, (forall n, n0 <= n -> iter_ui_descendants_with_parent w n r = Some l) /\
    NoDup (map snd l) /\
    (forall p e, In (p, e) l <-> descendant w r e /\ parent w e = Some p) /\
    (forall l1 p e l2, l = l1 ++ (p, e) :: l2 -> p = r \/ In p (map snd l1)).
Proof.
  intros Hw. destruct (wf_depth w Hw) as (depth & bound & Hd & Hb).
  set (q := descendants_init w r). set (d := S (depth r)).
  assert (Hg : good_level w depth q d).
  { split.
    - unfold q, descendants_init. rewrite map_map, map_id. apply (wf_nodup w Hw).
    - intros p e H. unfold q, descendants_init in H. apply in_map_iff in H as (c & E & Hc).
      injection E as <- <-. apply (wf_agree w Hw) in Hc. split; [exact Hc|]. apply Hd, Hc. }
  assert (Hr : forall p e, In (p, e) q -> p = r).
  { intros p e H. unfold q, descendants_init in H. apply in_map_iff in H as (c & E & Hc). congruence. }
  pose proof (levels_stable w Hw depth bound Hd Hb bound q d Hg ltac:(unfold d; lia)) as Hst.
  destruct (collect_levels w bound q Hst) as [n0 Hn0].
  exists n0, (levels w bound q). split; [|split; [|split]].
  - intros n Hn. eapply collect_more; eauto.
  - eapply levels_nodup; eauto.
  - intros p e. split.
    + intros H. split; [eapply levels_descendant; eauto|].
      eapply levels_depth in H as [H _]; eauto.
    + intros [Hde Hp]. revert p Hp. induction Hde as [e He|p' e Hp' IH He]; intros p Hp.
      * assert (p = r) by congruence. subst p.
        assert (Hin : In (r, e) q).
        { unfold q, descendants_init. apply in_map_iff. exists e. split; [reflexivity|]. apply (wf_agree w Hw), He. }
        destruct bound as [|b].
        -- pose proof (Hb e). rewrite (Hd _ _ He) in H. lia.
        -- simpl. apply in_app_iff. left; exact Hin.
      * assert (p = p') by congruence. subst p'.
        eapply levels_closed; eauto; [unfold d; lia|].
        assert (Hpp : exists pp, parent w p = Some pp) by (inversion Hp'; eauto).
        destruct Hpp as [pp Hpp]. change p with (snd (pp, p)). apply in_map, IH, Hpp.
  - intros l1 p e l2 E. edestruct levels_parent_first as [H|H]; eauto.
Qed.

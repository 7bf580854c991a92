(** Proofs for C83. *)
From Verif Require Import Base Tree TreeSpec TreeProofs Structural StructuralSpec.

Definition sle (a b : sflags) : Prop := (f_pos a = true -> f_pos b = true) /\ (f_empty a = true -> f_empty b = true) /\ (f_sib a = true -> f_sib b = true).
Lemma sle_refl a : sle a a. Proof. repeat split; auto. Qed.
Lemma sle_trans a b c : sle a b -> sle b c -> sle a c. Proof. intros (H1 & H2 & H3) (H4 & H5 & H6). repeat split; auto. Qed.
Lemma sle_or_l a b : sle a (or_sflags a b). Proof. unfold sle; cbn. repeat split; intros ->; reflexivity. Qed.
Lemma sle_or_r a b : sle b (or_sflags a b). Proof. unfold sle; cbn. repeat split; intros ->; apply orb_true_r. Qed.
Lemma sle_or a b c : sle a c -> sle b c -> sle (or_sflags a b) c.
Proof. intros (H1 & H2 & H3) (H4 & H5 & H6). unfold sle; cbn. repeat split; intros H; apply orb_true_iff in H as [H|H]; auto. Qed.

(** ** Answers without the flags *)
Definition t_ans w data n x : bool := fst (fst (run_test w data n x)).
Definition t_own w data n x : sflags := snd (fst (run_test w data n x)).
Fixpoint r_ans w data n (r : rule) : bool := match r with [] => true | x :: r => if t_ans w data n x then r_ans w data n r else false end.
Fixpoint r_own w data n (r : rule) : sflags := match r with [] => no_sflags | x :: r => or_sflags (t_own w data n x) (if t_ans w data n x then r_own w data n r else no_sflags) end.
Definition answers w data n (rs : list rule) : list bool := map (r_ans w data n) rs.
Fixpoint own w data n (rs : list rule) : sflags := match rs with [] => no_sflags | r :: rs => or_sflags (r_own w data n r) (own w data n rs) end.

Lemma put_le fl n f a : sle (fl a) (put_flags fl n f a).
Proof. unfold put_flags. destruct (Nat.eqb a n); [apply sle_or_l|apply sle_refl]. Qed.
Lemma put_own fl n f : sle f (put_flags fl n f n).
Proof. unfold put_flags. rewrite Nat.eqb_refl. apply sle_or_r. Qed.
Lemma visit_le l : forall fl a, sle (fl a) (visit l fl a).
Proof. induction l as [|b l IH]; intros fl a; cbn; [apply sle_refl|]. eapply sle_trans; [apply put_le|apply IH]. Qed.
Lemma no_le a : sle no_sflags a. Proof. unfold sle; cbn; repeat split; discriminate. Qed.
Lemma run_rule_spec w data n r : forall fl, fst (run_rule w data n r fl) = r_ans w data n r /\ (forall a, sle (fl a) (snd (run_rule w data n r fl) a)) /\ sle (r_own w data n r) (snd (run_rule w data n r fl) n).
Proof.
  induction r as [|x r IH]; intros fl; cbn [run_rule r_ans r_own]; [split; [reflexivity|split; [intros; apply sle_refl|apply no_le]]|].
  unfold t_ans, t_own. destruct (run_test w data n x) as [[b f] v]. cbn [fst snd]. set (fl1 := visit v (put_flags fl n f)).
  assert (H1 : forall a, sle (fl a) (fl1 a)) by (intros a; eapply sle_trans; [apply put_le|apply visit_le]).
  assert (H2 : sle f (fl1 n)) by (eapply sle_trans; [apply put_own|apply visit_le]).
  destruct b; cbn [fst snd].
  - destruct (IH fl1) as (I1 & I2 & I3). split; [exact I1|]. split; [intros a; eapply sle_trans; [apply H1|apply I2]|]. apply sle_or; [eapply sle_trans; [exact H2|apply I2]|exact I3].
  - split; [reflexivity|]. split; [exact H1|]. apply sle_or; [exact H2|apply no_le].
Qed.
Lemma run_rules_spec w data n rs : forall fl, fst (run_rules w data n rs fl) = answers w data n rs /\ (forall a, sle (fl a) (snd (run_rules w data n rs fl) a)) /\ sle (own w data n rs) (snd (run_rules w data n rs fl) n).
Proof.
  induction rs as [|r rs IH]; intros fl; cbn [run_rules answers map own]; [split; [reflexivity|split; [intros; apply sle_refl|apply no_le]]|].
  destruct (run_rule_spec w data n r fl) as (R1 & R2 & R3). destruct (run_rule w data n r fl) as [b fl1]. cbn in R1, R2, R3.
  destruct (IH fl1) as (I1 & I2 & I3). destruct (run_rules w data n rs fl1) as [bs fl2]. cbn in *. split; [subst; reflexivity|]. split; [intros a; eapply sle_trans; eauto|].
  apply sle_or; [eapply sle_trans; eauto|exact I3].
Qed.
Lemma calculate_spec w data rs needs nodes : forall fl active, let '(fl', active') := calculate w data rs needs nodes fl active in
  (forall a, sle (fl a) (fl' a)) /\
  (forall e, In e nodes -> needs e = true -> active' e = answers w data e rs /\ sle (own w data e rs) (fl' e)) /\
  (forall e, needs e = false \/ ~ In e nodes -> active' e = active e) /\
  (forall e, active e = answers w data e rs -> active' e = answers w data e rs).
Proof.
  induction nodes as [|n nodes IH]; intros fl active; cbn [calculate]; [repeat split; auto; contradiction|].
  destruct (needs n) eqn:En.
  - destruct (run_rules_spec w data n rs fl) as (R1 & R2 & R3). destruct (run_rules w data n rs fl) as [bs fl1]. cbn in R1, R2, R3. subst bs.
    specialize (IH fl1 (fun a => if Nat.eqb a n then answers w data n rs else active a)). destruct (calculate _ _ _ _ _ _ _) as [fl' active']. destruct IH as (I1 & I2 & I3 & I4).
    split; [intros a; eapply sle_trans; eauto|]. split; [|split].
    + intros e [<-|He] Hn; [|apply I2; assumption]. split; [apply I4; rewrite Nat.eqb_refl; reflexivity|]. eapply sle_trans; [exact R3|apply I1].
    + intros e He. rewrite I3 by (cbn in He; tauto). destruct (Nat.eqb e n) eqn:E; [|reflexivity]. apply Nat.eqb_eq in E. subst. exfalso. destruct He as [H|H]; [congruence|]. apply H. left. reflexivity.
    + intros e He. apply I4. destruct (Nat.eqb e n) eqn:E; [apply Nat.eqb_eq in E; subst; reflexivity|exact He].
  - specialize (IH fl active). destruct (calculate _ _ _ _ _ _ _) as [fl' active']. destruct IH as (I1 & I2 & I3 & I4). split; [exact I1|]. split; [|split; [|exact I4]].
    + intros e [<-|He] Hn; [congruence|apply I2; assumption].
    + intros e He. apply I3. cbn in He. tauto.
Qed.

(** ** What an answer depends on *)
Lemma t_stable w w' data data' n x : data' n = data n -> (f_pos (t_own w data n x) = true -> sibling_list w' n = sibling_list w n) -> (f_empty (t_own w data n x) = true -> children w' n = children w n) ->
  t_ans w' data' n x = t_ans w data n x /\ t_own w' data' n x = t_own w data n x.
Proof.
  intros Hd Hp He. unfold t_ans, t_own in *. destruct x; cbn in *; rewrite ?Hd; try (rewrite Hp by reflexivity); try (rewrite He by reflexivity); split; reflexivity.
Qed.
Lemma or_pos a b : f_pos a = true \/ f_pos b = true -> f_pos (or_sflags a b) = true. Proof. cbn. intros [-> | ->]; auto using orb_true_r. Qed.
Lemma or_empty a b : f_empty a = true \/ f_empty b = true -> f_empty (or_sflags a b) = true. Proof. cbn. intros [-> | ->]; auto using orb_true_r. Qed.
Lemma r_stable w w' data data' n r : data' n = data n -> (f_pos (r_own w data n r) = true -> sibling_list w' n = sibling_list w n) -> (f_empty (r_own w data n r) = true -> children w' n = children w n) ->
  r_ans w' data' n r = r_ans w data n r /\ r_own w' data' n r = r_own w data n r.
Proof.
  intros Hd. induction r as [|x r IH]; intros Hp He; [split; reflexivity|]. cbn [r_ans r_own] in *.
  destruct (t_stable w w' data data' n x Hd) as [-> ->]; [intros H; apply Hp, or_pos; auto|intros H; apply He, or_empty; auto|].
  destruct (t_ans w data n x); [|split; reflexivity]. destruct IH as [-> ->]; [intros H; apply Hp, or_pos; auto|intros H; apply He, or_empty; auto|]. split; reflexivity.
Qed.
Lemma stable w w' data data' n rs : data' n = data n -> (f_pos (own w data n rs) = true -> sibling_list w' n = sibling_list w n) -> (f_empty (own w data n rs) = true -> children w' n = children w n) ->
  answers w' data' n rs = answers w data n rs /\ own w' data' n rs = own w data n rs.
Proof.
  intros Hd. induction rs as [|r rs IH]; intros Hp He; [split; reflexivity|]. cbn [answers map own] in *.
  destruct (r_stable w w' data data' n r Hd) as [-> ->]; [intros H; apply Hp, or_pos; auto|intros H; apply He, or_empty; auto|].
  destruct IH as [E ->]; [intros H; apply Hp, or_pos; auto|intros H; apply He, or_empty; auto|]. unfold answers in E. rewrite E. split; reflexivity.
Qed.
Lemma everywhere_pos w data n rs : tested_everywhere rs -> f_pos (own w data n rs) = true.
Proof.
  intros (r & x & l & Hr & -> & Hx). induction rs as [|r rs IH]; [destruct Hr|]. cbn [own]. apply or_pos. destruct Hr as [->|Hr]; [left|right; auto].
  cbn [r_own]. apply or_pos. left. unfold t_own. destruct x; try discriminate; reflexivity.
Qed.
Lemma never_pos w data n rs : never_tested rs -> f_pos (own w data n rs) = false.
Proof.
  intros H. induction rs as [|r rs IH]; [reflexivity|]. cbn [own or_sflags f_pos]. rewrite IH by (intros r' x Hr; apply H; right; exact Hr). rewrite orb_false_r.
  assert (Hr : forall x, In x r -> positional x = false) by (intros x Hx; apply (H r x); [left; reflexivity|exact Hx]). clear - Hr.
  induction r as [|x r IH]; [reflexivity|]. cbn [r_own or_sflags f_pos]. destruct (t_ans w data n x); [rewrite IH by (intros y Hy; apply Hr; right; exact Hy)|]; rewrite orb_false_r;
    specialize (Hr x (or_introl eq_refl)); unfold t_own; destruct x; try discriminate; reflexivity.
Qed.

(** ** Marking *)
Lemma mem_in n l : mem n l = true <-> In n l.
Proof. unfold mem. rewrite existsb_exists. split; [intros (x & Hx & E); apply Nat.eqb_eq in E; subst; exact Hx|intros H; exists n; split; [exact H|apply Nat.eqb_refl]]. Qed.
Lemma descendants_child w fuel p l n : wf_forest w -> option_map (map snd) (iter_ui_descendants_with_parent w fuel p) = Some l -> parent w n = Some p -> In n l.
Proof.
  intros Hw Hl Hp. destruct (iter_ui_descendants_with_parent w fuel p) as [l0|] eqn:E; [|discriminate]. injection Hl as <-.
  destruct (descendants_correct w p Hw) as (n0 & l1 & H1 & _ & H2 & _).
  assert (l0 = l1).
  { pose proof (H1 (fuel + n0) ltac:(lia)) as H. unfold iter_ui_descendants_with_parent in *. 
    assert (M : forall A B (next : A -> option (B * A)) k f s l, collect next f s = Some l -> collect next (f + k) s = Some l).
    { clear. intros A B next k f. induction f as [|f IH]; intros s l H; [discriminate|]. cbn in *. destruct (next s) as [[i s']|]; [|exact H]. destruct (collect next f s') eqn:Ec; [|discriminate]. rewrite (IH _ _ Ec). exact H. }
    apply (M _ _ _ n0) in E. congruence. }
  subst. apply in_map_iff. exists (p, n). split; [reflexivity|]. apply H2. split; [constructor; exact Hp|exact Hp].
Qed.
Lemma related_spec f fuel fl nodes : wf_forest (g_forest f) -> forall l, related f fuel fl nodes = Some l -> forall p, In p nodes -> (g_children f p = true \/ g_removed f p = true) ->
  (f_empty (fl p) = true -> In p l) /\ (f_pos (fl p) = true -> forall n, parent (g_forest f) n = Some p -> In n l).
Proof.
  intros Hw. induction nodes as [|q nodes IH]; intros l; cbn [related]; [intros _ p []|]. destruct (related f fuel fl nodes) as [rest|]; [|discriminate]. specialize (IH rest eq_refl).
  destruct (g_children f q || g_removed f q)%bool eqn:Ec.
  - destruct (if f_pos (fl q) then _ else _) as [d|] eqn:Ed; [|discriminate]. intros E; injection E as <-. intros p [<-|Hp] Hch.
    + split; [intros ->; apply in_or_app; left; left; reflexivity|]. intros Hpos n Hn. rewrite Hpos in Ed. apply in_or_app. right. apply in_or_app. left. eapply descendants_child; eauto.
    + destruct (IH p Hp Hch) as [I1 I2]. split; intros; apply in_or_app; right; apply in_or_app; right; eauto.
  - intros E; injection E as <-. intros p [<-|Hp] Hch; [|apply IH; assumption]. exfalso. apply orb_false_iff in Ec as [E1 E2]. destruct Hch; congruence.
Qed.
Lemma changed_self f needs fl nodes e : In e nodes -> g_changed f e = true -> In e (changed_marks f needs fl nodes).
Proof. intros He Hc. unfold changed_marks. apply in_flat_map. exists e. split; [exact He|]. rewrite Hc. cbn. left. reflexivity. Qed.

(** ** Frames *)
Definition good (rs : list rule) (w : forest) (data : nat -> list nat) (s : state) (n : nat) : Prop :=
  s_needs s n = false /\ s_active s n = answers w data n rs /\ sle (own w data n rs) (s_flags s n).
Lemma list_dec (a b : list nat) : {a = b} + {a <> b}. Proof. repeat decide equality. Qed.
Lemma opt_dec (a b : option nat) : {a = b} + {a <> b}. Proof. repeat decide equality. Qed.
Lemma step_good rs nodes fuel w data s f s' : tested_everywhere rs \/ never_tested rs -> wf_forest (g_forest f) -> in_nodes nodes (g_forest f) -> reported w data f ->
  (forall n, In n nodes -> s_needs s n = true) \/ (forall n, In n nodes -> good rs w data s n) ->
  step rs nodes fuel s f = Some s' -> forall n, In n nodes -> good rs (g_forest f) (g_data f) s' n.
Proof.
  intros Hrs Hw Hin [Hr1 Hr2] Hpre Hs n Hn. unfold step in Hs. destruct (related f fuel (s_flags s) nodes) as [l|] eqn:El; [|discriminate].
  set (needs1 := fun n => (s_needs s n || g_marked f n || mem n l)%bool) in *. set (l2 := changed_marks f needs1 (s_flags s) nodes) in *. set (needs2 := fun n => (needs1 n || mem n l2)%bool) in *.
  pose proof (calculate_spec (g_forest f) (g_data f) rs needs2 nodes (s_flags s) (s_active s)) as Hc.
  destruct (calculate _ _ _ _ _ _ _) as [fl active]. injection Hs as <-. destruct Hc as (C1 & C2 & C3 & _). unfold good. cbn [s_needs s_active s_flags].
  assert (Hm : mem n nodes = true) by (apply mem_in; exact Hn). rewrite Hm, andb_false_r. split; [reflexivity|].
  destruct (needs2 n) eqn:E2; [apply C2; assumption|]. rewrite C3 by auto. unfold needs2 in E2. apply orb_false_iff in E2 as [E1 E2]. pose proof E1 as E1'. unfold needs1 in E1. apply orb_false_iff in E1 as [E1 El1]. apply orb_false_iff in E1 as [E1 _].
  destruct Hpre as [Hpre|Hpre]; [rewrite (Hpre n Hn) in E1; discriminate|]. destruct (Hpre n Hn) as (_ & G2 & G3).
  assert (Hch : g_changed f n = false). { destruct (g_changed f n) eqn:E; [|reflexivity]. assert (mem n l2 = true) by (apply mem_in, changed_self; assumption). congruence. }
  assert (Hpar : parent (g_forest f) n = parent w n).
  { destruct (opt_dec (parent (g_forest f) n) (parent w n)) as [H|H]; [exact H|]. rewrite (Hr2 n) in Hch by auto. discriminate. }
  assert (Hdat : g_data f n = data n). { destruct (list_dec (g_data f n) (data n)) as [H|H]; [exact H|]. rewrite (Hr2 n) in Hch by auto. discriminate. }
  assert (Hnl : ~ In n l) by (intros H; apply mem_in in H; congruence).
  destruct (stable w (g_forest f) data (g_data f) n rs Hdat) as [-> ->].
  - intros Hpos. unfold sibling_list. rewrite Hpar. destruct (parent w n) as [p|] eqn:Ep; [|reflexivity].
    destruct (list_dec (children (g_forest f) p) (children w p)) as [H|H]; [exact H|]. exfalso. destruct (Hin n p Hpar) as [_ Hpn].
    destruct Hrs as [Hrs|Hrs]; [|rewrite never_pos in Hpos by exact Hrs; discriminate].
    destruct (related_spec f fuel (s_flags s) nodes Hw l El p Hpn (Hr1 p H)) as [_ R]. apply Hnl. apply R; [|exact Hpar]. destruct (Hpre p Hpn) as (_ & _ & Gp). apply Gp, everywhere_pos, Hrs.
  - intros Hem. destruct (list_dec (children (g_forest f) n) (children w n)) as [H|H]; [exact H|]. exfalso.
    destruct (related_spec f fuel (s_flags s) nodes Hw l El n Hn (Hr1 n H)) as [R _]. apply Hnl, R. apply G3, Hem.
  - split; [exact G2|]. eapply sle_trans; [exact G3|apply C1].
Qed.
Lemma frames_good rs nodes fuel : tested_everywhere rs \/ never_tested rs -> forall fs w data s s', history nodes w data fs ->
  (forall n, In n nodes -> s_needs s n = true) \/ (forall n, In n nodes -> good rs w data s n) -> frames rs nodes fuel fs s = Some s' ->
  forall f, last (map Some fs) None = Some f -> forall n, In n nodes -> good rs (g_forest f) (g_data f) s' n.
Proof.
  intros Hrs. induction fs as [|f fs IH]; intros w data s s' Hh Hpre Hf f' Hl; [discriminate|]. cbn in Hh, Hf. destruct Hh as (Hw & Hin & Hrep & Hh).
  destruct (step rs nodes fuel s f) as [s1|] eqn:Es; [|discriminate]. pose proof (step_good rs nodes fuel w data s f s1 Hrs Hw Hin Hrep Hpre Es) as Hg.
  destruct fs as [|f2 fs]; [cbn in *; injection Hf as <-; injection Hl as <-; exact Hg|]. eapply IH; eauto.
Qed.
Lemma frames_total rs nodes fs : forall w data, history nodes w data fs -> exists n0, forall fuel, n0 <= fuel -> forall s, exists s', frames rs nodes fuel fs s = Some s'.
Proof.
  induction fs as [|f fs IH]; intros w data Hh; [exists 0; intros; eexists; reflexivity|]. destruct Hh as (Hw & _ & _ & Hh). destruct (IH _ _ Hh) as [n1 H1].
  assert (Hrel : exists n2, forall fuel, n2 <= fuel -> forall fl, exists l, related f fuel fl nodes = Some l).
  { clear - Hw. induction nodes as [|p nodes [n2 IH]]; [exists 0; intros; eexists; reflexivity|]. destruct (descendants_correct (g_forest f) p Hw) as (n3 & l3 & H3 & _).
    exists (n2 + n3). intros fuel Hf fl. destruct (IH fuel ltac:(lia) fl) as [l El]. cbn [related]. rewrite El. destruct (_ || _)%bool; [|eauto]. rewrite H3 by lia. destruct (f_pos (fl p)); eexists; reflexivity. }
  destruct Hrel as [n2 H2]. exists (n1 + n2). intros fuel Hf s. cbn [frames]. unfold step. destruct (H2 fuel ltac:(lia) (s_flags s)) as [l El]. rewrite El.
  destruct (calculate _ _ _ _ _ _ _) as [fl active]. apply H1. lia.
Qed.

(** ** Answers are what the specification says *)
Lemma before_after n l : In n l -> NoDup l -> l = before n l ++ n :: after n l /\ forall l1 l2, l = l1 ++ n :: l2 -> l1 = before n l /\ l2 = after n l.
Proof.
  induction l as [|a l IH]; intros Hi Hd; [destruct Hi|]. cbn. inversion Hd as [|? ? Ha Hd']; subst. destruct (Nat.eqb a n) eqn:E.
  - apply Nat.eqb_eq in E. subst. split; [reflexivity|]. intros [|b l1] l2 El; cbn in El; [injection El as E1; subst; auto|]. injection El as E1 E2; subst. exfalso. apply Ha. apply in_or_app. right. left. reflexivity.
  - apply Nat.eqb_neq in E. destruct Hi as [Hi|Hi]; [congruence|]. destruct (IH Hi Hd') as [I1 I2]. split; [cbn; congruence|].
    intros [|b l1] l2 El; cbn in El; [injection El as E1; congruence|]. injection El as E1 E2; subst b. destruct (I2 l1 l2 E2) as [-> ->]. auto.
Qed.
Lemma t_holds w data n x : wf_forest w -> t_ans w data n x = true <-> holds w data n x.
Proof.
  intros Hw. unfold t_ans, holds, run_test, sibling_list. destruct x as [c| | |sel|sel|]; cbn [fst].
  1: { rewrite existsb_exists. split; [intros (y & Hy & E); apply Nat.eqb_eq in E; subst; exact Hy|intros H; exists c; split; [exact H|apply Nat.eqb_refl]]. }
  5: { destruct (children w n); split; congruence. }
  all: destruct (parent w n) as [p|] eqn:Ep;
    [assert (Hi : In n (children w p)) by (apply (wf_agree w Hw); exact Ep); destruct (before_after n (children w p) Hi (wf_nodup w Hw p)) as [E1 E2]
    |cbn; rewrite ?Nat.eqb_refl; cbn; try (split; [intros _ p Hp; discriminate|reflexivity]); reflexivity].
  - split.
    + intros H q Hq. injection Hq as <-. destruct (before n (children w p)) eqn:Eb; [|discriminate]. eexists. rewrite E1. reflexivity.
    + intros H. destruct (H p eq_refl) as [l El]. destruct (E2 [] l El) as [<- _]. reflexivity.
  - split.
    + intros H q Hq. injection Hq as <-. destruct (after n (children w p)) eqn:Eb; [|discriminate]. eexists. rewrite E1. reflexivity.
    + intros H. destruct (H p eq_refl) as [l El]. destruct (E2 l [] El) as [_ <-]. reflexivity.
  - split; [intros H; eauto|]. intros (l1 & l2 & El & H). destruct (E2 l1 l2 El) as [-> ->]. exact H.
  - split; [intros H; eauto|]. intros (l1 & l2 & El & H). destruct (E2 l1 l2 El) as [-> ->]. exact H.
Qed.
Lemma answers_matched f rs n : wf_forest (g_forest f) -> matched f rs n (answers (g_forest f) (g_data f) n rs).
Proof.
  intros Hw. unfold matched, answers. induction rs as [|r rs IH]; cbn; constructor; [|exact IH]. clear IH. induction r as [|x r IH]; [cbn; split; [constructor|reflexivity]|]. cbn [r_ans].
  pose proof (t_holds (g_forest f) (g_data f) n x Hw) as Hx. destruct (t_ans _ _ n x).
  - rewrite IH. split; [intros H; constructor; [apply Hx; reflexivity|exact H]|intros H; inversion H; assumption].
  - split; [discriminate|]. intros H. inversion H; subst. apply Hx. assumption.
Qed.

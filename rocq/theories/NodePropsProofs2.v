From Coq Require Import NArith Permutation.
From Verif Require Import Base Inherit InheritProofs Animation Transition TransitionSpec NodeProps NodePropsSpec NodePropsProofs.

Section P.
  Context {F V E K : Type} (op : fops F) (veq : forall a b : V, {a = b} + {a <> b}).
  Variables (interp : V -> V -> F -> V) (ease : E -> F -> F) (vdefault : V).
  Variable asample : K -> animation -> option V.
  Variables (np : nat) (animatable : nat -> bool) (fuel : nat).
  Notation node := (node F V E K).
  Notation pst := (pst F V E).
  Notation frame_input := (frame_input V E K).
  Notation anim_value := (anim_value op interp ease asample).
  Notation shows := (shows op interp ease asample).
  Notation frame_world := (frame_world op veq interp ease vdefault asample np animatable fuel).
  Notation run := (run op veq interp ease vdefault asample np animatable fuel).
  Notation create_pst := (create_pst op veq interp ease vdefault).
  Notation frame := (frame op veq interp ease vdefault asample np animatable fuel).

  Lemma tick_inactive d (x : transition F V E) : t_is_active x = false -> t_tick d x = x.
  Proof. intros H. unfold t_tick. rewrite H. reflexivity. Qed.

  Lemma new_pending from to o (x : transition F V E) y : from_possibly_reversed op veq interp ease vdefault from to o x = Some y -> t_state y = TPending.
  Proof.
    unfold from_possibly_reversed, update_for_possibly_reversed. destruct (veq _ _).
    - destruct (f_from_secs op _); [|discriminate]. intros H. injection H as <-. reflexivity.
    - intros H. injection H as <-. reflexivity.
  Qed.

  (** ** C28: a property without transition options has no active transition *)
  Definition quiet (s : pst) : Prop := t_opts s = None -> forall i x, trans s = Some (i, x) -> t_is_active x = false.

  Lemma quiet_create b pend (s s' : pst) e : quiet s -> create_pst b pend s = Some (s', e) -> quiet s' /\ (t_opts s' = t_opts s) /\ (t_opts s = None -> s' = s).
  Proof.
    intros H. unfold NodeProps.create_pst. destruct (t_opts s) as [o|] eqn:Eo; [|intros G; injection G as <- <-; auto].
    destruct (computed s); [intros G; injection G as <- <-; rewrite Eo; auto|]. destruct pend; [intros G; injection G as <- <-; rewrite Eo; auto|].
    destruct (veq v v0); [intros G; injection G as <- <-; rewrite Eo; auto|]. destruct (negb b); [intros G; injection G as <- <-; rewrite Eo; auto|].
    destruct (trans s) as [[k x]|].
    - destruct (from_possibly_reversed _ _ _ _ _ _ _ _ _); [|discriminate]. intros G; injection G as <- <-. cbn. split; [intros A; discriminate|]. split; [reflexivity|discriminate].
    - intros G; injection G as <- <-. cbn. split; [intros A; discriminate|]. split; [reflexivity|discriminate].
  Qed.

  Lemma quiet_options r p (s : pst) : quiet s -> quiet (fst (options_opt r p s)).
  Proof.
    intros H. unfold options_opt. destruct r as [new|]; [|exact H]. unfold set_options_pst.
    destruct (t_opts s) as [o|] eqn:Eo.
    - destruct (new p); [intros A; discriminate|]. destruct (trans s) as [[k x]|] eqn:Et.
      + destruct (t_is_active x) eqn:Ex; cbn.
        * intros _ i y A. injection A as <- <-. reflexivity.
        * intros _ i y A. cbn in A. rewrite Et in A. injection A as <- <-. exact Ex.
      + intros _ i y A. cbn in A. congruence.
    - cbn. intros _ i x A. apply (H Eo i x A).
  Qed.

  Lemma quiet_tick b d (s : pst) : quiet s -> quiet (fst (tick_opt b d s)).
  Proof.
    intros H Ho i y Ht. destruct (tick_opt_fields b d s) as (_ & _ & O & _ & T). rewrite O in Ho.
    destruct (T i y Ht) as (x & Hx & [(-> & A & _)|(-> & _)]); [|apply (H Ho i x Hx)].
    rewrite tick_inactive; apply (H Ho i x Hx).
  Qed.

  Lemma quiet_frame f n o : frame f n = Some o -> (forall p, p < np -> quiet (props n p)) -> forall p, p < np -> quiet (props (o_node o) p).
  Proof.
    intros Ef H p Hp. destruct (frame_pieces _ _ _ _ _ _ _ _ _ f n o Ef) as (n2 & ev1 & aev1 & _ & G). destruct (G p Hp) as (_ & s4 & e3 & Ec & Ep & _).
    rewrite Ep. unfold quiet. cbn. eapply quiet_create; [|exact Ec]. apply quiet_options. apply quiet_tick.
    destruct (f_reset f); [intros _ i x A; discriminate|]. apply H. exact Hp.
  Qed.

  Lemma quiet_run fs : forall w w', run fs w = Some w' -> (forall p, p < np -> quiet (props (w_node w) p)) -> forall p, p < np -> quiet (props (w_node w') p).
  Proof.
    induction fs as [|f fs IH]; intros w w' H Q; cbn in H; [injection H as <-; exact Q|].
    destruct (frame_world f w) as [w1|] eqn:E1; [|discriminate]. apply (IH w1 w' H). unfold NodePropsSpec.frame_world in E1.
    destruct (frame f (w_node w)) as [o|] eqn:Ef; [|discriminate]. injection E1 as <-. cbn. apply (quiet_frame f _ o Ef Q).
  Qed.

  Lemma released_frame f n o p : frame f n = Some o -> p < np -> quiet (props n p) -> t_opts (props n p) = None ->
    (forall new, f_restyle f = Some new -> new p = None) ->
    (f_reset f = true \/ has_tickable np n = true \/ trans (props n p) = None) ->
    trans (props (o_node o) p) = None /\ t_opts (props (o_node o) p) = None.
  Proof.
    intros Ef Hp Q Ho Hr Ht. destruct (frame_pieces _ _ _ _ _ _ _ _ _ f n o Ef) as (n2 & ev1 & aev1 & _ & G). destruct (G p Hp) as (_ & s4 & e3 & Ec & Ep & _).
    rewrite Ep. cbn. clear Ep G.
    set (n1 := if f_reset f then reset n else n) in *.
    assert (T1 : trans (fst (tick_opt (has_tickable np n1) (f_delta f) (props n1 p))) = None).
    { unfold n1. destruct (f_reset f).
      - unfold tick_opt. destruct (has_tickable np (reset n)); cbn; reflexivity.
      - destruct Ht as [Ht|[Ht|Ht]]; [discriminate| |].
        + rewrite Ht. unfold tick_opt. cbn [fst]. unfold tick_pst. destruct (trans (props n p)) as [[k x]|] eqn:Et; cbn [fst].
          * unfold clear_pst. cbn [with_trans trans]. rewrite tick_inactive by (apply (Q Ho k x Et)). rewrite (Q Ho k x Et). reflexivity.
          * unfold clear_pst. rewrite Et. exact Et.
        + destruct (tick_opt_fields (has_tickable np n) (f_delta f) (props n p)) as (_ & _ & _ & _ & T).
          destruct (trans (fst (tick_opt (has_tickable np n) (f_delta f) (props n p)))) as [[i y]|] eqn:E0; [|reflexivity].
          destruct (T i y eq_refl) as (x & Hx & _). congruence. }
    assert (O1 : t_opts (fst (tick_opt (has_tickable np n1) (f_delta f) (props n1 p))) = None).
    { destruct (tick_opt_fields (has_tickable np n1) (f_delta f) (props n1 p)) as (_ & _ & O & _). rewrite O. unfold n1. destruct (f_reset f); [reflexivity|exact Ho]. }
    set (s2 := fst (tick_opt _ _ _)) in *.
    assert (S3 : trans (fst (options_opt (f_restyle f) p s2)) = None /\ t_opts (fst (options_opt (f_restyle f) p s2)) = None).
    { split; [apply options_opt_fields; exact T1|]. unfold options_opt. destruct (f_restyle f) as [new|]; [|exact O1].
      unfold set_options_pst. rewrite O1. cbn. apply Hr. reflexivity. }
    destruct S3 as [S3 O3].
    unfold NodeProps.create_pst in Ec. rewrite O3 in Ec. injection Ec as <- <-. split; assumption.
  Qed.

  Lemma released_run fs : forall w w' p, run fs w = Some w' -> p < np -> (forall q, q < np -> quiet (props (w_node w) q)) ->
    t_opts (props (w_node w) p) = None -> trans (props (w_node w) p) = None ->
    (forall f new, In f fs -> f_restyle f = Some new -> new p = None) ->
    trans (props (w_node w') p) = None /\ t_opts (props (w_node w') p) = None.
  Proof.
    induction fs as [|f fs IH]; intros w w' p H Hp Q Ho Ht Hr; cbn in H; [injection H as <-; auto|].
    destruct (frame_world f w) as [w1|] eqn:E1; [|discriminate]. unfold NodePropsSpec.frame_world in E1.
    destruct (frame f (w_node w)) as [o|] eqn:Ef; [|discriminate]. injection E1 as <-.
    destruct (released_frame f (w_node w) o p Ef Hp (Q p Hp) Ho) as [A B]; [intros new; apply Hr; left; reflexivity|auto|].
    apply (IH _ w' p H Hp); cbn; try assumption.
    - apply (quiet_frame f _ o Ef Q).
    - intros f' new H'. apply Hr. right. exact H'.
  Qed.

  Lemma shows_no_transition (n : node) p v : trans (props n p) = None -> no_animation_emits asample n p -> (shows n p v <-> computed (props n p) = CVal v).
  Proof.
    intros Ht Hn. split.
    - intros S. destruct S as [l1 a l2 v Hl Ha Hr|i x v _ H _ _|i x _ H _|v _ _ Hc]; try congruence.
      exfalso. unfold no_animation_emits in Hn. rewrite Hl in Hn. apply Forall_app in Hn. destruct Hn as [_ Hn]. inversion Hn; subst. congruence.
    - intros Hc. apply shows_style; [exact Hn|intros; congruence|exact Hc].
  Qed.

  (** ** C29 *)
  Lemma about_app k (a b : tevents) : about k (a ++ b) = about k a ++ about k b.
  Proof. unfold about. rewrite filter_app, map_app. reflexivity. Qed.
  Lemma about_one e i k : about k [(e, i)] = if Nat.eqb i k then [e] else [].
  Proof. unfold about. cbn. destruct (Nat.eqb i k); reflexivity. Qed.

  Definition told (x : transition F V E) (l : list transition_event) : Prop :=
    match t_state x with
    | TPending => l = [] | TRunning => l = [EvStarted] | TFinished => False
    | TCanceled => l = [EvCanceled] \/ l = [EvStarted; EvCanceled]
    end.
  Definition tale (s : pst) (ev : tevents) : Prop :=
    (forall k, serial s <= k -> about k ev = []) /\ (forall k, transition_story (about k ev)) /\
    (forall k x, trans s = Some (k, x) -> k < serial s /\ told x (about k ev)).

  Ltac story := unfold transition_story; simpl; tauto.

  Lemma tick_state d (x : transition F V E) :
    match t_state x with
    | TPending => t_state (t_tick d x) = TPending \/ t_state (t_tick d x) = TRunning \/ t_state (t_tick d x) = TFinished
    | TRunning => t_state (t_tick d x) = TRunning \/ t_state (t_tick d x) = TFinished
    | s => t_state (t_tick d x) = s
    end.
  Proof.
    unfold t_tick, t_is_active. destruct (t_state x) eqn:Es; cbn [t_state]; try exact Es; destruct (N.leb _ _); auto. destruct (N.leb _ _); auto.
  Qed.

  Lemma tale_tick b d (s : pst) ev : tale s ev -> tale (fst (tick_opt b d s)) (ev ++ snd (tick_opt b d s)).
  Proof.
    intros (H1 & H2 & H3). unfold tick_opt. destruct b; cbn [fst snd]; [|rewrite app_nil_r; split; [exact H1|split; [exact H2|exact H3]]].
    unfold tick_pst. destruct (trans s) as [[k x]|] eqn:Et; cbn [fst snd].
    2:{ unfold clear_pst. rewrite Et, app_nil_r. split; [exact H1|split; [exact H2|]]. intros; congruence. }
    destruct (H3 k x eq_refl) as [Hk Ht]. unfold told in Ht. pose proof (tick_state d x) as Hs.
    set (e := (if is_pending x && negb (is_pending (t_tick d x)) then [(EvStarted, k)] else []) ++ (if is_finished (t_tick d x) then [(EvFinished, k)] else [])).
    assert (Other : forall j, j <> k -> about j (ev ++ e) = about j ev).
    { intros j Hj. rewrite about_app. replace (about j e) with (@nil transition_event); [apply app_nil_r|].
      unfold e. rewrite about_app. destruct (is_pending x && negb (is_pending (t_tick d x))); destruct (is_finished (t_tick d x)); rewrite ?about_one; try (destruct (Nat.eqb_spec k j); [congruence|]); reflexivity. }
    assert (Self : about k e = (if is_pending x && negb (is_pending (t_tick d x)) then [EvStarted] else []) ++ (if is_finished (t_tick d x) then [EvFinished] else [])).
    { unfold e. rewrite about_app. destruct (is_pending x && negb (is_pending (t_tick d x))); destruct (is_finished (t_tick d x)); rewrite ?about_one, ?Nat.eqb_refl; reflexivity. }
    assert (Fld : serial (clear_pst (with_trans s (Some (k, t_tick d x)))) = serial s).
    { unfold clear_pst. cbn. destruct (t_is_active _); reflexivity. }
    assert (Goal1 : transition_story (about k (ev ++ e)) /\ (t_is_active (t_tick d x) = true -> told (t_tick d x) (about k (ev ++ e)))).
    { rewrite about_app, Self. unfold told, is_pending, is_finished, t_is_active. destruct (t_state x) eqn:Es.
      - rewrite Ht. destruct Hs as [->|[->| ->]]; cbn; (split; [story|]); auto; discriminate.
      - rewrite Ht. destruct Hs as [->| ->]; cbn; (split; [story|]); auto; discriminate.
      - contradiction.
      - rewrite Hs. cbn. split; [|discriminate]. rewrite app_nil_r. apply H2. }
    destruct Goal1 as [G1 G2]. split; [|split].
    - rewrite Fld. intros j Hj. rewrite Other by lia. apply H1. exact Hj.
    - intros j. destruct (Nat.eq_dec j k) as [->|N]; [exact G1|]. rewrite Other by exact N. apply H2.
    - intros j y Hy. rewrite Fld. unfold clear_pst in Hy. cbn in Hy. destruct (t_is_active (t_tick d x)) eqn:Ea; [|discriminate]. cbn in Hy. injection Hy as <- <-.
      split; [exact Hk|apply G2; reflexivity].
  Qed.

  Lemma tale_options r p (s : pst) ev : tale s ev -> tale (fst (options_opt r p s)) (ev ++ snd (options_opt r p s)).
  Proof.
    intros (H1 & H2 & H3). unfold options_opt. destruct r as [new|]; [|cbn; rewrite app_nil_r; split; [exact H1|split; [exact H2|exact H3]]].
    unfold set_options_pst.
    assert (Same : forall o, tale (with_options s o) (ev ++ [])).
    { intros o. rewrite app_nil_r. split; [exact H1|]. split; [exact H2|]. exact H3. }
    destruct (t_opts s); [|apply Same]. destruct (new p); [apply Same|]. destruct (trans s) as [[k x]|] eqn:Et; [|apply Same].
    destruct (t_is_active x) eqn:Ea; [|apply Same]. cbn [fst snd].
    destruct (H3 k x eq_refl) as [Hk Ht].
    assert (Other : forall j, j <> k -> about j (ev ++ [(EvCanceled, k)]) = about j ev).
    { intros j Hj. rewrite about_app, about_one. destruct (Nat.eqb_spec k j); [congruence|apply app_nil_r]. }
    assert (Self : about k (ev ++ [(EvCanceled, k)]) = about k ev ++ [EvCanceled]) by (rewrite about_app, about_one, Nat.eqb_refl; reflexivity).
    unfold told, t_is_active in *. split; [|split]; cbn [with_options with_trans serial trans].
    - intros j Hj. rewrite Other by lia. apply H1. exact Hj.
    - intros j. destruct (Nat.eq_dec j k) as [->|N]; [|rewrite Other by exact N; apply H2]. rewrite Self.
      destruct (t_state x); try discriminate; rewrite Ht; story.
    - intros j y Hy. injection Hy as <- <-. split; [exact Hk|]. rewrite Self. cbn. destruct (t_state x); try discriminate; rewrite Ht; cbn; auto.
  Qed.

  Lemma tale_create b pend (s s' : pst) e ev : tale s ev -> create_pst b pend s = Some (s', e) -> tale s' (ev ++ e).
  Proof.
    intros (H1 & H2 & H3). unfold NodeProps.create_pst.
    assert (Same : forall s', Some (s, []) = Some (s', e) -> tale s' (ev ++ e)).
    { intros s0 G. injection G as <- <-. rewrite app_nil_r. split; [exact H1|]. split; [exact H2|]. exact H3. }
    destruct (t_opts s) as [o|]; [|apply Same]. destruct (computed s); [apply Same|]. destruct pend; [apply Same|].
    destruct (veq v v0); [apply Same|]. destruct (negb b); [apply Same|]. clear Same.
    destruct (trans s) as [[k x]|] eqn:Et.
    - destruct (from_possibly_reversed _ _ _ _ _ _ _ _ _) as [y|] eqn:Er; [|discriminate]. intros G; injection G as <- <-.
      destruct (H3 k x eq_refl) as [Hk Ht].
      assert (Other : forall j, j <> k -> about j (ev ++ [(EvReplaced, k)]) = about j ev).
      { intros j Hj. rewrite about_app, about_one. destruct (Nat.eqb_spec k j); [congruence|apply app_nil_r]. }
      assert (Self : about k (ev ++ [(EvReplaced, k)]) = about k ev ++ [EvReplaced]) by (rewrite about_app, about_one, Nat.eqb_refl; reflexivity).
      split; [|split]; cbn [serial trans].
      + intros j Hj. rewrite Other by lia. apply H1. lia.
      + intros j. destruct (Nat.eq_dec j k) as [->|N]; [|rewrite Other by exact N; apply H2]. rewrite Self. unfold told in Ht.
        destruct (t_state x); [rewrite Ht; story|rewrite Ht; story|contradiction|destruct Ht as [-> | ->]; story].
      + intros j z Hz. injection Hz as <- <-. split; [lia|]. rewrite Other by lia. rewrite (H1 (serial s)) by lia.
        unfold told. rewrite (new_pending _ _ _ _ _ Er). reflexivity.
    - intros G; injection G as <- <-. rewrite app_nil_r. split; [|split]; cbn [serial trans].
      + intros j Hj. apply H1. lia.
      + exact H2.
      + intros j z Hz. injection Hz as <- <-. split; [lia|]. rewrite (H1 (serial s)) by lia. reflexivity.
  Qed.

  Lemma tale_frame f n o (ev : nat -> tevents) : frame f n = Some o -> (forall p, p < np -> tale (props n p) (ev p)) ->
    forall p, p < np -> tale (props (o_node o) p) (ev p ++ o_events o p).
  Proof.
    intros Ef H p Hp. destruct (frame_pieces _ _ _ _ _ _ _ _ _ f n o Ef) as (n2 & ev1 & aev1 & _ & G). destruct (G p Hp) as (_ & s4 & e3 & Ec & Ep & _ & Ee).
    rewrite Ep, Ee. set (n1 := if f_reset f then reset n else n) in *.
    assert (T1 : tale (props n1 p) (ev p)).
    { unfold n1. destruct (f_reset f); [|apply H; exact Hp]. destruct (H p Hp) as (A & B & _). split; [exact A|]. split; [exact B|]. intros k x D. discriminate. }
    pose proof (tale_tick (has_tickable np n1) (f_delta f) _ _ T1) as T2.
    pose proof (tale_options (f_restyle f) p _ _ T2) as T3.
    pose proof (tale_create _ _ _ _ _ _ T3 Ec) as T4. rewrite <- !app_assoc in T4.
    destruct T4 as (A & B & C). split; [exact A|]. split; [exact B|exact C].
  Qed.

  Lemma tale_run fs : forall w w', run fs w = Some w' -> (forall p, p < np -> tale (props (w_node w) p) (w_events w p)) ->
    forall p, p < np -> tale (props (w_node w') p) (w_events w' p).
  Proof.
    induction fs as [|f fs IH]; intros w w' H Q; cbn in H; [injection H as <-; exact Q|].
    destruct (frame_world f w) as [w1|] eqn:E1; [|discriminate]. apply (IH w1 w' H). unfold NodePropsSpec.frame_world in E1.
    destruct (frame f (w_node w)) as [o|] eqn:Ef; [|discriminate]. injection E1 as <-. cbn. apply (tale_frame f _ o _ Ef Q).
  Qed.

  Lemma tale_start c p : tale (props (w_node (@start F V E K c)) p) [].
  Proof. split; [intros; reflexivity|]. split; [intros; left; reflexivity|]. intros k x H. discriminate. Qed.

  (** events are not forgotten *)
  Lemma reported f n o p k x : frame f n = Some o -> p < np -> f_reset f = false -> trans (props n p) = Some (k, x) ->
    (t_state x = TPending -> t_state (t_tick (f_delta f) x) <> TPending -> In (EvStarted, k) (o_events o p)) /\
    (t_is_active x = true -> t_state (t_tick (f_delta f) x) = TFinished -> In (EvFinished, k) (o_events o p)).
  Proof.
    intros Ef Hp Hr Ht. destruct (frame_pieces _ _ _ _ _ _ _ _ _ f n o Ef) as (n2 & ev1 & aev1 & _ & G). destruct (G p Hp) as (_ & s4 & e3 & Ec & Ep & _ & Ee).
    rewrite Ee, Hr. clear -Ht Hp.
    assert (A : t_is_active x = true -> has_tickable np n = true).
    { intros A. destruct (has_tickable np n) eqn:B; [reflexivity|]. rewrite (has_tickable_false np n p k x B Hp Ht) in A. discriminate. }
    split; intros H1 H2; (rewrite A; [|unfold t_is_active in *; try rewrite H1; auto]); apply in_or_app; left; unfold tick_opt, tick_pst; rewrite Ht; cbn [fst snd]; apply in_or_app.
    - left. unfold is_pending. rewrite H1. destruct (t_state (t_tick (f_delta f) x)); [congruence|left; reflexivity|left; reflexivity|left; reflexivity].
    - right. unfold is_finished. rewrite H2. left; reflexivity.
  Qed.

  (** ** C27 *)
  Lemma stepped d (n : node) p k x : p < np -> trans (props n p) = Some (k, x) -> t_is_active x = true ->
    forall n' ev aev, tick_node np fuel d n = Some (n', ev, aev) ->
    trans (props n' p) = if t_is_active (t_tick d x) then Some (k, t_tick d x) else None.
  Proof.
    intros Hp Ht Ha n' ev aev Et. unfold tick_node in Et.
    destruct (has_tickable np n) eqn:B; [|rewrite (has_tickable_false np n p k x B Hp Ht) in Ha; discriminate].
    destruct (tick_map fuel d (anims n)) as [[m e]|]; [|discriminate]. injection Et as <- <- <-. cbn.
    unfold tick_pst. rewrite Ht. cbn. unfold clear_pst. cbn. destruct (t_is_active (t_tick d x)); reflexivity.
  Qed.

  Lemma tick_not_canceled d a b : can_be_ticked a = true -> tick fuel d a = Some b -> state b <> Canceled.
  Proof.
    assert (L : forall f x y, state x = Running -> iterate_loop f x = Some y -> state y <> Canceled).
    { induction f as [|f IH]; intros x y Hx H; simpl in H; [discriminate|].
      destruct (N.leb _ _); [|injection H as <-; congruence]. destruct (is_on_last_iteration x); [injection H as <-; discriminate|].
      eapply IH; [|exact H]. cbn. exact Hx. }
    intros Hc. unfold tick. rewrite Hc. cbn [negb]. unfold can_be_ticked in Hc.
    destruct (state a) eqn:Es; try discriminate; intros H.
    - set (x1 := stopwatch_tick d a) in *. assert (S1 : state x1 = Pending) by (unfold x1, stopwatch_tick; destruct (paused a); exact Es).
      rewrite S1 in H. destruct (N.leb _ _); unfold iterate_if_necessary in H.
      + cbn [state with_state] in H. apply (L fuel (with_state x1 Running) b eq_refl H).
      + rewrite S1 in H. injection H as <-. congruence.
    - set (x1 := stopwatch_tick d a) in *. assert (S1 : state x1 = Running) by (unfold x1, stopwatch_tick; destruct (paused a); exact Es).
      rewrite S1 in H. unfold iterate_if_necessary in H. rewrite S1 in H. apply (L fuel _ _ S1 H).
    - injection H as <-. destruct (N.ltb _ _); [discriminate|]. unfold stopwatch_tick. destruct (paused a); cbn; congruence.
  Qed.

  Definition advanced (d : N) (a b : nat * (animation * K)) : Prop :=
    fst b = fst a /\ snd (snd b) = snd (snd a) /\ tick fuel d (fst (snd a)) = Some (fst (snd b)).

  Lemma tick_vec_all d name l : forall r e stop, Forall (fun pa => can_be_ticked (fst (snd pa)) = true) l ->
    tick_vec fuel d name l = Some (r, e, stop) -> stop = false /\ Forall2 (advanced d) l r.
  Proof.
    induction l as [|[p [a k]] l IH]; intros r e stop H G; cbn in G.
    - injection G as <- <- <-. split; [reflexivity|constructor].
    - inversion H; subst. cbn in H2. rewrite H2 in G. cbn [negb] in G. destruct (tick fuel d a) as [b|] eqn:Eb; [|discriminate].
      destruct (tick_vec fuel d name l) as [[[r' e'] stop']|] eqn:Er; [|discriminate]. injection G as <- _ <-.
      destruct (IH r' e' stop' H3 eq_refl) as [A B]. split; [exact A|]. constructor; [|exact B]. split; [reflexivity|]. split; [reflexivity|exact Eb].
  Qed.

  Lemma tick_map_all d m : forall r e, Forall (fun nl => Forall (fun pa => can_be_ticked (fst (snd pa)) = true) (snd nl)) m ->
    tick_map fuel d m = Some (r, e) -> Forall2 (fun nl nl' => fst nl' = fst nl /\ Forall2 (advanced d) (snd nl) (snd nl')) m r.
  Proof.
    induction m as [|[name l] m IH]; intros r e H G; cbn in G.
    - injection G as <- <-. constructor.
    - inversion H; subst. destruct (tick_vec fuel d name l) as [[[l2 e2] stop]|] eqn:Ev; [|discriminate].
      destruct (tick_vec_all d name l l2 e2 stop H2 Ev) as [-> A].
      destruct (tick_map fuel d m) as [[r' e']|]; [|discriminate]. injection G as <- <-. constructor; [split; [reflexivity|exact A]|apply (IH r' e' H3 eq_refl)].
  Qed.

  Lemma tick_node_all d (n n' : node) ev aev :
    Forall (fun nl => Forall (fun pa => can_be_ticked (fst (snd pa)) = true) (snd nl)) (anims n) -> has_tickable np n = true ->
    tick_node np fuel d n = Some (n', ev, aev) ->
    Forall2 (fun nl nl' => fst nl' = fst nl /\ Forall2 (advanced d) (snd nl) (snd nl')) (anims n) (anims n').
  Proof.
    intros H Ht G. unfold tick_node in G. rewrite Ht in G. destruct (tick_map fuel d (anims n)) as [[m e]|] eqn:Em; [|discriminate]. injection G as <- <- <-. cbn.
    pose proof (tick_map_all d (anims n) m e H Em) as A. replace (clear_anims m) with m; [exact A|]. symmetry.
    unfold clear_anims. clear Em Ht. revert H. induction A as [|nl nl' l l' [_ A] B IH]; intros H; [reflexivity|]. inversion H; subst. cbn [filter].
    replace (forallb _ (snd nl')) with true; [f_equal; apply IH; assumption|]. symmetry. apply forallb_forall.
    intros pb Hb. revert A H2 Hb. generalize (snd nl), (snd nl'). clear. intros l l'. induction 1 as [|x y l1 l2 (X1 & X2 & X3) A IH]; intros H Hb; [destruct Hb|].
    inversion H; subst. destruct Hb as [->|Hb]; [|apply IH; assumption].
    pose proof (tick_not_canceled d _ _ H2 X3). destruct (state (fst (snd pb))); try reflexivity; congruence.
  Qed.

  Lemma not_tickable_paused (n : node) : has_tickable np n = false ->
    Forall (fun nl => Forall (fun pa => can_be_ticked (fst (snd pa)) = true -> paused (fst (snd pa)) = true) (snd nl)) (anims n).
  Proof.
    unfold has_tickable. intros H. apply orb_false_iff in H. destruct H as [_ H]. apply Forall_forall. intros nl Hn. apply Forall_forall. intros pa Hp Hc.
    destruct (paused (fst (snd pa))) eqn:Ep; [reflexivity|]. rewrite <- H. apply existsb_exists. exists nl. split; [exact Hn|].
    apply existsb_exists. exists pa. split; [exact Hp|]. rewrite Hc, Ep. reflexivity.
  Qed.

  (** ** C48: the order of the hash map *)
  Lemma fold_one (p : nat) (l : list (animation * K)) (acc : cvalue V) :
    length (filter (fun a => match asample (snd a) (fst a) with Some _ => true | None => false end) l) <= 1 ->
    fold_left (fun acc a => match asample (snd a) (fst a) with Some v => CVal v | None => acc end) l acc =
    match filter (fun a => match asample (snd a) (fst a) with Some _ => true | None => false end) l with
    | a :: _ => match asample (snd a) (fst a) with Some v => CVal v | None => acc end
    | [] => acc
    end.
  Proof.
    revert acc. induction l as [|a l IH]; intros acc H; cbn in *; [reflexivity|].
    destruct (asample (snd a) (fst a)) as [v|] eqn:Ea; cbn in H.
    - rewrite IH by lia. destruct (filter _ l) as [|b r] eqn:Ef; [rewrite Ea; reflexivity|cbn in H; lia].
    - apply IH. exact H.
  Qed.

  Lemma order_free (n n' : node) p :
    Permutation (anims n) (anims n') -> props n = props n' ->
    length (filter (fun a => match asample (snd a) (fst a) with Some _ => true | None => false end) (animations_on n p)) <= 1 ->
    anim_value n p = anim_value n' p.
  Proof.
    intros Hp Ep Hl. unfold NodeProps.anim_value. rewrite !override_filter. fold (animations_on n p) (animations_on n' p). rewrite <- Ep.
    assert (P : Permutation (animations_on n p) (animations_on n' p)).
    { unfold animations_on. apply Permutation_map. assert (G : forall (A : Type) (g : A -> bool) a b, Permutation a b -> Permutation (filter g a) (filter g b)).
      { intros A g a b X. induction X; cbn; [constructor|destruct (g x); [constructor|]; assumption| |eapply perm_trans; eassumption].
        destruct (g x), (g y); try apply perm_swap; apply Permutation_refl. }
      apply G. unfold flat. apply Permutation_flat_map. exact Hp. }
    assert (G : forall a b : list (animation * K), Permutation a b -> Permutation (filter (fun a => match asample (snd a) (fst a) with Some _ => true | None => false end) a) (filter (fun a => match asample (snd a) (fst a) with Some _ => true | None => false end) b)).
    { intros a b X. induction X; cbn; [constructor|destruct (asample (snd x) (fst x)); [constructor|]; assumption| |eapply perm_trans; eassumption].
      destruct (asample (snd x) (fst x)), (asample (snd y) (fst y)); try apply perm_swap; apply Permutation_refl. }
    pose proof (G _ _ P) as Q. pose proof (Permutation_length Q) as L.
    rewrite (fold_one p (animations_on n p)) by exact Hl. rewrite (fold_one p (animations_on n' p)) by lia.
    destruct (filter _ (animations_on n p)) as [|a r].
    - apply Permutation_nil in Q. rewrite Q. reflexivity.
    - cbn in Hl. destruct r; [|cbn in Hl; lia]. apply Permutation_length_1_inv in Q. rewrite Q. reflexivity.
  Qed.

  (** ** C47 *)
  Lemma iterate_loop_state f : forall x y, state x = Running -> iterate_loop f x = Some y -> state y = Running \/ state y = JustFinished.
  Proof.
    induction f as [|f IH]; intros x y Hx H; simpl in H; [discriminate|].
    destruct (N.leb _ _); [|injection H as <-; auto]. destruct (is_on_last_iteration x); [injection H as <-; auto|].
    eapply IH; [|exact H]. cbn. exact Hx.
  Qed.
  Lemma tick_states d a b : tick fuel d a = Some b ->
    match state a with
    | Pending => state b = Pending \/ state b = Running \/ state b = JustFinished
    | Running => state b = Running \/ state b = JustFinished
    | JustFinished => state b = JustFinished \/ state b = Finished
    | s => b = a
    end.
  Proof.
    unfold tick, can_be_ticked. destruct (state a) eqn:Es; cbn [negb]; intros H; try (injection H as <-; reflexivity).
    - set (x1 := stopwatch_tick d a) in *. assert (S1 : state x1 = Pending) by (unfold x1, stopwatch_tick; destruct (paused a); exact Es).
      rewrite S1 in H. destruct (N.leb _ _); unfold iterate_if_necessary in H.
      + cbn [state with_state] in H. right. apply (iterate_loop_state fuel (with_state x1 Running) b eq_refl H).
      + rewrite S1 in H. injection H as <-. auto.
    - set (x1 := stopwatch_tick d a) in *. assert (S1 : state x1 = Running) by (unfold x1, stopwatch_tick; destruct (paused a); exact Es).
      rewrite S1 in H. unfold iterate_if_necessary in H. rewrite S1 in H. apply (iterate_loop_state fuel _ _ S1 H).
    - injection H as <-. destruct (N.ltb _ _); [right; reflexivity|]. left. unfold stopwatch_tick. destruct (paused a); exact Es.
  Qed.

  Lemma alone_story name p (k : K) ds : forall a c evs, state a <> Canceled -> ticked_alone fuel name p ds a k = Some (c, evs) ->
    animation_story (state a) ++ evs = animation_story (state c).
  Proof.
    induction ds as [|d ds IH]; intros a c evs Ha H; cbn in H; [injection H as <- <-; apply app_nil_r|].
    destruct (can_be_ticked a) eqn:Ec; cbn [negb] in H.
    - destruct (tick fuel d a) as [b|] eqn:Eb; [|discriminate].
      destruct (ticked_alone fuel name p ds b k) as [[c' evs']|] eqn:Et; [|discriminate]. injection H as <- <-.
      pose proof (tick_not_canceled d a b Ec Eb) as Nc. specialize (IH b c' evs' Nc Et). rewrite <- IH, app_assoc. f_equal.
      pose proof (tick_states d a b Eb) as S. unfold can_be_ticked in Ec.
      destruct (state a); try discriminate.
      + destruct S as [->|[->| ->]]; reflexivity.
      + destruct S as [->| ->]; reflexivity.
      + destruct S as [->| ->]; reflexivity.
    - destruct (ticked_alone fuel name p ds a k) as [[c' evs']|] eqn:Et; [|discriminate]. injection H as <- <-. apply (IH a c' evs' Ha Et).
  Qed.
End P.

Lemma Forall2_weaken {A B} (R R' : A -> B -> Prop) l l' : (forall a b, R a b -> R' a b) -> Forall2 R l l' -> Forall2 R' l l'.
Proof. intros H F. induction F; constructor; auto. Qed.

From Coq Require Import Ascii String NArith.
From Verif Require Import Base Tree TreeSpec Vars Siblings Media Invalidation Matching Specificity Follow FollowProofs Layers Cascade Whole Live LiveSpec LiveProofs Animated AnimatedSpec.
From Verif Require VarFlow Inherit Pipeline MediaDeps Animation Transition TransitionSpec NodeProps NodePropsSpec NodePropsProofs NodePropsProofs2 HeadingSpec HeadingProofs.
Open Scope list_scope.

Section Proofs.
  Context {CN TP AP KN KF FF f32 V F E K : Type} (veq : forall a b : V, {a = b} + {a <> b}).
  Variables (feq fle fge : f32 -> f32 -> bool).
  Variables (resolve_name : CN -> option nat) (type_ok : nat -> nat -> bool) (path_ok : FF -> bool) (placeholder : nat -> nat).
  Variables (np : nat) (initial : nat -> V) (decode : nat -> Inherit.pvalue V) (unset_code : nat -> nat) (nodes : list nat).
  Variables (op : Transition.fops F) (interp : V -> V -> F -> V) (ease : E -> F -> F) (vdefault : V) (asample : K -> Animation.animation -> option V) (animatable : nat -> bool) (afuel : nat).
  Variables (mf fuel : nat).
  Notation momentT := (moment CN TP AP KN KF FF f32).
  Notation stylingT := (styling E K).
  Notation animatedT := (animated V F E K).
  Notation live_updates := (Live.updates veq feq fle fge resolve_name type_ok path_ok placeholder np initial decode unset_code nodes mf fuel).
  Notation updateA := (update veq feq fle fge resolve_name type_ok path_ok placeholder np initial decode unset_code nodes op interp ease vdefault asample animatable afuel mf fuel).
  Notation updatesA := (updates veq feq fle fge resolve_name type_ok path_ok placeholder np initial decode unset_code nodes op interp ease vdefault asample animatable afuel mf fuel).
  Notation frame := (NodeProps.frame op veq interp ease vdefault asample np animatable afuel).
  Notation inv := (NodePropsProofs.inv op veq interp ease vdefault asample np).
  Notation step u a := (updateA (fst u) (snd u) a).

  (** ** What Live.v does is not disturbed *)
  Lemma live_part (us : list (momentT * stylingT)) : forall (a a' : animatedT), updatesA us a = Some a' -> live_updates (map fst us) (an_live a) = Some (an_live a').
  Proof.
    induction us as [|[m y] us IH]; intros a a' H; cbn in H |- *; [injection H as <-; reflexivity|].
    destruct (updateA m y a) as [a1|] eqn:E1; [|discriminate]. unfold update in E1. destruct (Live.update _ _ _ _ _ _ _ _ _ _ _ _ _ _ _ _ _) as [l|] eqn:El; [|discriminate].
    destruct (forallb _ nodes); [|discriminate]. injection E1 as <-. exact (IH _ _ H).
  Qed.
  Lemma update_node (m : momentT) (y : stylingT) (a a' : animatedT) n : updateA m y a = Some a' -> In n nodes -> exists o, frame (input m y (an_live a') n) (an_node a n) = Some o /\
    an_node a' n = NodeProps.o_node o /\ forall p, an_shown a' n p = match NodeProps.o_writes o p with Some v => v | None => initial_again initial m a n p end.
  Proof.
    unfold update. destruct (Live.update _ _ _ _ _ _ _ _ _ _ _ _ _ _ _ _ _) as [l|]; [|discriminate]. destruct (forallb _ nodes) eqn:Ef; [|discriminate]. intros H Hn. injection H as <-. cbn [an_live an_node an_shown].
    rewrite forallb_forall in Ef. specialize (Ef n Hn). destruct (node_frame _ _ _ _ _ _ _ _ _ m y l a n) as [o|] eqn:Eo; [|discriminate]. exists o. split; [exact Eo|]. apply mem_In in Hn. rewrite Hn. split; reflexivity.
  Qed.

  Lemma frame_reset (f : NodeProps.frame_input V E K) n : frame f (if NodeProps.f_reset f then NodeProps.reset n else n) = frame f n.
  Proof. unfold NodeProps.frame. destruct (NodeProps.f_reset f); reflexivity. Qed.
  Lemma reset_inv n c ev aev : inv (NodePropsSpec.mk_world (NodeProps.reset n) c ev aev).
  Proof. constructor; cbn; intros; [|discriminate|discriminate]. reflexivity. Qed.

  (** ** What is shown *)
  Lemma should_shows (a : animatedT) n p v : should_show op interp ease asample a n p (NodeProps.computed (NodeProps.props (an_node a n) p)) v -> NodePropsSpec.shows op interp ease asample (an_node a n) p v.
  Proof.
    intros H. inversion H as [l1 x l2 v' E1 E2 E3|x v' E1 E2 E3 E4|x E1 E2 E3|v' E1 E2 E3]; subst; unfold transition_of in *.
    - eapply NodePropsSpec.shows_animation; eauto.
    - destruct (NodeProps.trans _) as [[i x']|] eqn:Et; [|discriminate]. injection E2 as ->. eapply NodePropsSpec.shows_transition; eauto.
    - destruct (NodeProps.trans _) as [[i x']|] eqn:Et; [|discriminate]. injection E2 as ->. eapply NodePropsSpec.shows_target; eauto.
    - apply NodePropsSpec.shows_style; [exact E1| |exact E3]. intros i x' Hx. rewrite Hx in E2. discriminate.
  Qed.
  Lemma computed_last (us : list (momentT * stylingT)) m y (a a' : animatedT) n p : updatesA (us ++ [(m, y)]) a = Some a' -> In n nodes -> p < np ->
    NodeProps.computed (NodeProps.props (an_node a' n) p) = Inherit.computed (Pipeline.world (lv_pipe (an_live a')) n) p.
  Proof.
    intros H Hn Hp. revert a H. induction us as [|[m1 y1] us IH]; intros a H; cbn in H.
    - destruct (updateA m y a) as [a1|] eqn:E1; [|discriminate]. injection H as <-. destruct (update_node m y a a1 n E1 Hn) as (o & Ho & -> & _).
      destruct (NodePropsProofs.frame_pieces _ _ _ _ _ _ _ _ _ _ (an_node a n) o Ho) as (n2 & ev1 & aev1 & _ & Gp). destruct (Gp p Hp) as (_ & s4 & e3 & _ & -> & _). reflexivity.
    - destruct (updateA m1 y1 a) as [a1|]; [|discriminate]. exact (IH a1 H).
  Qed.
  Definition good (a : animatedT) : Prop := forall n, In n nodes -> inv (NodePropsSpec.mk_world (an_node a n) (an_shown a n) (fun _ => []) []).
  Lemma start_good bef : good (start bef).
  Proof. intros n _. constructor; cbn; intros; [reflexivity|discriminate|discriminate]. Qed.
  Hypothesis starts : forall a b, interp a b (Transition.f_clamp op (Transition.f_zero op) (Transition.f_zero op) (Transition.f_one op)) = a.
  Hypothesis samples : NodePropsProofs.sampled op veq interp ease vdefault.
  Lemma step_good (u : momentT * stylingT) (a a' : animatedT) : good a -> step u a = Some a' -> (forall n, In n nodes -> starts_from_shown op interp ease asample np afuel u a a' n) -> good a' /\
    forall n p, In n nodes -> p < np -> NodeProps.computed (NodeProps.props (an_node a' n) p) = Inherit.computed (Pipeline.world (lv_pipe (an_live a')) n) p.
  Proof.
    destruct u as [m y]. cbn [fst snd]. intros G Hu Hs.
    assert (X : forall n, In n nodes -> inv (NodePropsSpec.mk_world (an_node a' n) (an_shown a' n) (fun _ => []) []) /\
      forall p, p < np -> NodeProps.computed (NodeProps.props (an_node a' n) p) = Inherit.computed (Pipeline.world (lv_pipe (an_live a')) n) p).
    { intros n Hn. destruct (update_node m y a a' n Hu Hn) as (o & Ho & En & Es). set (f := input m y (an_live a') n) in *.
      set (w := NodePropsSpec.mk_world (if NodeProps.f_reset f then NodeProps.reset (an_node a n) else an_node a n) (initial_again initial m a n) (fun _ => []) []).
      assert (Iw : inv w). { unfold w. destruct (NodeProps.f_reset f) eqn:Er; [apply reset_inv|]. cbn in Er. unfold is_reset in Er. apply orb_false_iff in Er as [Er _]. apply orb_false_iff in Er as [Er _].
        destruct (G n Hn) as [I1 I2 I3]. constructor; cbn in *; auto. intros p v Hp Hv. unfold initial_again. rewrite Er. cbn [andb]. exact (I2 p v Hp Hv). }
      assert (Fw : frame f (NodePropsSpec.w_node w) = Some o) by (cbn [w NodePropsSpec.w_node]; rewrite frame_reset; exact Ho).
      destruct (NodePropsProofs.frame_inv op veq interp ease vdefault asample np animatable afuel f w (NodePropsSpec.mk_world (NodeProps.o_node o) (fun p => match NodeProps.o_writes o p with Some v => v | None => initial_again initial m a n p end) (fun p => [] ++ NodeProps.o_events o p) ([] ++ NodeProps.o_anim_events o))) as [I' _]; auto.
      - intros p from Hp Hf. pose proof Hf as (Hr & _). cbn [w NodePropsSpec.w_node] in Hf |- *. rewrite Hr in Hf |- *. destruct (Hs n Hn p from Hp Hf) as (c & <- & Hsh). apply should_shows. exact Hsh.
      - unfold NodePropsSpec.frame_world. rewrite Fw. reflexivity.
      - split.
        + destruct I' as [I1 I2 I3]. rewrite En. constructor; cbn in *; auto. intros p v Hp Hv. rewrite Es. exact (I2 p v Hp Hv).
        + intros p Hp. rewrite En. destruct (NodePropsProofs.frame_pieces _ _ _ _ _ _ _ _ _ f (an_node a n) o Ho) as (n2 & ev1 & aev1 & _ & Gp). destruct (Gp p Hp) as (_ & s4 & e3 & _ & -> & _). reflexivity. }
    split; [intros n Hn; exact (proj1 (X n Hn))|]. intros n p Hn Hp. exact (proj2 (X n Hn) p Hp).
  Qed.
  Lemma good_run (us : list (momentT * stylingT)) : forall (a a' : animatedT), us <> [] -> good a -> updatesA us a = Some a' -> smooth op interp ease asample (fun u => updateA (fst u) (snd u)) np afuel nodes us a ->
    good a' /\ forall n p, In n nodes -> p < np -> NodeProps.computed (NodeProps.props (an_node a' n) p) = Inherit.computed (Pipeline.world (lv_pipe (an_live a')) n) p.
  Proof.
    induction us as [|[m y] us IH]; intros a a' Hne G H S; [congruence|]. cbn in H. destruct (updateA m y a) as [a1|] eqn:E1; [|discriminate]. destruct (S a1 E1) as [S1 S2].
    destruct (step_good (m, y) a a1 G E1 S1) as [G1 C1]. destruct us as [|u us]; [cbn in H; injection H as <-; split; assumption|]. apply (IH a1 a' ltac:(discriminate) G1 H S2).
  Qed.

  (** ** Calm histories are smooth *)
  Lemma calm_step (u : momentT * stylingT) (a a' : animatedT) n : calm_at asample np u a a' n -> starts_from_shown op interp ease asample np afuel u a a' n.
  Proof.
    intros C p from Hp (Hr & Hc & (pend & to & Hpe & Hto & Hne) & (n' & ev & aev & Ht & Hn')). exists (NodeProps.computed (NodeProps.props (an_node a n) p)). split; [reflexivity|].
    cbn in Hpe. injection Hpe as <-. destruct (C p Hp) as [S T]; [rewrite Hto, Hc; intros A; injection A as ->; apply Hne; reflexivity|].
    apply by_style; [exact S| |exact Hc]. unfold transition_of in *. destruct (NodeProps.trans (NodeProps.props (an_node a n) p)) as [[i x]|] eqn:Ex; [|reflexivity]. exfalso. specialize (T x eq_refl).
    unfold NodeProps.tick_node in Ht. destruct (NodeProps.has_tickable np (an_node a n)).
    - destruct (NodeProps.tick_map _ _ _) as [[mm e]|]; [|discriminate]. injection Ht as <- _ _. cbn in Hn'. unfold NodeProps.tick_pst in Hn'. rewrite Ex in Hn'. cbn in Hn'. unfold NodeProps.clear_pst in Hn'. cbn in Hn'. rewrite T in Hn'. discriminate.
    - injection Ht as <- _ _. congruence.
  Qed.
  Lemma calm_smooth (us : list (momentT * stylingT)) : forall (a : animatedT), calm asample (fun u => updateA (fst u) (snd u)) np nodes us a -> smooth op interp ease asample (fun u => updateA (fst u) (snd u)) np afuel nodes us a.
  Proof.
    induction us as [|u us IH]; intros a C; [exact I|]. intros a' H. destruct (C a' H) as [C1 C2]. split; [intros n Hn; apply calm_step, C1, Hn|exact (IH a' C2)].
  Qed.

  (** ** Transitions head for the CSS value *)
  Lemma aimed_run n p (us : list (momentT * stylingT)) : forall (a a' : animatedT), In n nodes -> p < np -> (forall q, q < np -> NodePropsProofs2.quiet (NodeProps.props (an_node a n) q)) ->
    HeadingProofs.aimed (animatable p) (NodeProps.props (an_node a n) p) -> value_stays (fun u => updateA (fst u) (snd u)) n p us a -> updatesA us a = Some a' -> HeadingProofs.aimed (animatable p) (NodeProps.props (an_node a' n) p).
  Proof.
    induction us as [|[m y] us IH]; intros a a' Hn Hp Q A S H; cbn in H; [injection H as <-; exact A|]. destruct (updateA m y a) as [a1|] eqn:E1; [|discriminate]. destruct (S a1 E1) as [S1 S2].
    destruct (update_node m y a a1 n E1 Hn) as (o & Ho & En & _). apply (IH a1 a' Hn Hp); [| |exact S2|exact H]; rewrite En.
    - exact (NodePropsProofs2.quiet_frame op veq interp ease vdefault asample np animatable afuel _ _ o Ho Q).
    - apply (HeadingProofs.aimed_frame op veq interp ease vdefault asample np animatable afuel _ _ o p Ho Hp (Q p Hp) A). destruct S1 as [S1|[S1|S1]]; [left; exact S1|right; left; exact S1|right; right].
      intros pend Hpe. cbn in Hpe. injection Hpe as <-. exact S1.
  Qed.
End Proofs.

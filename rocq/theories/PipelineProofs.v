(** Proofs for C87. *)
From Verif Require Import Base Tree TreeSpec TreeProofs Vars VarsSpec VarsProofs.
From Verif Require VarFlow VarFlowSpec VarFlowProofs Inherit InheritSpec InheritProofs.
From Verif Require Import Pipeline PipelineSpec.

Section Proofs.
  Context {V : Type} (veq : forall a b : V, {a = b} + {a <> b}).
  Variables (np : nat) (initial : nat -> V) (decode : nat -> Inherit.pvalue V) (unset_code : nat -> nat) (nodes : list nat).
  Hypothesis unset_ok : forall p, decode (unset_code p) <> Inherit.PUnset.
  Notation unset := (Pipeline.unset decode unset_code).
  Notation update := (update veq np initial decode unset_code nodes).
  Notation updates := (updates veq np initial decode unset_code nodes).
  Notation well_behaved := (well_behaved decode unset_code nodes).
  Notation css_value := (css_value initial decode unset_code).

  (** ** The CSS value is determined *)
  Lemma sees_fun f n r r' : VarFlowSpec.sees f n r -> VarFlowSpec.sees f n r' -> forall v, r v = r' v.
  Proof.
    intros (o & Ho & Hr) (o' & Ho' & Hr') v.
    assert (Eo : forall a k, o a k = o' a k).
    { intros a k. specialize (Ho a k). specialize (Ho' a k). destruct (o a k) as [x|], (o' a k) as [y|]; try reflexivity.
      - apply VarFlowProofs.last_entry_get in Ho, Ho'. congruence.
      - apply VarFlowProofs.last_entry_get in Ho. apply VarFlowProofs.get_none in Ho'. congruence.
      - apply VarFlowProofs.last_entry_get in Ho'. apply VarFlowProofs.get_none in Ho. congruence. }
    eapply nearest_det; [apply Hr|]. eapply VarFlowProofs.nearest_transfer; [apply Hr'|]. intros a _. split; [reflexivity|apply Eo].
  Qed.
  Lemma declares_fun f p n d d' : declares decode unset_code f p n d -> declares decode unset_code f p n d' -> d = d'.
  Proof.
    intros (c & r & v & E1 & E2 & E3 & ->) (c' & r' & v' & E1' & E2' & E3' & ->). assert (c' = c) by congruence. subst c'. f_equal.
    eapply VarFlowProofs.value_det; [exact E3|]. eapply VarFlowProofs.value_ext; [|exact E3']. eapply sees_fun; eauto.
  Qed.
  Lemma declares_sheet f p n d : declares decode unset_code f p n d -> VarFlow.f_sheet f n <> None.
  Proof. intros (c & _ & _ & E & _). congruence. Qed.
  Lemma css_value_fun f p n c : css_value f p n c -> forall c', css_value f p n c' -> c = c'.
  Proof.
    induction 1 as [n E|n d c E1 E2 E3|n m d cm c E1 E2 IH E3 E4]; intros c' H'; inversion H' as [n' F|n' d' c1 F1 F2 F3|n' m' d' cm' c1 F1 F2 F3 F4]; subst;
      try reflexivity; try congruence; try (exfalso; match goal with H : declares _ _ _ _ _ _ |- _ => apply declares_sheet in H; contradiction end).
    - rewrite (declares_fun _ _ _ _ _ E2 F2) in E3. eapply InheritProofs.means_fun; eauto.
    - assert (m' = m) by congruence. subst m'. rewrite (IH _ F2) in E4. rewrite (declares_fun _ _ _ _ _ E3 F3) in E4. eapply InheritProofs.means_fun; eauto.
  Qed.

  (** ** One frame *)
  Definition before : frame := mk_frame (VarFlow.mk_frame (Build_forest (fun _ => []) (fun _ => None)) (fun _ => None) (fun _ => []) (fun _ => VarFlow.mk_ruleset [] []) (fun _ => false) (fun _ => false) (fun _ => false) (fun _ => false)) [] (fun _ => false).
  Definition next (f0 f : frame) : Prop := goes_on f0 f \/ f0 = before /\ forall n, In n (p_alive f) -> p_reset f n = true.
  Record Inv (f : frame) (a : InheritSpec.moment V) (s : state V) : Prop := {
    i_flow : forall n, In n nodes -> VarFlowProofs.good unset_code (flow_frame f) (flow s) n;
    i_world : InheritProofs.good np unset initial a (world s);
    i_parent : InheritSpec.at_parent a = parent (VarFlow.f_forest (p_flow f));
    i_visits : forall n, In n (map snd (Inherit.f_visits (InheritSpec.at_frame a))) <-> In n (p_alive f);
    i_declared : forall n, In n nodes -> match VarFlow.f_sheet (p_flow f) n with
                   | Some _ => exists d, InheritSpec.at_declared a n = Some d /\ forall q, d q = decode (VarFlow.v_values (flow s) n q)
                   | None => InheritSpec.at_declared a n = None end;
    i_outside : forall n, ~ In n nodes -> InheritSpec.at_declared a n = None;
    i_shown : forall n p v, In n (p_alive f) -> p < np -> Inherit.computed (world s n) p = Inherit.CVal v -> shown s n p = v;
    i_still : forall n p, Inherit.can_transition (world s n) p = false }.

  Lemma alive_nodes f : well_behaved f -> VarFlowSpec.in_nodes nodes (VarFlow.f_forest (p_flow f)).
  Proof. intros (_ & _ & Hin & Ha & _) n p E. destruct (Hin n p E). auto. Qed.
  Definition fuel_ok (f : frame) (fuel : nat) (visits : list (option nat * nat)) : Prop :=
    VarFlowProofs.enough (VarFlow.f_forest (p_flow f)) nodes fuel /\ Inherit.visits_of (VarFlow.f_forest (p_flow f)) fuel (roots f) = Some visits /\
    InheritSpec.tree_order (parent (VarFlow.f_forest (p_flow f))) visits /\ forall n, In n (map snd visits) <-> In n (p_alive f).
  Lemma has_root w alive n : wf_forest w -> VarFlowSpec.in_nodes alive w -> In n alive -> exists r, In r alive /\ parent w r = None /\ (n = r \/ descendant w r n).
  Proof.
    intros Hw Hin. destruct (chain_exists w n Hw) as [l Hl]. induction Hl as [e He|e p l He Hc IH]; intros Hn; [eauto|].
    destruct IH as (r & H1 & H2 & H3); [apply (Hin e p He)|]. exists r. split; [exact H1|]. split; [exact H2|]. right. destruct H3 as [->|H3]; [constructor; exact He|econstructor 2; eauto].
  Qed.
  Lemma fuel_exists f : well_behaved f -> exists n0 visits, forall fuel, n0 <= fuel -> fuel_ok f fuel visits.
  Proof.
    intros Hf. destruct Hf as (Hw & Hnd & Hin & Ha & _). destruct (VarFlowProofs.enough_exists (VarFlow.f_forest (p_flow f)) nodes Hw) as [n1 H1].
    destruct (InheritProofs.visits_order (VarFlow.f_forest (p_flow f)) (roots f) Hw) as (n2 & vs & H2 & H3 & H4).
    - apply NoDup_filter, Hnd.
    - intros r Hr. apply filter_In in Hr as [_ Hr]. destruct (parent _ r); [discriminate|reflexivity].
    - exists (n1 + n2), vs. intros fuel Hfu. split; [apply H1; lia|]. split; [apply H2; lia|]. split; [exact H3|]. intros n. rewrite H4. split.
      + intros (r & Hr & Hn). apply filter_In in Hr as [Hr _]. destruct Hn as [->|Hn]; [exact Hr|]. inversion Hn as [e He|p e _ He]; subst; apply (Hin _ _ He).
      + intros Hn. destruct (has_root _ _ n Hw Hin Hn) as (r & R1 & R2 & R3). exists r. split; [|exact R3]. apply filter_In. rewrite R2. auto.
  Qed.

  (** nothing but [visit] happens to a node while values are computed; without transitions, what was computed before stays until it is applied *)
  Lemma visit_still vs : forall w : Inherit.world V, (forall n p, Inherit.can_transition (w n) p = false) ->
    let w' := fold_left (Inherit.visit veq np unset initial) vs w in
    (forall n p, Inherit.can_transition (w' n) p = false) /\ (forall n p, Inherit.computed (w' n) p = Inherit.computed (w n) p).
  Proof.
    induction vs as [|[pm m] vs IH]; intros w Hc; cbn [fold_left]; [split; [exact Hc|reflexivity]|].
    assert (K : (forall n p, Inherit.can_transition (Inherit.visit veq np unset initial w (pm, m) n) p = false) /\
                (forall n p, Inherit.computed (Inherit.visit veq np unset initial w (pm, m) n) p = Inherit.computed (w n) p)).
    { split; intros n p; unfold Inherit.visit, Inherit.set_world; cbn [fst snd]; destruct (Nat.eqb_spec n m) as [->|]; try reflexivity; try apply Hc;
        unfold Inherit.compute_node; destruct (Inherit.pending_values _ _ _ _ _ _); cbn; try apply Hc.
      unfold Inherit.takes_over. rewrite Hc. reflexivity. }
    destruct K as [K1 K2]. destruct (IH _ K1) as [A B]. split; [exact A|]. intros n p. rewrite B. apply K2.
  Qed.
  Lemma applied_fields (w : Inherit.world V) (g : Inherit.frame V) n p : (forall n p, Inherit.can_transition (w n) p = false) ->
    (forall n d t, Inherit.f_style g n = Some (d, t) -> forall p, t p = false) ->
    let w1 := Inherit.begin_frame g w in let w2 := to_apply veq np initial decode unset_code g w in
    Inherit.can_transition (Inherit.apply_node veq np (w2 n)) p = false /\
    Inherit.computed (w2 n) p = Inherit.computed (w1 n) p /\
    Inherit.computed (Inherit.apply_node veq np (w2 n)) p = (if Inherit.same (w2 n) then Inherit.computed (w1 n) p else Inherit.pending (w2 n) p).
  Proof.
    intros Hc Hs w1 w2.
    assert (C1 : forall n p, Inherit.can_transition (w1 n) p = false).
    { intros m q. unfold w1, Inherit.begin_frame. destruct (Inherit.f_style g m) as [[d t]|] eqn:E; [cbn; eapply Hs; exact E|]. destruct (Inherit.f_reset g m); [reflexivity|apply Hc]. }
    assert (C2 : Inherit.can_transition (w2 n) p = false /\ Inherit.computed (w2 n) p = Inherit.computed (w1 n) p).
    { unfold w2, to_apply. fold w1. destruct (Inherit.restyled g); [|cbn; split; [apply C1|reflexivity]]. destruct (visit_still (Inherit.f_visits g) w1 C1) as [A B]. split; [apply A|apply B]. }
    destruct C2 as [C2 C3]. split; [|split; [exact C3|]].
    - unfold Inherit.apply_node. destruct (Inherit.same (w2 n)); exact C2.
    - unfold Inherit.apply_node. destruct (Inherit.same (w2 n)); [exact C3|reflexivity].
  Qed.

  Section Step.
    Variables (f0 f : frame) (a : InheritSpec.moment V) (s : state V) (fuel : nat) (visits : list (option nat * nat)).
    Hypotheses (HI : Inv f0 a s) (Hwb : well_behaved f) (Hnext : next f0 f) (Hfuel : fuel_ok f fuel visits).
    Let ff := flow_frame f.
    Let s1 := VarFlow.mark ff (VarFlow.on_modified ff (flow s)).

    Lemma gone_not n : In n (p_alive f) -> gone f n = false.
    Proof. intros H. unfold gone. apply VarFlowProofs.mem_in in H. rewrite H. reflexivity. Qed.
    Lemma keeps n : gone f n = false -> VarFlow.f_sheet (p_flow f) n = None -> VarFlow.f_sheet (p_flow f0) n = None.
    Proof.
      intros Hn E. destruct Hnext as [(_ & _ & Hk & _)|[-> _]]; [|reflexivity]. destruct (VarFlow.f_sheet (p_flow f0) n) eqn:E0; [|reflexivity]. exfalso. apply (Hk n); [exact Hn|congruence|exact E].
    Qed.
    Lemma step_flow : exists s2, VarFlow.calculate_style_and_set_vars nodes fuel ff s1 = Some s2 /\
      (forall n, In n nodes -> VarFlowProofs.good unset_code ff (VarFlow.set_property_values unset_code nodes fuel ff s2) n) /\
      (forall n, VarFlow.v_needs (flow s) n = true \/ VarFlowSpec.noticed ff n -> VarFlow.v_needs s2 n = true) /\
      VarFlow.v_values s2 = VarFlow.v_values (flow s).
    Proof.
      destruct Hwb as (Hw & _). pose proof (alive_nodes f Hwb) as Hin. destruct Hfuel as (Hen & _).
      destruct (VarFlowProofs.step_good unset_code nodes fuel (flow_frame f0) ff (flow s)) as (s3 & E3 & G3).
      - exact Hw.
      - exact Hin.
      - destruct Hwb as (_ & _ & Ht & _ & Hsh & _). split; [intros n p Hp; destruct (Ht n p Hp); split; apply gone_not; assumption|intros n Hs; apply gone_not, Hsh, Hs].
      - exact Hen.
      - destruct Hnext as [(H1 & H2 & H3 & H4 & _)|[-> _]]; [right|left; reflexivity]. split; [exact H1|]. split; [exact H2|]. split; [exact H3|exact H4].
      - apply (i_flow _ _ _ HI).
      - unfold VarFlow.step in E3. fold s1 in E3. destruct (VarFlow.calculate_style_and_set_vars nodes fuel ff s1) as [s2|] eqn:E2; [|discriminate]. cbn [option_map] in E3. injection E3 as <-.
        exists s2. split; [reflexivity|]. split; [exact G3|]. unfold VarFlow.calculate_style_and_set_vars in E2. destruct (VarFlow.all_descendants _ _ _) as [l|]; [|discriminate]. injection E2 as <-. split; [|reflexivity].
        intros n H. cbn. unfold VarFlowSpec.noticed in H. destruct H as [->|[E|[E|E]]]; cbn in *; rewrite ?E, ?orb_true_r; reflexivity.
    Qed.

    Section With.
      Variable s2 : VarFlow.state.
      Hypothesis E2 : VarFlow.calculate_style_and_set_vars nodes fuel ff s1 = Some s2.
      Let s3 := VarFlow.set_property_values unset_code nodes fuel ff s2.
      Hypothesis G3 : forall n, In n nodes -> VarFlowProofs.good unset_code ff s3 n.
      Hypothesis N2 : forall n, VarFlow.v_needs (flow s) n = true \/ VarFlowSpec.noticed ff n -> VarFlow.v_needs s2 n = true.
      Hypothesis V2 : VarFlow.v_values s2 = VarFlow.v_values (flow s).
      Let g := computing decode nodes f s2 s3 visits.
      Let b := InheritSpec.mk_moment g (parent (VarFlow.f_forest (p_flow f))) (InheritSpec.declared_after g (InheritSpec.at_declared a)).

      Lemma reset_noticed n : gone f n = false -> Inherit.f_reset g n = true -> VarFlowSpec.noticed ff n.
      Proof. cbn. intros Hg H. rewrite Hg, orb_false_r in H. apply orb_true_iff in H as [H|H]; [left; exact H|]. right. right. cbn. rewrite H, orb_true_r. reflexivity. Qed.
      Lemma noticed_restyled n : In n nodes -> VarFlowSpec.noticed ff n \/ VarFlow.v_needs (flow s) n = true -> VarFlow.f_sheet (p_flow f) n <> None -> Inherit.f_style g n <> None.
      Proof.
        intros Hn H Hs. cbn. unfold restyles, VarFlow.calculated. rewrite (N2 n) by tauto. rewrite (proj2 (VarFlowProofs.mem_in n nodes) Hn). destruct (VarFlow.f_sheet (p_flow f) n); [discriminate|contradiction].
      Qed.
      Lemma b_declared n : In n nodes -> match VarFlow.f_sheet (p_flow f) n with
                   | Some _ => exists d, InheritSpec.at_declared b n = Some d /\ forall q, d q = decode (VarFlow.v_values s3 n q)
                   | None => InheritSpec.at_declared b n = None end.
      Proof.
        intros Hn. cbn [b InheritSpec.at_declared]. unfold InheritSpec.declared_after.
        destruct (VarFlow.f_sheet (p_flow f) n) as [c|] eqn:Es.
        - destruct (Inherit.f_style g n) as [[d t]|] eqn:Est.
          + exists d. split; [reflexivity|]. cbn in Est. destruct (restyles nodes f s2 n); [|discriminate]. injection Est as <- _. reflexivity.
          + assert (Hnn : ~ VarFlowSpec.noticed ff n) by (intros H; apply (noticed_restyled n Hn (or_introl H)); [congruence|exact Est]).
            assert (Hv : VarFlow.v_needs (flow s) n = false) by (destruct (VarFlow.v_needs (flow s) n) eqn:E; [exfalso; apply (noticed_restyled n Hn (or_intror E)); [congruence|exact Est]|reflexivity]).
            destruct (Inherit.f_reset g n) eqn:Er; [apply reset_noticed in Er; [contradiction|apply gone_not; destruct Hwb as (_ & _ & _ & _ & Hsh & _); apply Hsh; congruence]|].
            pose proof (i_declared _ _ _ HI n Hn) as Hd. pose proof (i_flow _ _ _ HI n Hn) as Hg. unfold VarFlowProofs.good in Hg. cbn [flow_frame VarFlow.f_sheet] in Hg.
            destruct (VarFlow.f_sheet (p_flow f0) n) as [c0|]; [|destruct Hg; congruence]. destruct Hd as (d & E & Hd). exists d. split; [exact E|]. intros q. rewrite Hd. f_equal.
            cbn in Est. unfold restyles, VarFlow.calculated in Est. rewrite Es, (proj2 (VarFlowProofs.mem_in n nodes) Hn), !andb_true_r in Est.
            destruct (VarFlow.v_needs s2 n) eqn:En2; [discriminate|]. unfold s3, VarFlow.set_property_values. cbn [VarFlow.v_values]. rewrite En2. cbn. rewrite Es, V2. reflexivity.
        - assert (Est : Inherit.f_style g n = None) by (cbn; unfold restyles, VarFlow.calculated; rewrite Es, andb_false_r; reflexivity). rewrite Est.
          destruct (Inherit.f_reset g n) eqn:Er; [reflexivity|]. cbn in Er. apply orb_false_iff in Er as [_ Er]. pose proof (i_declared _ _ _ HI n Hn) as Hd. rewrite (keeps n Er Es) in Hd. exact Hd.
      Qed.
      Lemma alive_in n : In n (map snd (Inherit.f_visits g)) -> In n (p_alive f) /\ In n nodes.
      Proof. intros H. cbn in H. destruct Hfuel as (_ & _ & _ & Hv). apply Hv in H. split; [exact H|]. apply Hwb, H. Qed.
      Lemma styled_or_not n : In n nodes -> VarFlowSpec.noticed ff n -> Inherit.f_style g n <> None \/ InheritSpec.at_declared b n = None.
      Proof.
        intros Hn H. pose proof (b_declared n Hn) as Hb. destruct (VarFlow.f_sheet (p_flow f) n) as [c|] eqn:Es; [|right; exact Hb]. left. apply noticed_restyled; [exact Hn|left; exact H|congruence].
      Qed.
      Lemma b_outside n : ~ In n nodes -> InheritSpec.at_declared b n = None.
      Proof.
        intros Hn. cbn [b InheritSpec.at_declared]. unfold InheritSpec.declared_after. cbn [g computing Inherit.f_style Inherit.f_reset]. unfold restyles.
        assert (E : VarFlow.mem n nodes = false) by (destruct (VarFlow.mem n nodes) eqn:E; [apply VarFlowProofs.mem_in in E; contradiction|reflexivity]). rewrite E, andb_false_r.
        destruct (_ || _ || _)%bool; [reflexivity|]. apply (i_outside _ _ _ HI), Hn.
      Qed.
      Lemma b_follows : InheritSpec.follows unset a b.
      Proof.
        unfold InheritSpec.follows. cbn [b InheritSpec.at_frame InheritSpec.at_parent]. fold b. split; [apply Hfuel|]. split; [reflexivity|]. split; [|split; [|split]].
        - intros n Hn Hna. apply alive_in in Hn as [Hn _]. cbn. rewrite (i_visits _ _ _ HI) in Hna. apply orb_true_iff. left. apply orb_true_iff. right. destruct Hnext as [(_ & _ & _ & _ & Hr)|[_ Hr]]; [apply Hr; assumption|apply Hr, Hn].
        - intros n Hn Hr Hp. apply alive_in in Hn as [Hn Hn']. apply styled_or_not; [exact Hn'|]. destruct Hnext as [(Hrep & _)|[_ Hres]].
          + right. left. destruct (Hrep n (gone_not n Hn)) as [R _]. destruct (VarFlow.f_changed ff n) eqn:Ec; [reflexivity|]. destruct (R Ec) as [P _]. rewrite (i_parent _ _ _ HI) in Hp. contradiction.
          + cbn in Hr. rewrite (Hres n Hn), !orb_true_r in Hr. discriminate.
        - intros n m Hn Hp Hr. apply alive_in in Hn as [Hn Hn']. apply styled_or_not; [exact Hn'|]. cbn in Hr. assert (Hgm : gone f m = false) by (apply gone_not; destruct Hwb as (_ & _ & Ht & _); apply (Ht n m Hp)). rewrite Hgm, orb_false_r in Hr. apply orb_true_iff in Hr. pose proof Hwb as (_ & _ & _ & _ & _ & _ & Hb).
          destruct (Hb n m Hp Hr) as [H|H]; [apply reset_noticed; [apply gone_not; exact Hn|cbn; rewrite H, !orb_true_r; reflexivity]|]. destruct H as [H|[H|H]]; [left; exact H|right; left; exact H|right; right; cbn; rewrite H; reflexivity].
        - intros n d p Hd Hu. destruct (in_dec Nat.eq_dec n nodes) as [Hn|Hn]; [|rewrite (b_outside n Hn) in Hd; discriminate].
          pose proof (b_declared n Hn) as Hb. destruct (VarFlow.f_sheet (p_flow f) n) as [c|] eqn:Es; [|congruence]. destruct Hb as (d' & E & Hb). rewrite Hd in E. injection E as <-. rewrite Hb in Hu.
          destruct (VarFlowProofs.good_up_to_date unset_code ff s3 n (G3 n Hn) c Es) as (r & Hr & Hv). destruct (Hv p) as [(l1 & x & l2 & El & Hx & _)|[_ Eu]].
          + destruct Hwb as (_ & _ & _ & _ & _ & Hun & _). apply (Hun n c r x p _ Es Hr) in Hu; [exact Hu| |exact Hx]. change (VarFlowSpec.declarations ff c n) with (VarFlowSpec.declarations (p_flow f) c n) in El. rewrite El. apply in_or_app. right. left. reflexivity.
          + rewrite Eu in Hu. exfalso. exact (unset_ok p Hu).
      Qed.

      Let w2 := to_apply veq np initial decode unset_code g (world s).
      Definition result : state V := mk_state s3 (fun n => Inherit.apply_node veq np (w2 n))
        (fun n p => match written veq (w2 n) p with Some v => v | None => initial_again initial f s n p end).
      Lemma update_result : update fuel s f = Some result.
      Proof. unfold Pipeline.update. fold ff. fold s1. rewrite E2. destruct Hfuel as (_ & Ev & _). change (VarFlow.f_forest ff) with (VarFlow.f_forest (p_flow f)). rewrite Ev. reflexivity. Qed.
      Lemma g_still n d t : Inherit.f_style g n = Some (d, t) -> forall p, t p = false.
      Proof. cbn. destruct (restyles nodes f s2 n); [|discriminate]. intros E. injection E as _ <-. reflexivity. Qed.

      (** what was shown is still shown *)
      Lemma w1_shown n p v : In n (p_alive f) -> p < np -> Inherit.computed (Inherit.begin_frame g (world s) n) p = Inherit.CVal v -> initial_again initial f s n p = v.
      Proof.
        intros Hn Hp E. unfold Inherit.begin_frame in E.
        assert (Er : Inherit.f_reset g n = false /\ Inherit.computed (world s n) p = Inherit.CVal v).
        { destruct (Inherit.f_reset g n); [|split; [reflexivity|]]; destruct (Inherit.f_style g n) as [[d t]|]; cbn in E; try discriminate; exact E. }
        destruct Er as [Er Ec]. cbn in Er. apply orb_false_iff in Er as [Er _]. apply orb_false_iff in Er as [Em Er]. unfold initial_again. rewrite Em. cbn.
        assert (H0 : In n (p_alive f0)).
        { destruct (in_dec Nat.eq_dec n (p_alive f0)) as [H|H]; [exact H|]. exfalso. destruct Hnext as [(_ & _ & _ & _ & Hr)|[_ Hr]]; [rewrite (Hr n Hn H) in Er|rewrite (Hr n Hn) in Er]; discriminate. }
        eapply (i_shown _ _ _ HI); eauto.
      Qed.
      Lemma result_shown n p : In n (p_alive f) -> p < np ->
        shown result n p = match Inherit.computed (world result n) p with Inherit.CVal v => v | Inherit.CNone => initial_again initial f s n p end.
      Proof.
        intros Hn Hp. destruct (applied_fields (world s) g n p (i_still _ _ _ HI) g_still) as (_ & C2 & C3). unfold result. cbn [shown world]. fold w2 in C2, C3. rewrite C3. unfold written. rewrite C2.
        destruct (Inherit.same (w2 n)).
        - destruct (Inherit.computed (Inherit.begin_frame g (world s) n) p) as [|v] eqn:E; [reflexivity|]. apply (w1_shown n p v Hn Hp E).
        - destruct (Inherit.ceqb veq (Inherit.computed (Inherit.begin_frame g (world s) n) p) (Inherit.pending (w2 n) p)) eqn:Eq.
          + apply InheritProofs.ceqb_eq in Eq. rewrite <- Eq. destruct (Inherit.computed (Inherit.begin_frame g (world s) n) p) as [|v] eqn:E; [reflexivity|]. apply (w1_shown n p v Hn Hp E).
          + destruct (Inherit.pending (w2 n) p); reflexivity.
      Qed.
      Lemma result_inv : Inv f b result.
      Proof.
        split.
        - exact G3.
        - exact (InheritProofs.frame_good veq np unset initial unset_ok a b (world s) (i_world _ _ _ HI) b_follows).
        - reflexivity.
        - apply Hfuel.
        - exact b_declared.
        - exact b_outside.
        - intros n p v Hn Hp E. rewrite (result_shown n p Hn Hp), E. reflexivity.
        - intros n p. apply (applied_fields (world s) g n p (i_still _ _ _ HI) g_still).
      Qed.
    End With.

    Lemma step_inv : exists b s', update fuel s f = Some s' /\ Inv f b s' /\
      forall n p, In n (p_alive f) -> p < np -> shown s' n p = match Inherit.computed (world s' n) p with Inherit.CVal v => v | Inherit.CNone => initial_again initial f s n p end.
    Proof.
      destruct step_flow as (s2 & E2 & G3 & N2 & V2). eexists. exists (result s2). split; [exact (update_result s2 E2)|]. split; [exact (result_inv s2 G3 N2 V2)|]. exact (result_shown s2).
    Qed.
  End Step.

  (** ** What is computed is the CSS value *)
  Lemma computed_css f a s n p : well_behaved f -> Inv f a s -> In n (p_alive f) -> p < np -> css_value (p_flow f) p n (Inherit.computed (world s n) p).
  Proof.
    intros Hwb HI Hn Hp. apply (i_visits _ _ _ HI) in Hn as Hn'. destruct (i_world _ _ _ HI n Hn') as (_ & _ & _ & Hv). specialize (Hv p Hp). clear Hn'.
    assert (D : forall n d, In n (p_alive f) -> InheritSpec.at_declared a n = Some d -> declares decode unset_code (p_flow f) p n (d p)).
    { intros m d Hm Ed. destruct Hwb as (_ & _ & _ & Ha & _). pose proof (i_declared _ _ _ HI m (Ha m Hm)) as Hd. destruct (VarFlow.f_sheet (p_flow f) m) as [c|] eqn:Es; [|congruence]. destruct Hd as (d' & E & Hd). rewrite Ed in E. injection E as <-.
      destruct (VarFlowProofs.good_up_to_date unset_code _ _ m (i_flow _ _ _ HI m (Ha m Hm)) c Es) as (r & Hr & Hval). exists c, r, (VarFlow.v_values (flow s) m p). split; [exact Es|]. split; [exact Hr|]. split; [apply Hval|apply Hd]. }
    induction Hv as [m E|m d c E1 E2 E3|m d q cm c E1 E2 Hq IH E3].
    - apply cv_unstyled. destruct Hwb as (_ & _ & _ & Ha & _). pose proof (i_declared _ _ _ HI m (Ha m Hn)) as Hd. destruct (VarFlow.f_sheet (p_flow f) m); [|reflexivity]. destruct Hd as (d & Ed & _). congruence.
    - rewrite (i_parent _ _ _ HI) in E2. apply cv_root with (d p); [exact E2|apply D; assumption|exact E3].
    - rewrite (i_parent _ _ _ HI) in E2. assert (Hq' : In q (p_alive f)) by (destruct Hwb as (_ & _ & Hin & _); apply (Hin m q E2)). apply cv_child with q (d p) cm; [exact E2|apply IH; exact Hq'|apply D; assumption|exact E3].
  Qed.

  Lemma history_fuel : forall fs f0, history decode unset_code nodes f0 fs -> exists n0, forall fuel, n0 <= fuel -> Forall (fun f => exists visits, fuel_ok f fuel visits) fs.
  Proof.
    induction fs as [|f fs IH]; intros f0 Hh; [exists 0; constructor|]. destruct Hh as (Hw & _ & Hh). destruct (IH f Hh) as [n1 H1]. destruct (fuel_exists f Hw) as (n2 & vs & H2). exists (n1 + n2). intros fuel Hf. constructor; [exists vs; apply H2; lia|apply H1; lia].
  Qed.
  Lemma history_inv fuel : forall fs f0 a s, history decode unset_code nodes f0 fs -> Forall (fun f => exists visits, fuel_ok f fuel visits) fs -> Inv f0 a s ->
    exists b s', updates fuel fs s = Some s' /\ Inv (last fs f0) b s'.
  Proof.
    induction fs as [|f fs IH]; intros f0 a s Hh Hfu HI; [exists a, s; split; [reflexivity|exact HI]|]. destruct Hh as (Hw & Hg & Hh). inversion Hfu as [|? ? (vs & F1) F2]; subst.
    destruct (step_inv f0 f a s fuel vs HI Hw (or_introl Hg) F1) as (b & s1 & E1 & I1 & _). destruct (IH f b s1 Hh F2 I1) as (b' & s' & E' & I'). exists b', s'. cbn [Pipeline.updates]. rewrite E1. split; [exact E'|]. rewrite VarFlowProofs.last_cons. exact I'.
  Qed.
  Lemma start_inv bef : Inv before InheritSpec.before_start (start bef).
  Proof.
    split.
    - intros n Hn. split; reflexivity.
    - intros n [].
    - reflexivity.
    - reflexivity.
    - reflexivity.
    - reflexivity.
    - intros n p v [].
    - reflexivity.
  Qed.
  Lemma from_start_next fs f : from_start decode unset_code nodes (fs ++ [f]) -> exists n0, forall fuel, n0 <= fuel -> forall bef, exists a s visits,
    updates fuel fs (start bef) = Some s /\ Inv (last fs before) a s /\ well_behaved f /\ next (last fs before) f /\ fuel_ok f fuel visits.
  Proof.
    assert (H : forall l f0, history decode unset_code nodes f0 (l ++ [f]) -> history decode unset_code nodes f0 l /\ well_behaved f /\ goes_on (last l f0) f).
    { induction l as [|x l IH]; intros f0 Hh; [destruct Hh as (A & B & _); split; [exact I|]; split; [exact A|exact B]|]. destruct Hh as (A & B & C). destruct (IH x C) as (D & E & F). rewrite VarFlowProofs.last_cons. split; [exact (conj A (conj B D))|auto]. }
    destruct fs as [|x fs]; cbn [app from_start].
    - intros (A & B & _). destruct (fuel_exists f A) as (n0 & vs & Hf). exists n0. intros fuel Hfu bef. exists InheritSpec.before_start, (start bef), vs. split; [reflexivity|]. split; [apply start_inv|]. split; [exact A|]. split; [right; split; [reflexivity|exact B]|apply Hf, Hfu].
    - intros (A & B & C). destruct (H fs x C) as (D & E & F). destruct (fuel_exists f E) as (n0 & vs & Hf). destruct (fuel_exists x A) as (n1 & vs1 & Hf1). destruct (history_fuel fs x D) as [n2 Hf2].
      exists (n0 + n1 + n2). intros fuel Hfu bef. destruct (step_inv before x InheritSpec.before_start (start bef) fuel vs1 (start_inv bef) A (or_intror (conj eq_refl B)) (Hf1 fuel ltac:(lia))) as (a1 & s1 & E1 & I1 & _).
      destruct (history_inv fuel fs x a1 s1 D (Hf2 fuel ltac:(lia)) I1) as (a & s & Es & Is). exists a, s, vs. cbn [Pipeline.updates]. rewrite E1. split; [exact Es|]. rewrite VarFlowProofs.last_cons. split; [exact Is|]. split; [exact E|]. split; [left; exact F|apply Hf; lia].
  Qed.
  Lemma updates_app fuel fs f s : updates fuel (fs ++ [f]) s = match updates fuel fs s with Some s' => update fuel s' f | None => None end.
  Proof. revert s. induction fs as [|x fs IH]; intros s; cbn [app Pipeline.updates]; [destruct (update fuel s f); reflexivity|]. destruct (update fuel s x); [apply IH|reflexivity]. Qed.

  Lemma from_start_well fs f0 : from_start decode unset_code nodes (fs ++ [f0]) -> well_behaved f0.
  Proof. intros H. destruct (from_start_next fs f0 H) as [n0 Hn]. destruct (Hn n0 (le_n _) (fun n _ => initial 0)) as (_ & _ & _ & _ & _ & Hw & _). exact Hw. Qed.
End Proofs.

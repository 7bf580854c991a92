From Coq Require Import NArith.
From Verif Require Import Base Inherit InheritProofs Animation Transition TransitionSpec NodeProps NodePropsSpec NodePropsProofs NodePropsProofs2 HeadingSpec.

Section P.
  Context {F V E K : Type} (op : fops F) (veq : forall a b : V, {a = b} + {a <> b}).
  Variables (interp : V -> V -> F -> V) (ease : E -> F -> F) (vdefault : V).
  Variable asample : K -> animation -> option V.
  Variables (np : nat) (animatable : nat -> bool) (fuel : nat).
  Notation node := (node F V E K).
  Notation pst := (pst F V E).
  Notation frame_input := (frame_input V E K).
  Notation frame_world := (frame_world op veq interp ease vdefault asample np animatable fuel).
  Notation run := (run op veq interp ease vdefault asample np animatable fuel).
  Notation create_pst := (create_pst op veq interp ease vdefault).
  Notation frame := (frame op veq interp ease vdefault asample np animatable fuel).

  (** a transition belongs to an animatable property, and an active one heads for the computed value *)
  Definition aimed (b : bool) (s : pst) : Prop := forall i x, trans s = Some (i, x) -> b = true /\ (t_is_active x = true -> computed s = CVal (t_to x)).
  Lemma tick_to d (x : transition F V E) : t_to (t_tick d x) = t_to x /\ (t_is_active (t_tick d x) = true -> t_is_active x = true).
  Proof. unfold t_tick. destruct (t_is_active x) eqn:Ea; [split; reflexivity|]. split; [reflexivity|]. congruence. Qed.
  Lemma aimed_tick b t d (s : pst) : aimed b s -> aimed b (fst (tick_opt t d s)).
  Proof.
    intros H i y Hy. destruct (tick_opt_fields t d s) as (C & _ & _ & _ & T). rewrite C. destruct (T i y Hy) as (x & Hx & [(-> & _ & _)|(-> & _)]); destruct (H i x Hx) as [Hb Ha].
    - destruct (tick_to d x) as [-> Hk]. split; [exact Hb|]. intros A. apply Ha, Hk, A.
    - split; assumption.
  Qed.
  Lemma aimed_options b r p (s : pst) : aimed b s -> aimed b (fst (options_opt r p s)).
  Proof.
    intros H i y Hy. destruct (options_opt_fields r p s) as (C & _ & _ & T & _). rewrite C. destruct (T i y Hy) as (x & Hx & [-> | ->]); destruct (H i x Hx) as [Hb Ha]; split; try assumption. discriminate.
  Qed.
  Lemma reversed_to from to o (x : transition F V E) y : from_possibly_reversed op veq interp ease vdefault from to o x = Some y -> t_to y = to.
  Proof.
    unfold from_possibly_reversed, update_for_possibly_reversed. destruct (veq _ _).
    - destruct (f_from_secs op _); [|discriminate]. intros H. injection H as <-. reflexivity.
    - intros H. injection H as <-. reflexivity.
  Qed.
  (** after it, the computed value is the pending one *)
  Lemma aimed_create b pend (s s' : pst) e : quiet s -> aimed b s -> (computed s <> CNone -> pend <> CNone) -> create_pst b pend s = Some (s', e) ->
    forall i x, trans s' = Some (i, x) -> b = true /\ (t_is_active x = true -> pend = CVal (t_to x)).
  Proof.
    intros Q H Hk Hc i x Hx. unfold NodeProps.create_pst in Hc.
    assert (Same : s' = s -> (t_is_active x = true -> pend = computed s) -> b = true /\ (t_is_active x = true -> pend = CVal (t_to x))).
    { intros -> Hp. destruct (H i x Hx) as [Hb Ha]. split; [exact Hb|]. intros A. rewrite (Hp A). exact (Ha A). }
    destruct (t_opts s) as [o|] eqn:Eo.
    - destruct (computed s) as [|from] eqn:Ec; [injection Hc as <- <-; destruct (H i x Hx) as [Hb Ha]; split; [exact Hb|]; intros A; specialize (Ha A); rewrite Ec in Ha; discriminate|].
      destruct pend as [|to]; [exfalso; apply Hk; [discriminate|reflexivity]|].
      destruct (veq from to) as [<-|Ne]; [injection Hc as <- <-; apply Same; [reflexivity|intros _; reflexivity]|].
      destruct b; cbn [negb] in Hc; [|injection Hc as <- <-; destruct (H i x Hx) as [Hb _]; discriminate].
      destruct (trans s) as [[k z]|] eqn:Et.
      + destruct (from_possibly_reversed _ _ _ _ _ _ _ _ _) as [y|] eqn:Er; [|discriminate]. injection Hc as <- <-. cbn in Hx |- *. injection Hx as <- <-. split; [reflexivity|]. intros _. f_equal. symmetry. eapply reversed_to. exact Er.
      + injection Hc as <- <-. cbn in Hx |- *. injection Hx as <- <-. split; reflexivity.
    - injection Hc as <- <-. destruct (H i x Hx) as [Hb _]. split; [exact Hb|]. intros A. rewrite (Q Eo i x Hx) in A. discriminate.
  Qed.
  Lemma aimed_frame f n o p : frame f n = Some o -> p < np -> quiet (props n p) -> aimed (animatable p) (props n p) -> keeps_value f n p -> aimed (animatable p) (props (o_node o) p).
  Proof.
    intros Ef Hp Q H Hk. destruct (frame_pieces _ _ _ _ _ _ _ _ _ f n o Ef) as (n2 & ev1 & aev1 & _ & G). destruct (G p Hp) as (_ & s4 & e3 & Ec & Ep & _). clear G.
    set (n1 := if f_reset f then reset n else n) in *.
    assert (Q1 : quiet (props n1 p)) by (unfold n1; destruct (f_reset f); [intros _ i x A; discriminate|exact Q]).
    assert (H1 : aimed (animatable p) (props n1 p)) by (unfold n1; destruct (f_reset f); [intros i x A; discriminate|exact H]).
    assert (K1 : forall pend, f_pending f = Some pend -> computed (props n1 p) <> CNone -> pend p <> CNone).
    { intros pend Hpe Hc. unfold n1 in Hc. destruct (f_reset f) eqn:Er; [exfalso; apply Hc; reflexivity|]. destruct Hk as [Hk|[Hk|Hk]]; [congruence|contradiction|exact (Hk pend Hpe)]. }
    set (s2 := fst (tick_opt _ _ _)) in *. set (s3 := fst (options_opt _ _ _)) in *.
    assert (C3 : computed s3 = computed (props n1 p)). { unfold s3. destruct (options_opt_fields (f_restyle f) p s2) as (-> & _). unfold s2. destruct (tick_opt_fields (has_tickable np n1) (f_delta f) (props n1 p)) as (-> & _). reflexivity. }
    intros i x Hx. rewrite Ep in Hx |- *. cbn in Hx |- *.
    refine (aimed_create (animatable p) _ s3 s4 e3 (quiet_options _ _ _ (quiet_tick _ _ _ Q1)) (aimed_options _ _ _ _ (aimed_tick _ _ _ _ H1)) _ Ec i x Hx).
    rewrite C3. destruct (f_pending f) as [pend|]; [exact (K1 pend eq_refl)|intros A; exact A].
  Qed.
  Lemma aimed_run p fs : forall w w', p < np -> run fs w = Some w' -> (forall q, q < np -> quiet (props (w_node w) q)) -> aimed (animatable p) (props (w_node w) p) ->
    values_stay op veq interp ease vdefault asample np animatable fuel p fs w -> aimed (animatable p) (props (w_node w') p).
  Proof.
    induction fs as [|f fs IH]; intros w w' Hp Hr Q H Hk; cbn in Hr; [injection Hr as <-; exact H|].
    destruct (frame_world f w) as [w1|] eqn:E1; [|discriminate]. destruct Hk as [K1 K2]. specialize (K2 w1 E1). pose proof E1 as E2. unfold NodePropsSpec.frame_world in E2. destruct (frame f (w_node w)) as [o|] eqn:Ef; [|discriminate]. injection E2 as <-.
    apply (IH _ _ Hp Hr); cbn [w_node]; [exact (quiet_frame _ _ _ _ _ _ _ _ _ f (w_node w) o Ef Q)|exact (aimed_frame f _ o p Ef Hp (Q p Hp) H K1)|exact K2].
  Qed.
End P.

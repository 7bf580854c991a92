From Coq Require Import NArith Permutation.
From Verif Require Import Base Inherit InheritProofs Animation Transition TransitionSpec NodeProps NodePropsSpec.

Section P.
  Context {F V E K : Type} (op : fops F) (veq : forall a b : V, {a = b} + {a <> b}).
  Variables (interp : V -> V -> F -> V) (ease : E -> F -> F) (vdefault : V).
  Variable asample : K -> animation -> option V.
  Variables (np : nat) (animatable : nat -> bool) (fuel : nat).
  Notation node := (node F V E K).
  Notation pst := (pst F V E).
  Notation frame_input := (frame_input V E K).
  Notation anim_value := (anim_value op interp ease asample).
  Notation shows := (shows op interp ease asample).
  Notation lives := (lives op veq interp ease vdefault).
  Notation frame_world := (frame_world op veq interp ease vdefault asample np animatable fuel).
  Notation run := (run op veq interp ease vdefault asample np animatable fuel).

  (** ** the effective value *)
  Lemma override_filter p (l : list (nat * (animation * K))) : forall acc,
    fold_left (override asample p) l acc = fold_left (fun acc a => match asample (snd a) (fst a) with Some v => CVal v | None => acc end)
                                   (map snd (filter (fun pa => Nat.eqb (fst pa) p) l)) acc.
  Proof. induction l as [|[q a] l IH]; intros acc; simpl; [reflexivity|]. rewrite IH. unfold override at 1. simpl. destruct (Nat.eqb q p); reflexivity. Qed.

  Lemma last_emission (l : list (animation * K)) : forall acc : cvalue V,
    (Forall (fun a => asample (snd a) (fst a) = None) l /\
     fold_left (fun acc a => match asample (snd a) (fst a) with Some v => CVal v | None => acc end) l acc = acc) \/
    (exists l1 a l2 v, l = l1 ++ a :: l2 /\ asample (snd a) (fst a) = Some v /\ Forall (fun a' => asample (snd a') (fst a') = None) l2 /\
     fold_left (fun acc a => match asample (snd a) (fst a) with Some v => CVal v | None => acc end) l acc = CVal v).
  Proof.
    induction l as [|a l IH]; intros acc; simpl; [left; split; [constructor|reflexivity]|].
    destruct (IH (match asample (snd a) (fst a) with Some v => CVal v | None => acc end)) as [[H1 H2]|(l1 & b & l2 & v & H1 & H2 & H3 & H4)].
    - destruct (asample (snd a) (fst a)) as [v|] eqn:Ea.
      + right. exists [], a, l, v. repeat split; assumption.
      + left. split; [constructor; assumption|exact H2].
    - right. exists (a :: l1), b, l2, v. rewrite H1. repeat split; try assumption. rewrite <- H1. exact H4.
  Qed.

  Lemma split_last_unique (l1 l1' l2 l2' : list (animation * K)) a a' v v' : l1 ++ a :: l2 = l1' ++ a' :: l2' ->
    asample (snd a) (fst a) = Some v -> asample (snd a') (fst a') = Some v' ->
    Forall (fun x => asample (snd x) (fst x) = None) l2 -> Forall (fun x => asample (snd x) (fst x) = None) l2' -> v = v'.
  Proof.
    revert l1'. induction l1 as [|x l1 IH]; intros [|y l1'] H H1 H2 H3 H4; simpl in H; injection H as -> H.
    - congruence.
    - exfalso. rewrite Forall_forall in H3. specialize (H3 a'). rewrite H3 in H2; [discriminate|]. rewrite H. apply in_or_app. right; left; reflexivity.
    - exfalso. rewrite Forall_forall in H4. specialize (H4 a). rewrite H4 in H1; [discriminate|]. rewrite <- H. apply in_or_app. right; left; reflexivity.
    - apply (IH l1'); assumption.
  Qed.

  Lemma shows_iff (n : node) p v : shows n p v <-> or_else (anim_value n p) (computed (props n p)) = CVal v.
  Proof.
    unfold NodeProps.anim_value. rewrite override_filter. fold (animations_on n p).
    destruct (last_emission (animations_on n p) (trans_value op interp ease (props n p))) as [[H1 H2]|(l1 & a & l2 & u & H1 & H2 & H3 & H4)].
    - rewrite H2. split.
      + intros S. destruct S as [l1 a l2 v Hl Ha Hr|i x v Hn Ht Hx Hs|i x Hn Ht Hx|v Hn Ht Hc].
        * exfalso. rewrite Hl in H1. apply Forall_app in H1. destruct H1 as [_ H1]. inversion H1; subst. congruence.
        * unfold trans_value. rewrite Ht, Hx, Hs. reflexivity.
        * unfold trans_value. rewrite Ht, Hx. reflexivity.
        * unfold trans_value. destruct (trans (props n p)) as [[i x]|] eqn:Et; [|exact Hc]. destruct (Ht i x eq_refl) as [-> ->]. exact Hc.
      + unfold trans_value. destruct (trans (props n p)) as [[i x]|] eqn:Et.
        * destruct (t_is_active x) eqn:Ex.
          -- destruct (t_sample_value op interp ease x) as [u|] eqn:Es; simpl; intros H.
             ++ injection H as <-. apply (shows_transition _ _ _ _ n p i x); assumption.
             ++ apply shows_style; [exact H1| |exact H]. intros i' x' H'. rewrite Et in H'. injection H' as <- <-. auto.
          -- simpl. intros H. injection H as <-. apply (shows_target _ _ _ _ n p i x); assumption.
        * simpl. intros H. apply shows_style; [exact H1| |exact H]. intros i' x' H'. congruence.
    - rewrite H4. simpl. split.
      + intros S. f_equal. destruct S as [l1' a' l2' v Hl Ha Hr|i x v Hn Ht Hx Hs|i x Hn Ht Hx|v Hn Ht Hc].
        * apply (split_last_unique l1 l1' l2 l2' a a'); congruence.
        * exfalso. unfold no_animation_emits in Hn. rewrite H1 in Hn. apply Forall_app in Hn. destruct Hn as [_ Hn]. inversion Hn; subst. congruence.
        * exfalso. unfold no_animation_emits in Hn. rewrite H1 in Hn. apply Forall_app in Hn. destruct Hn as [_ Hn]. inversion Hn; subst. congruence.
        * exfalso. unfold no_animation_emits in Hn. rewrite H1 in Hn. apply Forall_app in Hn. destruct Hn as [_ Hn]. inversion Hn; subst. congruence.
      + intros H. injection H as <-. apply (shows_animation _ _ _ _ n p l1 a l2); assumption.
  Qed.

  (** ** apply *)
  Lemma ceqb_spec (a b : cvalue V) : Bool.reflect (a = b) (ceqb veq a b).
  Proof. apply Bool.iff_reflect. symmetry. apply ceqb_eq. Qed.

  Definition write_of (o : option (cvalue V)) : option V := match o with Some (CVal v) => Some v | _ => None end.

  Lemma new_value_sound (pend comp panim lanim : cvalue V) (c : V) :
    (forall v, or_else lanim comp = CVal v -> c = v) ->
    let c' := match write_of (new_value veq pend comp panim lanim) with Some v => v | None => c end in
    (forall v, or_else panim pend = CVal v -> c' = v) /\
    (forall v, write_of (new_value veq pend comp panim lanim) = Some v -> or_else panim pend = CVal v /\ or_else lanim comp <> CVal v).
  Proof.
    intros Kp. unfold new_value. destruct panim as [|x]; cbn [is_value or_else].
    - destruct lanim as [|y]; cbn [or_else] in *.
      + change (ceqb veq (CNone : cvalue V) CNone) with true. cbn [negb]. destruct (ceqb_spec comp pend) as [<-|N]; cbn [write_of].
        * split; [exact Kp|discriminate].
        * destruct pend as [|z]; cbn [write_of]; [split; [discriminate|discriminate]|]. split; [intros v H; congruence|].
          intros v H. injection H as ->. split; [reflexivity|exact N].
      + change (ceqb veq (CNone : cvalue V) (CVal y)) with false. cbn [negb]. destruct (ceqb_spec pend (CVal y)) as [->|N]; cbn [write_of].
        * split; [exact Kp|discriminate].
        * destruct pend as [|z]; cbn [write_of]; [split; discriminate|]. split; [intros v H; congruence|].
          intros v H. injection H as ->. split; [reflexivity|congruence].
    - destruct (ceqb_spec (CVal x) (or_else lanim comp)) as [Ex|N]; cbn [write_of].
      + split; [|discriminate]. intros v H. injection H as <-. apply Kp. congruence.
      + split; [intros v H; congruence|]. intros v H. injection H as ->. split; [reflexivity|congruence].
  Qed.


  (** ** one frame, one property *)
  Definition tick_opt (b : bool) (d : N) (s : pst) : pst * tevents := if b then (clear_pst (fst (tick_pst d s)), snd (tick_pst d s)) else (s, []).
  Definition options_opt (r : option (nat -> option (transition_options E))) (p : nat) (s : pst) : pst * tevents :=
    match r with None => (s, []) | Some new => set_options_pst (new p) s end.

  Lemma frame_pieces (f : frame_input) (n0 : node) o :
    frame op veq interp ease vdefault asample np animatable fuel f n0 = Some o ->
    let n1 := if f_reset f then reset n0 else n0 in
    exists n2 ev1 aev1, tick_node np fuel (f_delta f) n1 = Some (n2, ev1, aev1) /\
    forall p, p < np ->
      let t := tick_opt (has_tickable np n1) (f_delta f) (props n1 p) in
      let s2 := fst t in
      props n2 p = s2 /\
      let s3 := fst (options_opt (f_restyle f) p s2) in
      let pend := match f_pending f with Some c => c p | None => computed s3 end in
      exists s4 e3, create_pst op veq interp ease vdefault (animatable p) pend s3 = Some (s4, e3) /\
        props (o_node o) p = mk_pst pend (anim_value (o_node o) p) (t_opts s4) (trans s4) (serial s4) /\
        o_writes o p = write_of (new_value veq pend (computed s4) (anim_value (o_node o) p) (last_anim s4)) /\
        o_events o p = snd t ++ snd (options_opt (f_restyle f) p s2) ++ e3.
  Proof.
    intros H n1. unfold frame in H. fold n1 in H.
    destruct (tick_node np fuel (f_delta f) n1) as [[[n2 ev1] aev1]|] eqn:Et; [|discriminate]. exists n2, ev1, aev1. split; [reflexivity|].
    destruct (options_step f n2) as [n3 ev2] eqn:Eo.
    set (pending := fun p => match f_pending f with Some c => c p | None => computed (props n3 p) end) in H.
    destruct (create_step op veq interp ease vdefault np animatable pending n3) as [[n4 ev3]|] eqn:Ec; [|discriminate].
    destruct (animations_step animatable fuel f n4) as [[n5 aev2]|] eqn:Ea; [|discriminate].
    unfold apply_step in H. injection H as <-. intros p Hp. cbn [o_node o_writes o_events props].
    assert (T : props n2 p = fst (tick_opt (has_tickable np n1) (f_delta f) (props n1 p)) /\
                ev1 p = snd (tick_opt (has_tickable np n1) (f_delta f) (props n1 p))).
    { unfold tick_node in Et. destruct (has_tickable np n1); [|injection Et as <- <- <-; split; reflexivity].
      destruct (tick_map fuel (f_delta f) (anims n1)) as [[m e]|]; [|discriminate]. injection Et as <- <- <-. split; reflexivity. }
    destruct T as [T1 T2]. split; [exact T1|]. rewrite <- T1, <- T2.
    assert (O : props n3 p = fst (options_opt (f_restyle f) p (props n2 p)) /\ ev2 p = snd (options_opt (f_restyle f) p (props n2 p))).
    { unfold options_step, options_opt in *. destruct (f_restyle f); injection Eo as <- <-; split; reflexivity. }
    destruct O as [O1 O2]. rewrite <- O1, <- O2.
    unfold create_step in Ec. destruct (forallb _ (seq 0 np)) eqn:Ef; [|discriminate]. injection Ec as <- <-.
    rewrite forallb_forall in Ef. specialize (Ef p ltac:(apply in_seq; lia)). fold (pending p).
    destruct (create_pst op veq interp ease vdefault (animatable p) (pending p) (props n3 p)) as [[s4 e3]|] eqn:E4; [|discriminate].
    exists s4, e3. split; [reflexivity|].
    assert (A : props n5 p = s4).
    { unfold animations_step in Ea. destruct (f_configs f) as [[cs res]|]; [|injection Ea as <- <-; cbn; rewrite E4; reflexivity].
      destruct (set_animations _ _ _ _ _) as [m|]; [|discriminate]. injection Ea as <- <-. cbn. rewrite E4. reflexivity. }
    rewrite A.
    match goal with |- context [anim_value (mk_nodep ?g (anims n5)) p] => assert (B : anim_value (mk_nodep g (anims n5)) p = anim_value n5 p) end.
    { unfold NodeProps.anim_value. cbn [props anims]. reflexivity. }
    rewrite B. split; [reflexivity|]. split; reflexivity.
  Qed.

  Lemma has_tickable_false (n : node) p i x : has_tickable np n = false -> p < np -> trans (props n p) = Some (i, x) -> t_is_active x = false.
  Proof.
    unfold has_tickable. intros H Hp Ht. apply orb_false_iff in H. destruct H as [H _].
    destruct (t_is_active x) eqn:Ex; [|reflexivity]. rewrite <- H. symmetry. apply existsb_exists. exists p. split; [apply in_seq; lia|]. rewrite Ht. exact Ex.
  Qed.

  (** what each step does to the fields *)
  Lemma tick_opt_fields b d (s : pst) : let s' := fst (tick_opt b d s) in
    computed s' = computed s /\ last_anim s' = last_anim s /\ t_opts s' = t_opts s /\ serial s' = serial s /\
    (forall i y, trans s' = Some (i, y) -> exists x, trans s = Some (i, x) /\ (y = t_tick d x /\ t_is_active y = true /\ b = true \/ y = x /\ b = false)).
  Proof.
    unfold tick_opt. destruct b; cbn [fst].
    - unfold tick_pst. destruct (trans s) as [[k x]|] eqn:Et; cbn [fst].
      + unfold clear_pst. cbn [with_trans trans]. destruct (t_is_active (t_tick d x)) eqn:Ea; cbn.
        * repeat split. intros i y H. injection H as <- <-. exists x. split; [reflexivity|]. left. auto.
        * repeat split. intros i y H. discriminate.
      + unfold clear_pst. rewrite Et. repeat split. rewrite Et. discriminate.
    - repeat split. intros i y H. exists y. auto.
  Qed.

  Lemma options_opt_fields r p (s : pst) : let s' := fst (options_opt r p s) in
    computed s' = computed s /\ last_anim s' = last_anim s /\ serial s' = serial s /\
    (forall i y, trans s' = Some (i, y) -> exists x, trans s = Some (i, x) /\ (y = x \/ y = t_cancel x)) /\
    (trans s = None -> trans s' = None).
  Proof.
    unfold options_opt. destruct r as [new|]; [|cbn; repeat split; [intros i y H; exists y; auto|auto]].
    unfold set_options_pst. destruct (t_opts s) as [o|]; [|cbn; repeat split; [intros i y H; exists y; auto|auto]].
    destruct (new p); [cbn; repeat split; [intros i y H; exists y; auto|auto]|].
    destruct (trans s) as [[k x]|] eqn:Et; [|cbn; rewrite Et; repeat split; [discriminate]].
    destruct (t_is_active x); cbn; rewrite ?Et; (split; [reflexivity|split; [reflexivity|split; [reflexivity|split; [|discriminate]]]]);
      intros i y H; injection H as <- <-; exists x; auto.
  Qed.

  (** ** invariants of the history *)
  Definition sampled : Prop := forall o x, lives o x -> t_is_active x = true -> t_sample_value op interp ease x <> None.

  Record inv (w : world F V E K) : Prop := {
    i_shown : forall p, p < np -> last_anim (props (w_node w) p) = anim_value (w_node w) p;
    i_comp : forall p v, p < np -> or_else (last_anim (props (w_node w) p)) (computed (props (w_node w) p)) = CVal v -> w_component w p = v;
    i_lives : forall p i x, p < np -> trans (props (w_node w) p) = Some (i, x) -> exists o, lives o x }.

  Lemma anim_value_some (n : node) p i x : trans (props n p) = Some (i, x) ->
    (t_is_active x = true -> t_sample_value op interp ease x <> None) -> exists v, anim_value n p = CVal v.
  Proof.
    intros Ht Hs. unfold NodeProps.anim_value. rewrite override_filter.
    destruct (last_emission (map snd (filter (fun pa => Nat.eqb (fst pa) p) (flat (anims n)))) (trans_value op interp ease (props n p))) as [[_ H2]|(l1 & a & l2 & u & _ & _ & _ & H4)].
    - rewrite H2. unfold trans_value. rewrite Ht. destruct (t_is_active x); [|exists (t_to x); reflexivity].
      destruct (t_sample_value op interp ease x) as [v|]; [exists v; reflexivity|]. exfalso. apply Hs; reflexivity.
    - exists u. exact H4.
  Qed.

  (** lives is preserved *)
  Lemma frame_lives f (w w' : world F V E K) : frame_world f w = Some w' ->
    (forall p i x, p < np -> trans (props (w_node w) p) = Some (i, x) -> exists o, lives o x) ->
    (forall p i x, p < np -> trans (props (w_node w') p) = Some (i, x) -> exists o, lives o x).
  Proof.
    unfold NodePropsSpec.frame_world. intros H Hl p i x Hp Ht. destruct (frame _ _ _ _ _ _ _ _ _ f (w_node w)) as [o|] eqn:Ef; [|discriminate]. injection H as <-. cbn in Ht.
    destruct (frame_pieces f (w_node w) o Ef) as (n2 & ev1 & aev1 & _ & G). destruct (G p Hp) as (_ & s4 & e3 & Ec & Ep & _). clear G.
    rewrite Ep in Ht. cbn in Ht. clear Ep.
    set (n1 := if f_reset f then reset (w_node w) else w_node w) in *.
    assert (L1 : forall i x, trans (props n1 p) = Some (i, x) -> exists o, lives o x).
    { intros i' x' H'. unfold n1 in H'. destruct (f_reset f); [discriminate|]. apply (Hl p i' x' Hp H'). }
    set (s2 := fst (tick_opt _ _ _)) in *.
    assert (L2 : forall i x, trans s2 = Some (i, x) -> exists o, lives o x).
    { intros i' x' H'. destruct (tick_opt_fields (has_tickable np n1) (f_delta f) (props n1 p)) as (_ & _ & _ & _ & T). destruct (T i' x' H') as (y & Hy & [(-> & _)|(-> & _)]);
        destruct (L1 i' y Hy) as [o' Ho]; exists o'; [apply ticked|]; assumption. }
    set (s3 := fst (options_opt _ _ _)) in *.
    assert (L3 : forall i x, trans s3 = Some (i, x) -> exists o, lives o x).
    { intros i' x' H'. destruct (options_opt_fields (f_restyle f) p s2) as (_ & _ & _ & T & _). destruct (T i' x' H') as (y & Hy & [-> | ->]);
        destruct (L2 i' y Hy) as [o' Ho]; exists o'; [|apply canceled]; assumption. }
    unfold create_pst in Ec.
    destruct (t_opts s3) as [oo|]; [|injection Ec as <- <-; apply (L3 i x Ht)].
    destruct (computed s3) as [|from]; [injection Ec as <- <-; apply (L3 i x Ht)|].
    destruct (match f_pending f with Some c => c p | None => CVal from end) as [|to]; [injection Ec as <- <-; apply (L3 i x Ht)|].
    destruct (veq from to); [injection Ec as <- <-; apply (L3 i x Ht)|].
    destruct (negb (animatable p)); [injection Ec as <- <-; apply (L3 i x Ht)|].
    destruct (trans s3) as [[k z]|] eqn:E3.
    - destruct (from_possibly_reversed _ _ _ _ _ _ _ _ _) as [y|] eqn:Er; [|discriminate]. injection Ec as <- <-. cbn in Ht. injection Ht as <- <-.
      destruct (L3 k z eq_refl) as [o' Ho]. exists oo. apply (replaced _ _ _ _ _ o' oo z (Some from) to y); assumption.
    - injection Ec as <- <-. cbn in Ht. injection Ht as <- <-. exists oo. apply born.
  Qed.

  Lemma inv_start c : inv (start c).
  Proof.
    constructor; cbn; intros; [|discriminate|discriminate]. unfold NodeProps.anim_value. cbn. reflexivity.
  Qed.

  Lemma frame_inv f (w w' : world F V E K) :
    (forall a b, interp a b (f_clamp op (f_zero op) (f_zero op) (f_one op)) = a) -> sampled ->
    (forall p from, p < np -> starts_fresh np fuel f (w_node w) p from -> shows (w_node w) p from) ->
    inv w -> frame_world f w = Some w' ->
    inv w' /\
    (forall p v, p < np -> forall o, frame op veq interp ease vdefault asample np animatable fuel f (w_node w) = Some o -> o_writes o p = Some v ->
        shows (w_node w') p v /\ (f_reset f = false -> ~ shows (w_node w) p v)).
  Proof.
    intros Hi Hs Hq I H. pose proof (frame_lives f w w' H (i_lives w I)) as L'.
    unfold NodePropsSpec.frame_world in H. destruct (frame _ _ _ _ _ _ _ _ _ f (w_node w)) as [o|] eqn:Ef; [|discriminate]. injection H as <-.
    destruct (frame_pieces f (w_node w) o Ef) as (n2 & ev1 & aev1 & Et & G). cbn in L'.
    set (n1 := if f_reset f then reset (w_node w) else w_node w) in *.
    assert (Main : forall p, p < np ->
       last_anim (props (o_node o) p) = anim_value (o_node o) p /\
       (forall v, or_else (last_anim (props (o_node o) p)) (computed (props (o_node o) p)) = CVal v ->
          match o_writes o p with Some v => v | None => w_component w p end = v) /\
       (forall v, o_writes o p = Some v -> or_else (anim_value (o_node o) p) (computed (props (o_node o) p)) = CVal v /\ (f_reset f = false -> or_else (last_anim (props (w_node w) p)) (computed (props (w_node w) p)) <> CVal v))).
    { intros p Hp. destruct (G p Hp) as (E2 & s4 & e3 & Ec & Ep & Ew & _). clear G.
      rewrite Ep, Ew. cbn [last_anim computed]. split; [reflexivity|].
      set (s2 := fst (tick_opt _ _ _)) in *. set (s3 := fst (options_opt _ _ _)) in *.
      set (pend := match f_pending f with Some c => c p | None => computed s3 end) in *.
      destruct (tick_opt_fields (has_tickable np n1) (f_delta f) (props n1 p)) as (T1 & T2 & _ & _ & T5). fold s2 in T1, T2, T5.
      destruct (options_opt_fields (f_restyle f) p s2) as (O1 & O2 & _ & O4 & O5). fold s3 in O1, O2, O4, O5.
      (* the invariant before apply *)
      assert (K1 : forall v, or_else (last_anim (props n1 p)) (computed (props n1 p)) = CVal v -> w_component w p = v).
      { unfold n1. destruct (f_reset f); [discriminate|]. intros v. exact (i_comp w I p v Hp). }
      assert (K3 : forall v, or_else (last_anim s3) (computed s3) = CVal v -> w_component w p = v).
      { rewrite O1, O2, T1, T2. exact K1. }
      assert (K4 : forall v, or_else (last_anim s4) (computed s4) = CVal v -> w_component w p = v).
      { unfold create_pst in Ec.
        destruct (t_opts s3) as [oo|]; [|injection Ec as <- <-; exact K3].
        destruct (computed s3) as [|from] eqn:C3; [injection Ec as <- <-; rewrite C3; exact K3|].
        destruct pend as [|to] eqn:Pe; [injection Ec as <- <-; rewrite C3; exact K3|].
        destruct (veq from to) as [|Nft]; [injection Ec as <- <-; rewrite C3; exact K3|].
        destruct (negb (animatable p)); [injection Ec as <- <-; rewrite C3; exact K3|].
        assert (Hr : f_reset f = false).
        { destruct (f_reset f) eqn:Er; [|reflexivity]. exfalso. rewrite T1 in O1. unfold n1 in O1. cbn in O1. discriminate. }
        assert (N1 : n1 = w_node w) by (unfold n1; rewrite Hr; reflexivity).
        destruct (trans s3) as [[k z]|] eqn:E3.
        - destruct (from_possibly_reversed _ _ _ _ _ _ _ _ _) as [y|] eqn:Er; [|discriminate]. injection Ec as <- <-. cbn [last_anim computed].
          destruct (O4 k z eq_refl) as (x2 & X2 & _). destruct (T5 k x2 X2) as (x1 & X1 & _). rewrite N1 in X1.
          destruct (i_lives w I p k x1 Hp X1) as [o1 L1].
          destruct (anim_value_some (w_node w) p k x1 X1 (Hs o1 x1 L1)) as [u Hu].
          assert (La : last_anim s3 = CVal u). { rewrite O2, T2, N1. rewrite (i_shown w I p Hp). exact Hu. }
          rewrite La in K3 |- *. cbn [or_else] in *. exact K3.
        - injection Ec as <- <-. cbn [last_anim computed or_else]. intros v Hv. injection Hv as <-.
          cbn [new_transition t_from]. unfold curve_sample_clamped. rewrite Hi.
          assert (Sf : shows (w_node w) p from).
          { apply Hq; [exact Hp|]. split; [exact Hr|]. split; [rewrite <- N1, <- T1, <- O1; reflexivity|]. split.
            - unfold pend in Pe. destruct (f_pending f) as [c|]; [|congruence]. exists c, to. repeat split; auto.
            - exists n2, ev1, aev1. rewrite N1 in Et. split; [exact Et|]. rewrite E2.
              destruct (trans s2) as [[k x]|] eqn:Ts2; [|reflexivity]. exfalso.
              (* options never drop a transition *)
              clear -E3 Ts2. unfold s3, options_opt in E3. destruct (f_restyle f) as [new|]; [|cbn in E3; congruence].
              unfold set_options_pst in E3. destruct (t_opts s2); [|cbn in E3; congruence]. destruct (new p); [cbn in E3; congruence|].
              rewrite Ts2 in E3. destruct (t_is_active x); cbn in E3; congruence. }
          apply shows_iff in Sf. rewrite <- (i_shown w I p Hp) in Sf. apply (i_comp w I p from Hp Sf). }
      destruct (new_value_sound pend (computed s4) (anim_value (o_node o) p) (last_anim s4) (w_component w p) K4) as [R1 R2].
      split; [exact R1|]. intros v Hv. destruct (R2 v Hv) as [R3 R4]. split; [exact R3|]. intros Hr Hc.
      pose proof (i_comp w I p v Hp Hc) as Hcv.
      (* the write would repeat what is shown *)
      destruct (or_else (last_anim s4) (computed s4)) as [|u] eqn:Ou; [|pose proof (K4 u eq_refl); congruence].
      (* nothing known before apply: impossible when something was shown *)
      clear R4 R3. unfold create_pst in Ec.
      assert (Same : s4 = s3 -> False).
      { intros ->. rewrite O1, O2, T1, T2 in Ou. unfold n1 in Ou. rewrite Hr in Ou. congruence. }
      destruct (t_opts s3) as [oo|]; [|injection Ec as <- <-; apply Same; reflexivity].
      destruct (computed s3) as [|from] eqn:C3; [injection Ec as <- <-; apply Same; reflexivity|].
      destruct pend as [|to] eqn:Pe; [injection Ec as <- <-; apply Same; reflexivity|].
      destruct (veq from to) as [|Nft]; [injection Ec as <- <-; apply Same; reflexivity|].
      destruct (negb (animatable p)); [injection Ec as <- <-; apply Same; reflexivity|].
      destruct (trans s3) as [[k z]|].
      - destruct (from_possibly_reversed _ _ _ _ _ _ _ _ _) as [y|]; [|discriminate]. injection Ec as <- <-. cbn in Ou. destruct (last_anim s3); discriminate.
      - injection Ec as <- <-. discriminate. }
    split.
    - constructor; cbn [w_node w_component].
      + intros p Hp. apply (Main p Hp).
      + intros p v Hp Hv. apply (Main p Hp). exact Hv.
      + exact L'.
    - intros p v Hp o' Ho Hw. injection Ho as <-. cbn [w_node]. destruct (Main p Hp) as (_ & _ & M). destruct (M v Hw) as [M1 M2].
      split; [apply shows_iff; exact M1|]. intros Hr Sv. apply shows_iff in Sv. rewrite <- (i_shown w I p Hp) in Sv. exact (M2 Hr Sv).
  Qed.

  Lemma run_inv fs : forall w w', (forall a b, interp a b (f_clamp op (f_zero op) (f_zero op) (f_one op)) = a) -> sampled ->
    smooth op veq interp ease vdefault asample np animatable fuel fs w -> inv w -> run fs w = Some w' -> inv w'.
  Proof.
    induction fs as [|f fs IH]; intros w w' Hi Hs Hq I H; cbn in H; [injection H as <-; exact I|].
    destruct (frame_world f w) as [w1|] eqn:E1; [|discriminate]. destruct Hq as [Q1 Q2].
    destruct (frame_inv f w w1 Hi Hs Q1 I E1) as [I1 _]. apply (IH w1 w' Hi Hs (Q2 w1 E1) I1 H).
  Qed.
End P.

(** Proofs about AnimFlow.v. *)
From Coq Require Import NArith Permutation.
From Verif Require Import Base Inherit Animation AnimationSpec AnimationProofs AnimationProofs2 AnimationProofs3 Transition NodeProps NodeAnimsSpec NodeAnimsProofs AnimFlow AnimFlowSpec.

Lemma tick_canceled f d a b : tick f d a = Some b -> (state a = Canceled <-> state b = Canceled).
Proof.
  intros H. split; [|apply (tick_forward _ _ _ _ H)]. intros E. unfold tick, can_be_ticked in H. rewrite E in H. cbn in H. injection H as <-. exact E.
Qed.
Lemma update_not_canceled f o a b : update_options f o a = Some b -> state b <> Canceled.
Proof.
  unfold update_options. intros H. assert (state (reset_options o) <> Canceled) as H0 by (cbn; destruct (o_iteration_count o) as [[|]|]; discriminate).
  destruct (if (0 <? total_elapsed a)%N then tick f (total_elapsed a) (reset_options o) else Some (reset_options o)) as [y1|] eqn:E1; [|discriminate].
  assert (state y1 <> Canceled) as H1.
  { destruct (0 <? total_elapsed a)%N; [|injection E1 as <-; exact H0]. intros Hc. apply H0. apply (tick_canceled _ _ _ _ E1). exact Hc. }
  destruct (match state a, state y1 with Finished, JustFinished => tick f 1000000 y1 | _, _ => Some y1 end) as [y2|] eqn:E2; [|discriminate]. injection H as <-.
  assert (state y2 <> Canceled) as H2.
  { destruct (state a), (state y1) eqn:Es; try (injection E2 as <-; rewrite Es; discriminate); try congruence.
    intros Hc. apply (tick_canceled _ _ _ _ E2) in Hc. congruence. }
  unfold set_play_state. destruct (o_play_state o); cbn; destruct y2; cbn in *; exact H2.
Qed.

Section P.
  Context {F V E K T : Type} (op : fops F) (veq : forall a b : V, {a = b} + {a <> b}).
  Variables (interp : V -> V -> F -> V) (ease : E -> F -> F) (vdefault : V) (asample : K -> animation -> option V).
  Variables (np : nat) (animatable : nat -> bool) (fuel : nat).
  Variable same : list (declared_animation T) -> list (declared_animation T) -> bool.
  Hypothesis Hsame : forall a b, same a b = true -> a = b.
  Notation anim_map := (anim_map (K := K)).
  Notation frame := (frame op veq interp ease vdefault asample np animatable fuel).
  Notation step := (flow_step op veq interp ease vdefault asample np animatable fuel same).
  Notation run := (flow_run op veq interp ease vdefault asample np animatable fuel same).

  (** ** Ticking keeps keyframes and who is cancelled *)
  Definition alike (x y : nat * (animation * K)) : Prop := fst y = fst x /\ snd (snd y) = snd (snd x) /\ (state (fst (snd x)) = Canceled <-> state (fst (snd y)) = Canceled).
  Lemma alike_refl x : alike x x. Proof. unfold alike. tauto. Qed.
  Lemma alike_list l : Forall2 alike l l. Proof. induction l; constructor; [apply alike_refl | assumption]. Qed.
  Lemma tick_vec_alike d name l : forall r e b, tick_vec fuel d name l = Some (r, e, b) -> Forall2 alike l r.
  Proof.
    induction l as [|(p & (a & k)) l IH]; intros r e b H; cbn [tick_vec] in H; [injection H as <- <- <-; constructor|].
    destruct (negb (can_be_ticked a)); [injection H as <- <- <-; apply alike_list|]. destruct (tick fuel d a) as [y|] eqn:Et; [|discriminate].
    destruct (tick_vec fuel d name l) as [((r' & e') & b')|] eqn:Ev; [|discriminate]. injection H as <- <- <-. constructor; [|eapply IH; reflexivity].
    split; [reflexivity|]. split; [reflexivity|]. cbn. apply (tick_canceled _ _ _ _ Et).
  Qed.
  Lemma tick_map_alike d (m : anim_map) : forall m' e, tick_map fuel d m = Some (m', e) -> Forall2 (fun x y => fst y = fst x /\ Forall2 alike (snd x) (snd y)) m m'.
  Proof.
    assert (forall m : anim_map, Forall2 (fun x y => fst y = fst x /\ Forall2 alike (snd x) (snd y)) m m) as Hr by (induction m0; constructor; [split; [reflexivity | apply alike_list] | assumption]).
    induction m as [|(name & l) m IH]; intros m' e H; cbn [tick_map] in H; [injection H as <- <-; constructor|].
    destruct (tick_vec fuel d name l) as [((l2 & e2) & [|])|] eqn:Ev; [| |discriminate].
    - injection H as <- <-. constructor; [split; [reflexivity | eapply tick_vec_alike; eauto] | apply Hr].
    - destruct (tick_map fuel d m) as [(r & e')|] eqn:Em; [|discriminate]. injection H as <- <-. constructor; [split; [reflexivity | eapply tick_vec_alike; eauto] | eapply IH; eauto].
  Qed.

  (** ** The invariant: the map has every name once; the animations of a name are all cancelled or none is. *)
  Definition alive (m : anim_map) (name : nat) : Prop := Forall (fun pa => state (fst (snd pa)) <> Canceled) (of_name m name).
  Definition dead (m : anim_map) (name : nat) : Prop := Forall (fun pa => state (fst (snd pa)) = Canceled) (of_name m name).
  Definition frames_of (m : anim_map) (name : nat) : list (nat * K) := map (fun pa => (fst pa, snd (snd pa))) (of_name m name).

  Lemma alike_map m m' : Forall2 (fun x y => fst y = fst x /\ Forall2 alike (snd x) (snd y)) m m' -> map fst m' = map fst m /\ forall name, Forall2 alike (of_name m name) (of_name m' name).
  Proof.
    induction 1 as [|(k & l) (k' & l') m m' (Hk & Hl) _ (IH1 & IH2)]; [split; [reflexivity | constructor]|]. cbn [fst snd] in *. subst k'. split; [cbn; congruence|].
    intros name. rewrite !of_name_cons. apply Forall2_app; [|apply IH2]. destruct (Nat.eqb k name); [exact Hl | constructor].
  Qed.
  Lemma alike_frames l l' : Forall2 alike l l' -> map (fun pa => (fst pa, snd (snd pa))) l' = map (fun pa => (fst pa, snd (snd pa))) l.
  Proof. induction 1 as [|x y l l' (H1 & H2 & _) _ IH]; [reflexivity|]. cbn. rewrite H1, H2, IH. reflexivity. Qed.
  Lemma alike_states l l' : Forall2 alike l l' -> (Forall (fun pa => state (fst (snd pa)) <> Canceled) l -> Forall (fun pa => state (fst (snd pa)) <> Canceled) l') /\
    (Forall (fun pa => state (fst (snd pa)) = Canceled) l -> Forall (fun pa => state (fst (snd pa)) = Canceled) l').
  Proof.
    induction 1 as [|x y l l' (_ & _ & H) _ (IH1 & IH2)]; [split; constructor|]. split; intros Hf; inversion Hf as [|? ? Ha Hb]; subst; constructor; auto; tauto.
  Qed.
  Lemma clear_of (m : anim_map) name : is_map m -> (alive m name -> of_name (clear_anims m) name = of_name m name) /\ (dead m name -> dead (clear_anims m) name).
  Proof.
    unfold is_map, dead. induction m as [|(k & l) m IH]; intros Hn; [split; [reflexivity | auto]|]. inversion Hn as [|? ? Hk Hm]; subst. destruct (IH Hm) as (IH1 & IH2). unfold clear_anims in *. cbn [filter snd] in *. split.
    - unfold alive. rewrite of_name_cons. intros Ha. apply Forall_app in Ha as (Hl & Ha). match goal with |- context [if ?b then _ else _] => destruct b eqn:Eb end.
      + rewrite of_name_cons, IH1 by exact Ha. reflexivity.
      + rewrite IH1 by exact Ha. destruct (Nat.eqb_spec k name) as [->|]; [|reflexivity]. exfalso. apply Bool.not_true_iff_false in Eb. apply Eb, forallb_forall. intros pa Hp. rewrite Forall_forall in Hl. specialize (Hl pa Hp). destruct (state (fst (snd pa))); try reflexivity. congruence.
    - rewrite of_name_cons. intros Ha. apply Forall_app in Ha as (Hl & Ha). match goal with |- context [if ?b then _ else _] => destruct b eqn:Eb end; [rewrite of_name_cons; apply Forall_app|]; auto.
  Qed.
  Lemma clear_is_map (m : anim_map) : is_map m -> is_map (clear_anims m).
  Proof.
    unfold is_map, clear_anims. induction m as [|x m IH]; intros Hn; [constructor|]. inversion Hn as [|? ? Hk Hm]; subst. cbn [filter]. match goal with |- context [if ?b then _ else _] => destruct b end; [|auto].
    cbn. constructor; [|auto]. intros Hi. apply Hk. apply in_map_iff in Hi as (y & <- & Hy). apply filter_In in Hy as (Hy & _). apply in_map. exact Hy.
  Qed.
  Lemma arrange_of (m m' : anim_map) name : Permutation m' m -> is_map m -> of_name m' name = of_name m name.
  Proof.
    intros Hp Hn. assert (is_map m') as Hn' by (unfold is_map in *; eapply Permutation_NoDup; [apply Permutation_map, Permutation_sym, Hp | exact Hn]). unfold is_map in *.
    destruct (in_dec Nat.eq_dec name (map fst m)) as [Hi|Hi].
    - apply in_map_iff in Hi as ((k & l) & <- & Hi). cbn [fst]. assert (forall m : anim_map, NoDup (map fst m) -> In (k, l) m -> of_name m k = l) as Hof.
      { clear. induction m as [|(k' & l') m IH]; intros Hn Hi; [destruct Hi|]. inversion Hn as [|? ? Hk Hm]; subst. rewrite of_name_cons. destruct Hi as [[= <- <-] | Hi].
        - rewrite Nat.eqb_refl, (of_name_absent (fun _ => true) 0 m k' Hk), app_nil_r. reflexivity.
        - destruct (Nat.eqb_spec k' k) as [->|]; [exfalso; apply Hk; apply (in_map fst) in Hi; exact Hi|]. cbn. auto. }
      rewrite (Hof m Hn Hi), (Hof m' Hn'); [reflexivity|]. eapply Permutation_in; [apply Permutation_sym, Hp | exact Hi].
    - rewrite (of_name_absent animatable fuel m), (of_name_absent animatable fuel m'); [reflexivity | | exact Hi]. intros Hj. apply Hi. eapply Permutation_in; [apply Permutation_map, Hp | exact Hj].
  Qed.

  (** ** One frame *)
  Lemma frame_anims (f : frame_input V E K) n out : frame f n = Some out -> is_map (anims n) -> (forall m, Permutation (f_arrange f m) m) ->
    let n1 := if f_reset f then reset n else n in
    exists m2, is_map m2 /\ (forall name, alive (anims n1) name -> alive m2 name /\ frames_of m2 name = frames_of (anims n1) name) /\ (forall name, dead (anims n1) name -> dead m2 name) /\
      match f_configs f with
      | None => forall name, of_name (anims (o_node out)) name = of_name m2 name
      | Some (cs, resolve) => exists m3, set_animations animatable fuel resolve cs m2 = Some m3 /\ is_map m3 /\ forall name, of_name (anims (o_node out)) name = of_name m3 name
      end /\ is_map (anims (o_node out)).
  Proof.
    intros H Hn Hp n1. unfold NodeProps.frame in H. fold n1 in H. assert (is_map (anims n1)) as Hn1 by (unfold n1; destruct (f_reset f); [constructor | exact Hn]).
    destruct (tick_node np fuel (f_delta f) n1) as [((n2 & ev1) & aev1)|] eqn:Et; [|discriminate]. exists (anims n2).
    assert (is_map (anims n2) /\ (forall name, alive (anims n1) name -> alive (anims n2) name /\ frames_of (anims n2) name = frames_of (anims n1) name) /\ (forall name, dead (anims n1) name -> dead (anims n2) name)) as (A1 & A2 & A3).
    { unfold tick_node in Et. destruct (has_tickable np n1).
      - destruct (tick_map fuel (f_delta f) (anims n1)) as [(m & e)|] eqn:Em; [|discriminate]. injection Et as <- _ _. cbn [anims]. destruct (alike_map _ _ (tick_map_alike _ _ _ _ Em)) as (Hk & Ha).
        assert (is_map m) as Hm by (unfold is_map in *; rewrite Hk; exact Hn1). split; [apply clear_is_map; exact Hm|]. split; intros name Hs.
        + destruct (alike_states _ _ (Ha name)) as (Hl & _). destruct (clear_of m name Hm) as (Hc & _). specialize (Hc (Hl Hs)). unfold alive, frames_of. rewrite Hc. split; [exact (Hl Hs)|]. apply alike_frames. apply Ha.
        + destruct (alike_states _ _ (Ha name)) as (_ & Hl). apply (clear_of m name Hm). exact (Hl Hs).
      - injection Et as <- _ _. auto. }
    destruct (options_step f n2) as (n3 & ev2) eqn:Eo. assert (anims n3 = anims n2) as E3 by (unfold options_step in Eo; destruct (f_restyle f); injection Eo as <- _; reflexivity).
    destruct (create_step op veq interp ease vdefault np animatable _ n3) as [(n4 & ev3)|] eqn:Ec; [|discriminate].
    assert (anims n4 = anims n3) as E4 by (unfold create_step in Ec; match type of Ec with (if ?b then _ else _) = _ => destruct b end; [injection Ec as <- _; reflexivity | discriminate]).
    destruct (animations_step animatable fuel f n4) as [(n5 & aev2)|] eqn:Ea; [|discriminate].
    assert (anims (o_node out) = anims n5) as E5 by (destruct (apply_step _ _ _ _ _ _ n5) as (n6 & w) eqn:Eap; injection H as <-; unfold apply_step in Eap; injection Eap as <- _; reflexivity).
    split; [exact A1|]. split; [exact A2|]. split; [exact A3|]. rewrite E5. unfold animations_step in Ea. destruct (f_configs f) as [(cs & resolve)|].
    - rewrite E4, E3 in Ea. destruct (set_animations animatable fuel resolve cs (anims n2)) as [m3|] eqn:Es; [|discriminate]. injection Ea as <- _. cbn [anims].
      assert (is_map m3) as Hm3 by (unfold set_animations in Es; eapply set_configs_map; [|exact Es]; unfold is_map; rewrite cancel_missing_keys; exact A1).
      split; [|unfold is_map in *; eapply Permutation_NoDup; [apply Permutation_map, Permutation_sym, Hp | exact Hm3]]. exists m3. split; [reflexivity|]. split; [exact Hm3|]. intros name. apply arrange_of; auto.
    - injection Ea as <- _. rewrite E4, E3. auto.
  Qed.

  (** ** A frame of the flow *)
  Definition inv (s : flow F V E K T) : Prop :=
    is_map (anims (fl_node s)) /\ forall name, (In name (names (fl_current s)) -> alive (anims (fl_node s)) name) /\ (~ In name (names (fl_current s)) -> dead (anims (fl_node s)) name).
  Lemma timing_in (cs : list (declared_animation T)) name : In name (names cs) -> exists c, In c cs /\ d_name c = name /\ timing_of cs name = Some (d_timing c).
  Proof.
    unfold timing_of. induction cs as [|c cs IH]; intros H; [destruct H|]. cbn [find]. destruct (Nat.eqb_spec (d_name c) name) as [Ec|Ec]; [exists c; cbn; auto|].
    destruct H as [H | H]; [contradiction|]. destruct (IH H) as (c' & H1 & H2 & H3). exists c'. cbn. auto.
  Qed.
  Lemma names_stripped (cs : list (declared_animation T)) : map fst (stripped cs) = names cs.
  Proof. unfold stripped, names. rewrite map_map. reflexivity. Qed.
  Lemma set_vec_cases resolve c (l l' : list (nat * (animation * K))) : set_vec animatable fuel resolve c l = Some l' ->
    Forall (fun pa => state (fst (snd pa)) <> Canceled) l' /\
    (Forall (fun pa => state (fst (snd pa)) = Canceled) l -> map (fun pa => (fst pa, snd (snd pa))) l' = match resolve c with Some ks => filter (fun pk => animatable (fst pk)) ks | None => [] end) /\
    (Forall (fun pa => state (fst (snd pa)) <> Canceled) l -> l <> [] -> map (fun pa => (fst pa, snd (snd pa))) l' = map (fun pa => (fst pa, snd (snd pa))) l).
  Proof.
    unfold set_vec. intros H.
    assert (forall (ks : list (nat * K)) r, traverse (fun pk : nat * K => option_map (fun a => (fst pk, (a, snd pk))) (new_animation fuel (snd c))) ks = Some r ->
      Forall (fun pa => state (fst (snd pa)) <> Canceled) r /\ map (fun pa => (fst pa, snd (snd pa))) r = ks) as Hnew.
    { intros ks r Hr. apply traverse_forall2 in Hr; try exact animatable; try exact fuel. induction Hr as [|pk b ks r Hb _ (IH1 & IH2)]; [split; [constructor | reflexivity]|]. apply omap_inv in Hb as (a & Ea & ->). cbn. split.
      - constructor; [|exact IH1]. cbn. unfold new_animation in Ea. eapply update_not_canceled; eauto.
      - rewrite IH2. destruct pk; reflexivity. }
    assert (forall (l : list (nat * (animation * K))) r, traverse (fun pa : nat * (animation * K) => option_map (fun a => (fst pa, (a, snd (snd pa)))) (update_options fuel (snd c) (fst (snd pa)))) l = Some r ->
      Forall (fun pa => state (fst (snd pa)) <> Canceled) r /\ map (fun pa => (fst pa, snd (snd pa))) r = map (fun pa => (fst pa, snd (snd pa))) (l : list (nat * (animation * K)))) as Hupd.
    { intros l0 r Hr. apply traverse_forall2 in Hr; try exact animatable; try exact fuel. induction Hr as [|pk b l0 r Hb _ (IH1 & IH2)]; [split; [constructor | reflexivity]|]. apply omap_inv in Hb as (a & Ea & ->). cbn. split.
      - constructor; [|exact IH1]. cbn. eapply update_not_canceled; eauto.
      - rewrite IH2. reflexivity. }
    destruct (forallb (fun pa => is_canceled (fst (snd pa))) l) eqn:Eb.
    - destruct (resolve c) as [ks|].
      + destruct (Hnew _ _ H) as (H1 & H2). split; [exact H1|]. split; [intros _; exact H2|]. intros Ha Hne. exfalso. destruct l as [|x l]; [contradiction|]. inversion Ha as [|? ? Hx _]; subst. cbn in Eb. apply andb_prop in Eb as (Eb & _). unfold is_canceled in Eb. destruct (state (fst (snd x))); try discriminate. congruence.
      + injection H as <-. split; [constructor|]. split; [reflexivity|]. intros Ha Hne. exfalso. destruct l as [|x l]; [contradiction|]. inversion Ha as [|? ? Hx _]; subst. cbn in Eb. apply andb_prop in Eb as (Eb & _). unfold is_canceled in Eb. destruct (state (fst (snd x))); try discriminate. congruence.
    - destruct l as [|x l]; [discriminate|]. destruct (Hupd _ _ H) as (H1 & H2). split; [exact H1|]. split; [|intros _ _; exact H2].
      intros Hc. exfalso. apply Bool.not_true_iff_false in Eb. apply Eb. apply forallb_forall. intros pa Hp. rewrite Forall_forall in Hc. specialize (Hc pa Hp). unfold is_canceled. rewrite Hc. reflexivity.
  Qed.
  Lemma step_spec i s s' : step i s = Some s' -> inv s -> tidy i ->
    let cur := if f_reset (i_frame i) then [] else fl_current s in
    inv s' /\ (fl_current s' = if recalculated i then i_declared i else cur) /\
    (forall name, In name (names cur) -> In name (names (fl_current s')) -> frames_of (anims (fl_node s)) name <> [] -> frames_of (anims (fl_node s')) name = frames_of (anims (fl_node s)) name) /\
    (forall name, ~ In name (names cur) -> In name (names (fl_current s')) ->
       frames_of (anims (fl_node s')) name = match given_now i name with Some ks => filter (fun pk => animatable (fst pk)) ks | None => [] end).
  Proof.
    intros H (Hm & Hinv) (Hnd & Hp) cur. unfold flow_step in H. fold cur in H. set (change := recalculated i && negb (same (i_declared i) cur)) in *.
    set (f := with_configs (i_frame i) (if change then Some (stripped (i_declared i), resolver i) else None)) in *.
    destruct (frame f (fl_node s)) as [out|] eqn:Ef; [|discriminate]. injection H as <-. cbn [fl_current fl_node].
    destruct (frame_anims f _ out Ef Hm Hp) as (m2 & A1 & A2 & A3 & A4). change (f_reset f) with (f_reset (i_frame i)) in *. change (f_configs f) with (if change then Some (stripped (i_declared i), resolver i) else None) in A4.
    set (n1 := if f_reset (i_frame i) then reset (fl_node s) else fl_node s) in *.
    assert (forall name, (In name (names cur) -> alive (anims n1) name) /\ (~ In name (names cur) -> dead (anims n1) name)) as Hi1.
    { intros name. unfold cur, n1. destruct (f_reset (i_frame i)); [split; [intros [] | intros _; constructor] | apply Hinv]. }
    assert (forall name, In name (names cur) -> frames_of (anims n1) name = frames_of (anims (fl_node s)) name) as Hf1.
    { intros name. unfold cur, n1. destruct (f_reset (i_frame i)); [intros [] | reflexivity]. }
    clearbody n1. destruct change eqn:Ech.
    - destruct A4 as ((m3 & Es & Hm3 & Hof) & Hmo). unfold set_animations in Es.
      assert (is_map (cancel_missing (stripped (i_declared i)) m2)) as Hcm by (unfold is_map; rewrite cancel_missing_keys; exact A1).
      assert (forall name, In name (names (i_declared i)) -> exists c l, resolver i c = given_now i name /\ set_vec animatable fuel (resolver i) c (of_name m2 name) = Some l /\ of_name (anims (o_node out)) name = l) as Hin.
      { intros name Hin. destruct (timing_in _ _ Hin) as (c & Hc & <- & _). destruct (set_configs_same animatable fuel (resolver i) (stripped (i_declared i)) (d_name c) (d_options c) _ m3 Hcm) as (l & Hl & Ho).
        - rewrite names_stripped. exact Hnd.
        - unfold stripped. apply in_map_iff. exists c. auto.
        - exact Es.
        - exists (d_name c, d_options c), l. rewrite cancel_missing_of in Hl. replace (existsb _ _) with true in Hl by (symmetry; apply existsb_name; rewrite names_stripped; exact Hin).
          split; [reflexivity|]. split; [exact Hl|]. rewrite Hof. exact Ho. }
      assert (recalculated i = true) as Hr by (unfold change in Ech; apply andb_prop in Ech; tauto). split; [split|split; [rewrite Hr; reflexivity|split]].
      + exact Hmo.
      + cbn [fl_current fl_node]. intros name. split; intros Hn.
        * destruct (Hin name Hn) as (c & l & _ & Hl & Ho). unfold alive. rewrite Ho. apply (set_vec_cases _ _ _ _ Hl).
        * unfold dead. rewrite Hof, (set_configs_other animatable fuel (resolver i) (stripped (i_declared i)) name (cancel_missing (stripped (i_declared i)) m2) m3); [|rewrite names_stripped; exact Hn | exact Es].
          rewrite cancel_missing_of. replace (existsb _ _) with false; [|symmetry; apply Bool.not_true_iff_false; rewrite existsb_name, names_stripped; exact Hn].
          apply Forall_forall. intros pa Hpa. apply in_map_iff in Hpa as (x & <- & _). reflexivity.
      + intros name Hc Hn Hne. destruct (Hin name Hn) as (c & l & _ & Hl & Ho). destruct (Hi1 name) as (Ha & _). destruct (A2 name (Ha Hc)) as (Ha2 & Hf2). unfold frames_of at 1. rewrite Ho.
        destruct (set_vec_cases _ _ _ _ Hl) as (_ & _ & Hk). rewrite <- (Hf1 name Hc), <- Hf2. apply Hk; [exact Ha2|]. intros E0. apply Hne. rewrite <- (Hf1 name Hc), <- Hf2. unfold frames_of. rewrite E0. reflexivity.
      + intros name Hc Hn. destruct (Hin name Hn) as (c & l & Hg & Hl & Ho). destruct (Hi1 name) as (_ & Hd). specialize (A3 name (Hd Hc)). unfold frames_of. rewrite Ho.
        destruct (set_vec_cases _ _ _ _ Hl) as (_ & Hk & _). rewrite (Hk A3), Hg. reflexivity.
    - destruct A4 as (Hof & Hmo). split; [split|split; [|split]].
      + exact Hmo.
      + cbn [fl_current fl_node]. intros name. split; intros Hn; unfold alive, dead; rewrite Hof; [apply A2, Hi1, Hn | apply A3, Hi1, Hn].
      + destruct (recalculated i) eqn:Er; [|reflexivity]. unfold change in Ech. cbn in Ech. apply Bool.negb_false_iff in Ech. symmetry. apply Hsame. exact Ech.
      + intros name Hc _ _. unfold frames_of at 1. rewrite Hof. destruct (A2 name (proj1 (Hi1 name) Hc)) as (_ & Hf2). unfold frames_of in Hf2. rewrite Hf2. apply (Hf1 name Hc).
      + intros name Hc Hn. contradiction.
  Qed.

  Lemma not_recalculated (i : flow_input V E K T) : recalculated i = false -> i_loaded i = false \/ (i_marked i = false /\ f_reset (i_frame i) = false).
  Proof. unfold recalculated. destruct (i_marked i), (f_reset (i_frame i)), (i_loaded i); cbn; auto; discriminate. Qed.

  (** ** Histories *)
  Lemma inv_fresh : inv fresh_node.
  Proof. split; [constructor|]. intros name. split; [intros [] | intros _; constructor]. Qed.
  Lemma run_app h1 h2 s : run (h1 ++ h2) s = match run h1 s with Some s1 => run h2 s1 | None => None end.
  Proof. revert s. induction h1 as [|i h1 IH]; intros s; [reflexivity|]. cbn. destruct (step i s); [apply IH | reflexivity]. Qed.
  Lemma honest_app (h1 h2 : list (flow_input V E K T)) before : honest before (h1 ++ h2) -> honest before h1 /\ honest (match rev h1 with [] => before | i :: _ => i_declared i end) h2.
  Proof.
    revert before. induction h1 as [|i h1 IH]; intros before H; [split; [exact I | exact H]|]. destruct H as (H1 & H2). destruct (IH _ H2) as (H3 & H4). split; [split; assumption|].
    cbn [rev]. destruct (rev h1) as [|j r]; exact H4.
  Qed.
  Lemma run_spec h : forall s s', run h s = Some s' -> inv s -> honest (fl_current s) h -> Forall tidy h ->
    inv s' /\ fl_current s' = match rev h with [] => fl_current s | i :: _ => i_declared i end.
  Proof.
    induction h as [|i h IH]; intros s s' H Hi Hh Ht; cbn in H; [injection H as <-; split; [exact Hi | reflexivity]|].
    destruct (step i s) as [s1|] eqn:Es; [|discriminate]. inversion Ht as [|? ? Ht1 Ht2]; subst. destruct Hh as (Hh1 & Hh2). destruct (step_spec i s s1 Es Hi Ht1) as (Hi1 & Hc & _).
    assert (fl_current s1 = i_declared i) as Hc1 by (rewrite Hc; destruct (recalculated i) eqn:Er; [reflexivity | symmetry; apply Hh1, not_recalculated, Er]).
    rewrite <- Hc1 in Hh2. destruct (IH s1 s' H Hi1 Hh2 Ht2) as (H1 & H2). split; [exact H1|]. rewrite H2. cbn [rev]. destruct (rev h); [exact Hc1 | reflexivity].
  Qed.
  Lemma run_keeps name ks h : forall s s', run h s = Some s' -> inv s -> honest (fl_current s) h -> Forall tidy h ->
    In name (names (fl_current s)) -> frames_of (anims (fl_node s)) name = ks -> ks <> [] ->
    Forall (fun j => f_reset (i_frame j) = false /\ In name (names (i_declared j))) h -> frames_of (anims (fl_node s')) name = ks.
  Proof.
    induction h as [|i h IH]; intros s s' H Hi Hh Ht Hn Hf Hne Hl; cbn in H; [injection H as <-; exact Hf|].
    destruct (step i s) as [s1|] eqn:Es; [|discriminate]. inversion Ht as [|? ? Ht1 Ht2]; subst. inversion Hl as [|? ? (Hl0 & Hl1) Hl2]; subst. destruct Hh as (Hh1 & Hh2).
    destruct (step_spec i s s1 Es Hi Ht1) as (Hi1 & Hc & Hk & _).
    assert (fl_current s1 = i_declared i) as Hc1 by (rewrite Hc; destruct (recalculated i) eqn:Er; [reflexivity | symmetry; apply Hh1, not_recalculated, Er]).
    rewrite Hl0 in Hk.
    rewrite <- Hc1 in Hh2, Hl1. exact (IH s1 s' H Hi1 Hh2 Ht2 Hl1 (Hk name Hn Hl1 Hne) Hne Hl2).
  Qed.
End P.

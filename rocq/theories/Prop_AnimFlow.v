(** C99: which keyframes a node plays. *)
From Coq Require Import NArith ZArith QArith Permutation.
From Verif Require Import Base AnimationSample Inherit Animation Transition TransitionFloat TransitionSpec NodeProps NodePropsSpec NodeAnimsSpec AnimFlow AnimFlowSpec AnimFlowProofs Prop_NodeProps.

Local Open Scope nat_scope.

(** For any arithmetic, values and properties; [same] is an equality test that accepts only equal lists. *)
Section C99.
  Context {F V E K T : Type} (op : fops F) (veq : forall a b : V, {a = b} + {a <> b}).
  Context (interp : V -> V -> F -> V) (ease : E -> F -> F) (vdefault : V) (asample : K -> animation -> option V).
  Context (np : nat) (animatable : nat -> bool) (fuel : nat) (same : list (declared_animation T) -> list (declared_animation T) -> bool).
  Notation run := (flow_run op veq interp ease vdefault asample np animatable fuel same).

  (** After every update the node follows exactly the declared animations: it plays nothing under other names. *)
  Theorem C99_follows : (forall a b, same a b = true -> a = b) -> forall h s, run h fresh_node = Some s -> honest [] h -> Forall tidy h ->
    fl_current s = last_declared h /\ (forall name, ~ In name (names (last_declared h)) -> silent s name) /\
    (forall name, In name (names (last_declared h)) -> exists ks, plays s name ks).
  Proof.
    intros Hs h s H Hh Ht. destruct (run_spec op veq interp ease vdefault asample np animatable fuel same Hs h _ _ H inv_fresh Hh Ht) as ((_ & Hi) & Hc). assert (fl_current s = last_declared h) as Hc'.
    { rewrite Hc. unfold last_declared. destruct (rev h); reflexivity. }
    rewrite Hc' in Hi. split; [exact Hc'|]. split; intros name Hn.
    - apply (Hi name). exact Hn.
    - exists (frames_of (anims (fl_node s)) name). split; [reflexivity|]. apply (Hi name). exact Hn.
  Qed.
  (** An animation that is declared without interruption since the frame [i] plays the keyframes that the frame [i] gave it. *)
  Theorem C99_keyframes_of_the_start : (forall a b, same a b = true -> a = b) -> forall before i after s name ks, run (before ++ i :: after) fresh_node = Some s ->
    honest [] (before ++ i :: after) -> Forall tidy (before ++ i :: after) ->
    In name (names (i_declared i)) -> f_reset (i_frame i) = true \/ ~ In name (names (last_declared before)) ->
    given_now i name = Some ks -> filter (fun pk => animatable (fst pk)) ks <> [] ->
    Forall (fun j => f_reset (i_frame j) = false /\ In name (names (i_declared j))) after ->
    plays s name (filter (fun pk => animatable (fst pk)) ks).
  Proof.
    intros Hs before i after s name ks H Hh Ht Hn Hb Hg Hne Ha. destruct (proj1 (Forall_app _ _ _) Ht) as (Ht0 & Ht1). inversion Ht1 as [|? ? Hti Hta]; subst.
    destruct (honest_app _ _ _ Hh) as (Hh0 & (Hh1 & Hh2)). pose proof H as Hall. rewrite run_app in H. destruct (run before fresh_node) as [s0|] eqn:E0; [|discriminate]. cbn [flow_run] in H.
    destruct (flow_step op veq interp ease vdefault asample np animatable fuel same i s0) as [s1|] eqn:E1; [|discriminate].
    destruct (run_spec op veq interp ease vdefault asample np animatable fuel same Hs before _ _ E0 inv_fresh Hh0 Ht0) as (I0 & C0).
    destruct (step_spec op veq interp ease vdefault asample np animatable fuel same Hs i s0 s1 E1 I0 Hti) as (I1 & C1 & _ & Hnew). cbv zeta in Hnew.
    change (fl_current fresh_node) with (@nil (declared_animation T)) in C0.
    assert (fl_current s1 = i_declared i) as C1'. { rewrite C1. destruct (recalculated i) eqn:Er; [reflexivity|]. symmetry. rewrite C0. apply Hh1, not_recalculated, Er. }
    rewrite C1' in Hnew. assert (~ In name (names (if f_reset (i_frame i) then [] else fl_current s0))) as Hnb.
    { destruct (f_reset (i_frame i)); [intros []|]. destruct Hb as [Hb | Hb]; [discriminate|]. rewrite C0. unfold last_declared in Hb. destruct (rev before); exact Hb. }
    specialize (Hnew name Hnb Hn). rewrite Hg in Hnew. rewrite <- C1' in Hh2, Hn. split.
    - exact (run_keeps op veq interp ease vdefault asample np animatable fuel same Hs name _ after s1 s H I1 Hh2 Hta Hn Hnew Hne Ha).
    - destruct (run_spec op veq interp ease vdefault asample np animatable fuel same Hs _ _ _ Hall inv_fresh Hh Ht) as ((_ & Hi) & Hc). apply (Hi name). rewrite Hc.
      rewrite rev_app_distr. cbn [rev]. destruct (rev after) as [|j r] eqn:Er; [cbn; rewrite <- C1'; exact Hn|]. cbn. rewrite Forall_forall in Ha. apply Ha. apply in_rev. rewrite Er. left. reflexivity.
  Qed.
  (** So it plays what the last frame gives, if what is given has not changed since it started. *)
  Theorem C99_plays_what_is_given_partial : (forall a b, same a b = true -> a = b) -> forall before i after s name ks, run (before ++ i :: after) fresh_node = Some s ->
    honest [] (before ++ i :: after) -> Forall tidy (before ++ i :: after) ->
    In name (names (i_declared i)) -> f_reset (i_frame i) = true \/ ~ In name (names (last_declared before)) ->
    filter (fun pk => animatable (fst pk)) ks <> [] -> Forall (fun j => given_now j name = Some ks) (i :: after) ->
    Forall (fun j => f_reset (i_frame j) = false /\ In name (names (i_declared j))) after ->
    forall j, In j (i :: after) -> match given_now j name with Some ks' => plays s name (filter (fun pk => animatable (fst pk)) ks') | None => False end.
  Proof.
    intros Hs before i after s name ks H Hh Ht Hn Hb Hne Hg Ha j Hj. rewrite Forall_forall in Hg. rewrite (Hg j Hj). eapply C99_keyframes_of_the_start; eauto. apply Hg. left. reflexivity.
  Qed.
End C99.

(** An application: the animation 1 of one second on property 0.  Keyframes and timing functions are numbers. *)
Module Ex99.
  Definition anim (timing : nat) : declared_animation nat := mkdeclared 1 timing (Ex27.aopt 1000).
  Definition input (marked : bool) (cs : list (declared_animation nat)) (kf : Z) : flow_input Z unit Z nat :=
    mkinput (Ex.idle 100) marked true cs (fun name t => if Nat.eqb name 1 then Some [(0, (kf + Z.of_nat t)%Z)] else None).
  Fixpoint same (a b : list (declared_animation nat)) : bool :=
    match a, b with [], [] => true | x :: a, y :: b => Nat.eqb (d_name x) (d_name y) && Nat.eqb (d_timing x) (d_timing y) && N.eqb (o_duration (d_options x)) (o_duration (d_options y)) && same a b | _, _ => false end.
  Definition run := flow_run ideal Z.eq_dec Ex.lerp Ex.linear 0%Z Ex.sample 1 (fun _ => true) 100 same.
  Definition frames (o : option (flow ext Z unit Z nat)) : option (list (nat * Z) * list animation_state) :=
    option_map (fun s => (map (fun pa => (fst pa, snd (snd pa))) (of_name (anims (fl_node s)) 1), map (fun pa => state (fst (snd pa))) (of_name (anims (fl_node s)) 1))) o.
End Ex99.
(** A history that starts, keeps and stops the animation meets the conditions. *)
Example C99_example : let h := [Ex99.input true [] 10; Ex99.input true [Ex99.anim 0] 10; Ex99.input false [Ex99.anim 0] 10; Ex99.input true [Ex99.anim 0] 10] in
  honest [] h /\ Forall tidy h /\ Ex99.frames (Ex99.run h fresh_node) = Some ([(0, 10%Z)], [Running]) /\
  Ex99.frames (Ex99.run (h ++ [Ex99.input true [] 10]) fresh_node) = Some ([(0, 10%Z)], [Canceled]).
Proof.
  cbv zeta. split; [cbn; intuition (try discriminate; reflexivity)|]. split; [|split; vm_compute; reflexivity].
  repeat constructor; cbn; try (intros []); try apply Permutation_refl.
Qed.
(** What is missing is false.  A custom property used in the keyframes changes and the node is recalculated, or the
    animation-timing-function changes: the running animation keeps its old keyframes. *)
Theorem C99_variable_refuted : let h := [Ex99.input true [Ex99.anim 0] 10; Ex99.input true [Ex99.anim 0] 20] in
  honest [] h /\ Forall tidy h /\ Ex99.frames (Ex99.run h fresh_node) = Some ([(0, 10%Z)], [Running]) /\
  Forall (fun j => given_now j 1 = Some [(0, 20%Z)]) [Ex99.input true [Ex99.anim 0] 20].
Proof.
  cbv zeta. split; [cbn; intuition (try discriminate; reflexivity)|]. split; [|split; [vm_compute; reflexivity | repeat constructor]].
  repeat constructor; cbn; try (intros []); try apply Permutation_refl.
Qed.
Theorem C99_timing_function_refuted : let h := [Ex99.input true [Ex99.anim 0] 10; Ex99.input true [Ex99.anim 5] 10] in
  honest [] h /\ Forall tidy h /\ Ex99.frames (Ex99.run h fresh_node) = Some ([(0, 10%Z)], [Running]) /\
  given_now (Ex99.input true [Ex99.anim 5] 10) 1 = Some [(0, 15%Z)].
Proof.
  cbv zeta. split; [cbn; intuition (try discriminate; reflexivity)|]. split; [|split; [vm_compute; reflexivity | reflexivity]].
  repeat constructor; cbn; try (intros []); try apply Permutation_refl.
Qed.
Print Assumptions C99_follows. Print Assumptions C99_keyframes_of_the_start. Print Assumptions C99_plays_what_is_given_partial. Print Assumptions C99_variable_refuted. Print Assumptions C99_timing_function_refuted.

(** C106: a transition that is under way ends at the value that the style has now. *)
From Coq Require Import NArith ZArith QArith.
From Verif Require Import Base Inherit Animation Transition TransitionFloat NodeProps NodePropsSpec NodePropsProofs NodePropsProofs2 HeadingSpec HeadingProofs.
From Verif Require Prop_NodeProps.
Local Open Scope nat_scope.
Module Ex := Prop_NodeProps.Ex.

(** C106 (partial).  Whatever frames a node goes through since it was spawned - style changes, other transition options, animations,
    resets - while the style of [p] does not lose its value: if a transition of [p] is under way, [p] has a style value, and the
    transition ends at that value.  Partial: false if the style loses its value in between (C106_lost_value_refuted). *)
Theorem C106_transition_heads_for_style_partial :
  forall F V E K (op : fops F) (veq : forall a b : V, {a = b} + {a <> b}) interp (ease : E -> F -> F) vdefault
         (asample : K -> animation -> option V) np animatable fuel fs c w p,
  p < np ->
  values_stay op veq interp ease vdefault asample np animatable fuel p fs (start c) ->
  run op veq interp ease vdefault asample np animatable fuel fs (start c) = Some w ->
  forall i x, trans (props (w_node w) p) = Some (i, x) -> t_is_active x = true ->
  exists v, computed (props (w_node w) p) = CVal v /\ heads_for (w_node w) p v.
Proof.
  intros F V E K op veq interp ease vdefault asample np animatable fuel fs c w p Hp Hk Hr i x Hx Ha.
  assert (A : aimed (animatable p) (props (w_node w) p)).
  { apply (aimed_run op veq interp ease vdefault asample np animatable fuel p fs (start c) w Hp Hr); [intros q _ _ j y H; discriminate|intros j y H; discriminate|exact Hk]. }
  exists (t_to x). split; [apply (A i x Hx), Ha|]. intros j y Hy _. rewrite Hx in Hy. injection Hy as <- <-. reflexivity.
Qed.
Print Assumptions C106_transition_heads_for_style_partial.

(** What is missing is false: the style of a property in transition loses its value (the code warns) and gets another one before the
    transition is over.  The transition goes on to the old value: at its last frame the component shows 100 (less a step), although
    the style says 200. *)
Definition nothing_then (d : N) : frame_input Z unit Z := mk_frame_input false (Ex.ms d) (Some Ex.opts) (Some (fun _ => CNone)) None (fun m => m).
Theorem C106_lost_value_refuted :
  exists w, Ex.run [Ex.styled 0 Ex.opts 0; Ex.styled 16 Ex.opts 100; Ex.idle 1500; nothing_then 16; Ex.styled 16 Ex.opts 200; Ex.idle 450] Ex.start = Some w /\
    computed (props (w_node w) 0) = CVal 200%Z /\ ~ heads_for (w_node w) 0 200%Z /\ w_component w 0 = 98%Z.
Proof.
  destruct (Prop_NodeProps.computed_world (Ex.run [Ex.styled 0 Ex.opts 0; Ex.styled 16 Ex.opts 100; Ex.idle 1500; nothing_then 16; Ex.styled 16 Ex.opts 200; Ex.idle 450] Ex.start)
    (fun w => (computed (props (w_node w) 0), w_component w 0, option_map (fun ix => (t_to (snd ix), t_is_active (snd ix))) (trans (props (w_node w) 0)))) (CVal 200%Z, 98%Z, Some (100%Z, true))) as (w & Hw & Hv); [vm_compute; reflexivity|].
  injection Hv as H1 H2 H3. exists w. split; [exact Hw|]. split; [exact H1|]. split; [|exact H2]. intros H. destruct (trans (props (w_node w) 0)) as [[i x]|] eqn:Et; [|discriminate]. cbn in H3. injection H3 as H3 H4. specialize (H i x Et H4). congruence.
Qed.
Print Assumptions C106_lost_value_refuted.

(** a history that meets the hypotheses: a transition that is turned round on its way *)
Example C106_witness :
  let fs := [Ex.styled 0 Ex.opts 0; Ex.styled 16 Ex.opts 100; Ex.idle 1500; Ex.styled 16 Ex.opts 0] in
  values_stay ideal Z.eq_dec Ex.lerp Ex.linear 0%Z Ex.sample 1 (fun _ => true) 100 0 fs Ex.start /\
  option_map (fun w => (computed (props (w_node w) 0), option_map (fun ix => (t_to (snd ix), t_is_active (snd ix))) (trans (props (w_node w) 0)))) (Ex.run fs Ex.start) = Some (CVal 0%Z, Some (0%Z, true)).
Proof.
  cbv zeta. split; [|vm_compute; reflexivity].
  cbn [values_stay]. split; [right; left; reflexivity|]. intros w1 _. split; [right; right; intros pend H; injection H as <-; discriminate|].
  intros w2 _. split; [right; right; discriminate|]. intros w3 _. split; [right; right; intros pend H; injection H as <-; discriminate|]. intros w4 _. exact I.
Qed.

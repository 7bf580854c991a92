(** What the components show while transitions and animations are under way, and which histories C107 is about. *)
From Coq Require Import Ascii String NArith.
From Verif Require Import Base Live Animated.
From Verif Require Inherit Pipeline Animation Transition NodeProps NodePropsSpec.
Open Scope list_scope.

Section Spec.
  Context {CN TP AP KN KF FF f32 V F E K : Type} (veq : forall a b : V, {a = b} + {a <> b}).
  Variables (op : Transition.fops F) (interp : V -> V -> F -> V) (ease : E -> F -> F) (asample : K -> Animation.animation -> option V).
  (** the animations and the transition that a node has on a property *)
  Definition silent (a : animated V F E K) (n p : nat) : Prop :=
    Forall (fun x => asample (snd x) (fst x) = None) (NodePropsSpec.animations_on (an_node a n) p).
  Definition transition_of (a : animated V F E K) (n p : nat) : option (Transition.transition F V E) :=
    option_map snd (NodeProps.trans (NodeProps.props (an_node a n) p)).
  (** What property [p] of node [n] should show if its CSS value is [c]: the value of the last animation that gives one; else the value
      of its transition, or the target of one that is over; else [c]. *)
  Inductive should_show (a : animated V F E K) (n p : nat) (c : Inherit.cvalue V) : V -> Prop :=
  | by_animation l1 x l2 v : NodePropsSpec.animations_on (an_node a n) p = l1 ++ x :: l2 -> asample (snd x) (fst x) = Some v ->
      Forall (fun x' => asample (snd x') (fst x') = None) l2 -> should_show a n p c v
  | by_transition x v : silent a n p -> transition_of a n p = Some x -> Transition.t_is_active x = true -> Transition.t_sample_value op interp ease x = Some v -> should_show a n p c v
  | by_target x : silent a n p -> transition_of a n p = Some x -> Transition.t_is_active x = false -> should_show a n p c (Transition.t_to x)
  | by_style v : silent a n p -> transition_of a n p = None -> c = Inherit.CVal v -> should_show a n p c v.

  (** ** Histories *)
  (** In the update [u], transitions that replace no other start from what is shown (C26_restart_on_end_refuted) ... *)
  Variables (update : moment CN TP AP KN KF FF f32 * styling E K -> animated V F E K -> option (animated V F E K)) (np afuel : nat).
  Definition starts_from_shown (u : moment CN TP AP KN KF FF f32 * styling E K) (a a' : animated V F E K) (n : nat) : Prop :=
    forall p from, p < np -> NodePropsSpec.starts_fresh np afuel (input (fst u) (snd u) (an_live a') n) (an_node a n) p from ->
      exists c, NodeProps.computed (NodeProps.props (an_node a n) p) = c /\ should_show a n p c from.
  Fixpoint smooth (nodes : list nat) (us : list (moment CN TP AP KN KF FF f32 * styling E K)) (a : animated V F E K) : Prop :=
    match us with
    | [] => True
    | u :: us => forall a', update u a = Some a' -> (forall n, In n nodes -> starts_from_shown u a a' n) /\ smooth nodes us a'
    end.
  (** ... which is so if a property whose CSS value changes is not animated by keyframes just then, and its transition, if it has one, does
      not end in that very update. *)
  Definition calm_at (u : moment CN TP AP KN KF FF f32 * styling E K) (a a' : animated V F E K) (n : nat) : Prop :=
    forall p, p < np -> Inherit.computed (Pipeline.world (lv_pipe (an_live a')) n) p <> NodeProps.computed (NodeProps.props (an_node a n) p) ->
      silent a n p /\ forall x, transition_of a n p = Some x -> Transition.t_is_active (Transition.t_tick (y_delta (snd u)) x) = true.
  Fixpoint calm (nodes : list nat) (us : list (moment CN TP AP KN KF FF f32 * styling E K)) (a : animated V F E K) : Prop :=
    match us with
    | [] => True
    | u :: us => forall a', update u a = Some a' -> (forall n, In n nodes -> calm_at u a a' n) /\ calm nodes us a'
    end.
  (** The CSS value of property [p] of node [n] does not disappear, except when the node is reset (C106_lost_value_refuted). *)
  Fixpoint value_stays (n p : nat) (us : list (moment CN TP AP KN KF FF f32 * styling E K)) (a : animated V F E K) : Prop :=
    match us with
    | [] => True
    | u :: us => forall a', update u a = Some a' ->
        (is_reset (fst u) n = true \/ NodeProps.computed (NodeProps.props (an_node a n) p) = Inherit.CNone \/ Inherit.computed (Pipeline.world (lv_pipe (an_live a')) n) p <> Inherit.CNone) /\
        value_stays n p us a'
    end.
End Spec.

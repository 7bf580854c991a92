(** Specification vocabulary for the per-node animation machine. *)
From Coq Require Import NArith Permutation.
From Verif Require Import Base Inherit Animation Transition TransitionSpec NodeProps.

Section Spec.
  Context {F V E K : Type} (op : fops F) (veq : forall a b : V, {a = b} + {a <> b}).
  Variables (interp : V -> V -> F -> V) (ease : E -> F -> F) (vdefault : V).
  Variable asample : K -> animation -> option V.
  Variables (np : nat) (animatable : nat -> bool) (fuel : nat).
  Notation node := (node F V E K).
  Notation frame_input := (frame_input V E K).

  (** ** What a property of a node should show *)

  (** the animations of [n] on [p], in iteration order *)
  Definition animations_on (n : node) (p : nat) : list (animation * K) :=
    map snd (filter (fun pa => Nat.eqb (fst pa) p) (flat (anims n))).
  Definition no_animation_emits (n : node) (p : nat) : Prop :=
    Forall (fun a => asample (snd a) (fst a) = None) (animations_on n p).

  (** The effective value: the last animation emitting one, else the transition's, else the style's. *)
  Inductive shows (n : node) (p : nat) : V -> Prop :=
  | shows_animation : forall l1 a l2 v, animations_on n p = l1 ++ a :: l2 -> asample (snd a) (fst a) = Some v ->
      Forall (fun a' => asample (snd a') (fst a') = None) l2 -> shows n p v
  | shows_transition : forall i x v, no_animation_emits n p -> trans (props n p) = Some (i, x) ->
      t_is_active x = true -> t_sample_value op interp ease x = Some v -> shows n p v
  | shows_target : forall i x, no_animation_emits n p -> trans (props n p) = Some (i, x) ->
      t_is_active x = false -> shows n p (t_to x)
  | shows_style : forall v, no_animation_emits n p ->
      (forall i x, trans (props n p) = Some (i, x) -> t_is_active x = true /\ t_sample_value op interp ease x = None) ->
      computed (props n p) = CVal v -> shows n p v.

  (** ** Histories *)
  Record world := mk_world { w_node : node; w_component : nat -> V; w_events : nat -> tevents; w_anim_events : list (animation_event * nat * nat) }.
  (** A node that has just been spawned, whatever its components hold. *)
  Definition start (c : nat -> V) : world :=
    mk_world (mk_nodep (fun _ => mk_pst CNone CNone None None 0) []) c (fun _ => []) [].
  Definition frame_world (f : frame_input) (w : world) : option world :=
    match frame op veq interp ease vdefault asample np animatable fuel f (w_node w) with
    | None => None
    | Some o => Some (mk_world (o_node o) (fun p => match o_writes o p with Some v => v | None => w_component w p end)
                        (fun p => w_events w p ++ o_events o p) (w_anim_events w ++ o_anim_events o))
    end.
  Fixpoint run (fs : list frame_input) (w : world) : option world :=
    match fs with [] => Some w | f :: fs => match frame_world f w with Some w' => run fs w' | None => None end end.

  (** A frame starts a fresh transition on [p] (one that replaces none), away from [from]. *)
  Definition starts_fresh (f : frame_input) (n : node) (p : nat) (from : V) : Prop :=
    f_reset f = false /\ computed (props n p) = CVal from /\
    (exists pend to, f_pending f = Some pend /\ pend p = CVal to /\ to <> from) /\
    (exists n' ev aev, tick_node np fuel (f_delta f) n = Some (n', ev, aev) /\ trans (props n' p) = None).

  (** Every fresh transition of the history starts from what its property was showing. *)
  Fixpoint smooth (fs : list frame_input) (w : world) : Prop :=
    match fs with
    | [] => True
    | f :: fs => (forall p from, p < np -> starts_fresh f (w_node w) p from -> shows (w_node w) p from) /\
                 forall w', frame_world f w = Some w' -> smooth fs w'
    end.
End Spec.
Arguments world : clear implicits.

(** The events one transition may cause, in order. *)
Definition transition_story (l : list transition_event) : Prop :=
  In l [ []; [EvStarted]; [EvStarted; EvFinished]; [EvCanceled]; [EvStarted; EvCanceled];
         [EvReplaced]; [EvStarted; EvReplaced]; [EvCanceled; EvReplaced]; [EvStarted; EvCanceled; EvReplaced] ].
(** The events about the [k]-th transition of a property. *)
Definition about (k : nat) (l : tevents) : list transition_event := map fst (filter (fun e => Nat.eqb (snd e) k) l).

(** A single animation of a node, ticked by [ds]: what it becomes and the events reported about it. *)
Fixpoint ticked_alone {K} (fuel : nat) (name p : nat) (ds : list N) (a : animation) (k : K) : option (animation * list animation_event) :=
  match ds with
  | [] => Some (a, [])
  | d :: ds =>
      match tick_vec fuel d name [(p, (a, k))] with
      | Some ([(_, (b, _))], ev, _) =>
          match ticked_alone fuel name p ds b k with
          | Some (c, evs) => Some (c, map (fun e => fst (fst e)) ev ++ evs)
          | None => None
          end
      | _ => None
      end
  end.
(** What has been reported about an animation in a given state. *)
Definition animation_story (s : animation_state) : list animation_event :=
  match s with Pending => [] | Running => [AnStarted] | JustFinished | Finished => [AnStarted; AnFinished] | Canceled => [] end.

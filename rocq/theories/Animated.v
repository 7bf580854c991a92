(** Model of whole updates with transitions and animations: crates/bevy_flair_style/src/lib.rs:356-445 (the order of the systems),
    systems.rs:39-51, 542-612 (resets), 842-915, 937-1101, 1179-1277, components.rs:600-818.
    It is the composition of Live.v (from style sheets to computed values) and NodeProps.v (transitions and animations of one node):
    the computed values of a node are handed over to its transitions and animations, and what these show is written to the components.
    Nothing goes back: computed values of other nodes are computed from `pending_computed_values`, which transitions and animations do not
    change (create_transitions only writes to the node's own `computed_values`, `last_computed_animation_values` and `transitions`).
    Simplified: which transition options and animations the rules give a node (C39, C40, C54, C80, C99) is an input of each update, and can be
    anything, also for nodes that are not restyled.  What Live.v and NodeProps.v leave out is left out here. *)
From Coq Require Import Ascii String NArith.
From Verif Require Import Base Tree Vars Siblings Media Invalidation Matching Specificity Follow Layers Cascade Whole Live.
From Verif Require VarFlow Inherit Pipeline MediaDeps Animation Transition NodeProps.
Open Scope list_scope.

Section Animated.
  Context {CN TP AP KN KF FF f32 V F E K : Type} (veq : forall a b : V, {a = b} + {a <> b}).
  Variables (feq fle fge : f32 -> f32 -> bool).
  Variables (resolve_name : CN -> option nat) (type_ok : nat -> nat -> bool) (path_ok : FF -> bool) (placeholder : nat -> nat).
  Variables (np : nat) (initial : nat -> V) (decode : nat -> Inherit.pvalue V) (unset_code : nat -> nat) (nodes : list nat).
  (** NodeProps.v *)
  Variables (op : Transition.fops F) (interp : V -> V -> F -> V) (ease : E -> F -> F) (vdefault : V) (asample : K -> Animation.animation -> option V) (animatable : nat -> bool) (afuel : nat).
  Notation momentT := (moment CN TP AP KN KF FF f32).

  (** What an update does besides what Live.v describes: the time since the last one, and per node the new transition options, the new
      animations with their keyframes, and the order of the hash map of animations *)
  Record styling := mk_styling {
    y_delta : N; y_options : nat -> option (nat -> option (Transition.transition_options E));
    y_configs : nat -> option (list NodeProps.config * (NodeProps.config -> option (list (nat * K)))); y_arrange : nat -> @NodeProps.anim_map K -> @NodeProps.anim_map K }.
  (** [an_shown n p]: the field of the component (Pipeline.v); the one in [an_live] is not used *)
  Record animated := mk_animated { an_live : live V; an_node : nat -> NodeProps.node F V E K; an_shown : nat -> nat -> V }.

  (** systems.rs:39-51, 604: what resets a node's properties; nodes that do not exist have none *)
  Definition is_reset (m : momentT) (n : nat) : bool := (l_modified m n || l_reset m n || negb (mem n (l_alive m)))%bool.
  (** [l]: after the computed values of this update are known *)
  Definition input (m : momentT) (y : styling) (l : live V) (n : nat) : NodeProps.frame_input V E K :=
    NodeProps.mk_frame_input (is_reset m n) (y_delta y) (y_options y n) (Some (Inherit.computed (Pipeline.world (lv_pipe l) n))) (y_configs y n) (y_arrange y n).
  (** systems.rs:578-606: before a modified sheet is applied again, what had a value gets its initial value *)
  Definition initial_again (m : momentT) (s : animated) (n p : nat) : V :=
    if (l_modified m n && Inherit.is_value (NodeProps.computed (NodeProps.props (an_node s n) p)))%bool then initial p else an_shown s n p.
  Definition node_frame (m : momentT) (y : styling) (l : live V) (s : animated) (n : nat) : option (NodeProps.frame_output F V E K) :=
    NodeProps.frame op veq interp ease vdefault asample np animatable afuel (input m y l n) (an_node s n).
  (** [None]: a panic (NodeProps.v), or not enough fuel *)
  Definition update (mf fuel : nat) (m : momentT) (y : styling) (s : animated) : option animated :=
    match Live.update veq feq fle fge resolve_name type_ok path_ok placeholder np initial decode unset_code nodes mf fuel m (an_live s) with
    | Some l =>
        if forallb (fun n => match node_frame m y l s n with Some _ => true | None => false end) nodes
        then Some (mk_animated l
                     (fun n => if mem n nodes then match node_frame m y l s n with Some o => NodeProps.o_node o | None => an_node s n end else an_node s n)
                     (fun n p => match (if mem n nodes then node_frame m y l s n else None) with
                                 | Some o => match NodeProps.o_writes o p with Some v => v | None => initial_again m s n p end
                                 | None => an_shown s n p
                                 end))
        else None
    | None => None
    end.
  Fixpoint updates (mf fuel : nat) (us : list (momentT * styling)) (s : animated) : option animated :=
    match us with [] => Some s | (m, y) :: us => match update mf fuel m y s with Some s => updates mf fuel us s | None => None end end.
  (** components as they are spawned: [before] *)
  Definition start (before : nat -> nat -> V) : animated :=
    mk_animated (Live.start before) (fun _ => NodeProps.mk_nodep (fun _ => NodeProps.mk_pst Inherit.CNone Inherit.CNone None None 0) []) before.
End Animated.
Arguments styling : clear implicits.
Arguments animated : clear implicits.

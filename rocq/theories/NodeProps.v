(** Model of the per-node animation state machine: crates/bevy_flair_style/src/components.rs
    (impl NodeProperties) and the systems of systems.rs that drive it once per frame.

    - Property maps and the hash maps keyed by property id are functions of the property id; the state
      of one property is [pst].  Loops over these maps act on each property separately, so only the
      order of events of different properties is lost (in the code it is the hash map's).
    - [serial] is a ghost: it numbers the transitions of a property so that events can name theirs.
    - Animations are a list of (name, vector) in the hash map's iteration order; [f_arrange] lets a new
      order be chosen whenever the map changes.
    - The early exits that compare maps by pointer skip work that would change nothing (C12) and are
      left out.  Placeholders (systems.rs:1128-1176) are not modelled.
    - [None] is a panic ([Duration::from_secs_f32], C42) or a divergence (C20). *)
From Coq Require Import NArith.
From Verif Require Import Base Inherit Animation Transition.

(** animations/mod.rs TransitionEventType, AnimationEventType *)
Inductive transition_event := EvReplaced | EvStarted | EvFinished | EvCanceled.
Inductive animation_event := AnStarted | AnFinished | AnCanceled.

Section Node.
  Context {F V E K : Type} (op : fops F) (veq : forall a b : V, {a = b} + {a <> b}).
  Variables (interp : V -> V -> F -> V) (ease : E -> F -> F) (vdefault : V).
  (** keyframes curves and their sampling (animation.rs:519-545) *)
  Variable asample : K -> animation -> option V.
  Variables (np : nat) (animatable : nat -> bool) (fuel : nat).

  (** components.rs:442-463 NodeProperties, one property *)
  Record pst := mk_pst {
    computed : cvalue V; last_anim : cvalue V; t_opts : option (transition_options E);
    trans : option (nat * transition F V E); serial : nat }.
  Definition anim_map := list (nat * list (nat * (animation * K))).
  Record node := mk_nodep { props : nat -> pst; anims : anim_map }.

  Definition tevents := list (transition_event * nat).

  (** components.rs:938-957 reset *)
  Definition reset_pst (s : pst) : pst := mk_pst CNone CNone None None (serial s).
  Definition reset (n : node) : node := mk_nodep (fun p => reset_pst (props n p)) [].

  (** components.rs:965-974 has_tickable_animations_or_transitions; transition.rs:231-236 *)
  Definition has_tickable (n : node) : bool :=
    existsb (fun p => match trans (props n p) with Some (_, x) => t_is_active x | None => false end) (seq 0 np) ||
    existsb (fun e => existsb (fun pa => can_be_ticked (fst (snd pa)) && negb (paused (fst (snd pa)))) (snd e)) (anims n).

  (** components.rs:977-997: the transitions' part of tick_animations *)
  Definition with_trans (s : pst) (t : option (nat * transition F V E)) : pst :=
    mk_pst (computed s) (last_anim s) (t_opts s) t (serial s).
  Definition is_pending (x : transition F V E) : bool := match t_state x with TPending => true | _ => false end.
  Definition is_finished (x : transition F V E) : bool := match t_state x with TFinished => true | _ => false end.
  Definition tick_pst (d : N) (s : pst) : pst * tevents :=
    match trans s with
    | None => (s, [])
    | Some (k, x) =>
        let y := t_tick d x in
        (with_trans s (Some (k, y)),
         (if is_pending x && negb (is_pending y) then [(EvStarted, k)] else []) ++
         (if is_finished y then [(EvFinished, k)] else []))
    end.

  (** components.rs:999-1034: the animations' part; the [bool] says that the function returned (1003) *)
  Fixpoint tick_vec (d : N) (name : nat) (l : list (nat * (animation * K)))
    : option (list (nat * (animation * K)) * list (animation_event * nat * nat) * bool) :=
    match l with
    | [] => Some ([], [], false)
    | (p, (a, k)) :: l' =>
        if negb (can_be_ticked a) then Some ((p, (a, k)) :: l', [], true)
        else match tick fuel d a with
        | None => None
        | Some b =>
            let was_pending := match state a with Pending => true | _ => false end in
            let was_running := was_pending || match state a with Running => true | _ => false end in
            let ev := (if was_pending && negb (match state b with Pending => true | _ => false end) then [(AnStarted, name, p)] else []) ++
                      (if was_running && (match state b with JustFinished => true | _ => false end) then [(AnFinished, name, p)] else []) in
            match tick_vec d name l' with
            | None => None
            | Some (r, e, stop) => Some ((p, (b, k)) :: r, ev ++ e, stop)
            end
        end
    end.
  Fixpoint tick_map (d : N) (m : anim_map) : option (anim_map * list (animation_event * nat * nat)) :=
    match m with
    | [] => Some ([], [])
    | (name, l) :: m' =>
        match tick_vec d name l with
        | None => None
        | Some (l2, e, true) => Some ((name, l2) :: m', e)
        | Some (l2, e, false) => match tick_map d m' with Some (r, e') => Some ((name, l2) :: r, e ++ e') | None => None end
        end
    end.

  (** components.rs:1037-1050 clear_finished_and_canceled_animations *)
  Definition clear_pst (s : pst) : pst :=
    match trans s with
    | Some (_, x) => if t_is_active x then s else with_trans s None
    | None => s
    end.
  Definition clear_anims (m : anim_map) : anim_map :=
    filter (fun e => forallb (fun pa => negb (match state (fst (snd pa)) with Canceled => true | _ => false end)) (snd e)) m.

  (** systems.rs:1085-1101 tick_animations *)
  Definition tick_node (d : N) (n : node) : option (node * (nat -> tevents) * list (animation_event * nat * nat)) :=
    if has_tickable n then
      match tick_map d (anims n) with
      | None => None
      | Some (m, e) => Some (mk_nodep (fun p => clear_pst (fst (tick_pst d (props n p)))) (clear_anims m),
                             (fun p => snd (tick_pst d (props n p))), e)
      end
    else Some (n, (fun _ => []), []).

  (** components.rs:820-853 set_transition_options *)
  Definition with_options (s : pst) (o : option (transition_options E)) : pst :=
    mk_pst (computed s) (last_anim s) o (trans s) (serial s).
  Definition set_options_pst (new : option (transition_options E)) (s : pst) : pst * tevents :=
    match t_opts s, new, trans s with
    | Some _, None, Some (k, x) =>
        if t_is_active x then (with_options (with_trans s (Some (k, t_cancel x))) None, [(EvCanceled, k)])
        else (with_options s None, [])
    | _, _, _ => (with_options s new, [])
    end.

  (** components.rs:600-687 create_transitions; [anim] says that the value type is animatable *)
  Definition create_pst (anim : bool) (pending : cvalue V) (s : pst) : option (pst * tevents) :=
    match t_opts s, computed s, pending with
    | Some o, CVal from, CVal to =>
        if veq from to then Some (s, [])
        else if negb anim then Some (s, [])
        else match trans s with
        | Some (k, x) =>
            match from_possibly_reversed op veq interp ease vdefault (Some from) to o x with
            | None => None
            | Some y => Some (mk_pst (CVal to) (last_anim s) (Some o) (Some (serial s, y)) (S (serial s)), [(EvReplaced, k)])
            end
        | None =>
            let y := new_transition op interp vdefault (Some from) to o in
            Some (mk_pst (CVal to) (CVal (t_from y)) (Some o) (Some (serial s, y)) (S (serial s)), [])
        end
    | _, _, _ => Some (s, [])
    end.

  (** components.rs:855-936 set_animations *)
  Definition config := (nat * options)%type.
  Definition cancel_missing (configs : list config) (m : anim_map) : anim_map :=
    map (fun e => if existsb (fun c => Nat.eqb (fst c) (fst e)) configs then e
                  else (fst e, map (fun pa => (fst pa, (cancel (fst (snd pa)), snd (snd pa)))) (snd e))) m.
  Definition cancel_events (configs : list config) (m : anim_map) : list (animation_event * nat * nat) :=
    flat_map (fun e => if existsb (fun c => Nat.eqb (fst c) (fst e)) configs then []
                       else map (fun pa => (AnCanceled, fst e, fst pa)) (snd e)) m.
  Definition is_canceled (a : animation) : bool := match state a with Canceled => true | _ => false end.
  Fixpoint traverse {A B} (f : A -> option B) (l : list A) : option (list B) :=
    match l with [] => Some [] | x :: l => match f x, traverse f l with Some y, Some r => Some (y :: r) | _, _ => None end end.
  (** one iteration of 879-933; [resolve]: the keyframes of the animation per property, if it exists *)
  Definition set_vec (resolve : config -> option (list (nat * K))) (c : config) (l : list (nat * (animation * K)))
    : option (list (nat * (animation * K))) :=
    let l := if forallb (fun pa => is_canceled (fst (snd pa))) l then [] else l in
    match l with
    | [] => match resolve c with
            | None => Some []
            | Some ks => traverse (fun pk => option_map (fun a => (fst pk, (a, snd pk))) (new_animation fuel (snd c)))
                           (filter (fun pk => animatable (fst pk)) ks)
            end
    | _ => traverse (fun pa => option_map (fun a => (fst pa, (a, snd (snd pa)))) (update_options fuel (snd c) (fst (snd pa)))) l
    end.
  Fixpoint set_config (resolve : config -> option (list (nat * K))) (c : config) (m : anim_map) : option anim_map :=
    match m with
    | [] => option_map (fun l => [(fst c, l)]) (set_vec resolve c [])
    | (name, l) :: m' =>
        if Nat.eqb (fst c) name then option_map (fun l' => (name, l') :: m') (set_vec resolve c l)
        else option_map (cons (name, l)) (set_config resolve c m')
    end.
  Fixpoint set_configs (resolve : config -> option (list (nat * K))) (cs : list config) (m : anim_map) : option anim_map :=
    match cs with [] => Some m | c :: cs => match set_config resolve c m with Some m' => set_configs resolve cs m' | None => None end end.
  Definition set_animations (resolve : config -> option (list (nat * K))) (cs : list config) (m : anim_map) : option anim_map :=
    set_configs resolve cs (cancel_missing cs m).

  (** components.rs:703-734 apply_transitions_and_animations *)
  Definition of_option (o : option V) : cvalue V := match o with Some v => CVal v | None => CNone end.
  Definition trans_value (s : pst) : cvalue V :=
    match trans s with
    | Some (_, x) => if t_is_active x then of_option (t_sample_value op interp ease x) else CVal (t_to x)
    | None => CNone
    end.
  Definition flat (m : anim_map) : list (nat * (animation * K)) := flat_map snd m.
  Definition override (p : nat) (acc : cvalue V) (pa : nat * (animation * K)) : cvalue V :=
    if Nat.eqb (fst pa) p then match asample (snd (snd pa)) (fst (snd pa)) with Some v => CVal v | None => acc end else acc.
  Definition anim_value (n : node) (p : nat) : cvalue V := fold_left (override p) (flat (anims n)) (trans_value (props n p)).

  (** components.rs:747-818 apply_computed_properties, one property: the value passed to one of the two
      callbacks ([CVal]: apply_change_fn, [CNone]: invalid_property_value_fn), if any *)
  Definition or_else (a b : cvalue V) : cvalue V := match a with CVal v => CVal v | CNone => b end.
  Definition new_value (pending computed panim lanim : cvalue V) : option (cvalue V) :=
    let last_computed := computed in
    let nv := if ceqb veq computed pending then None else Some pending in
    let computed := pending in
    if is_value panim then
      (if ceqb veq panim (or_else lanim last_computed) then None else Some panim)
    else if negb (ceqb veq panim lanim) then
      (if ceqb veq computed lanim then None else Some computed)
    else nv.

  (** One frame (plugin schedule, lib.rs).  [f_restyle]: the node was matched again, with these transition
      options; [f_pending]: the values computed by ComputeProperties, if it ran; [f_configs]: new animation
      configurations with their keyframes. *)
  Record frame_input := mk_frame_input {
    f_reset : bool; f_delta : N; f_restyle : option (nat -> option (transition_options E));
    f_pending : option (nat -> cvalue V); f_configs : option (list config * (config -> option (list (nat * K))));
    f_arrange : anim_map -> anim_map }.
  Record frame_output := mk_out { o_node : node; o_writes : nat -> option V; o_events : nat -> tevents; o_anim_events : list (animation_event * nat * nat) }.

  Definition options_step (f : frame_input) (n : node) : node * (nat -> tevents) :=
    match f_restyle f with
    | None => (n, fun _ => [])
    | Some new => (mk_nodep (fun p => fst (set_options_pst (new p) (props n p))) (anims n),
                   fun p => snd (set_options_pst (new p) (props n p)))
    end.
  Definition create_step (pending : nat -> cvalue V) (n : node) : option (node * (nat -> tevents)) :=
    let r p := create_pst (animatable p) (pending p) (props n p) in
    if forallb (fun p => match r p with Some _ => true | None => false end) (seq 0 np)
    then Some (mk_nodep (fun p => match r p with Some (s, _) => s | None => props n p end) (anims n),
               fun p => match r p with Some (_, e) => e | None => [] end)
    else None.
  Definition animations_step (f : frame_input) (n : node) : option (node * list (animation_event * nat * nat)) :=
    match f_configs f with
    | None => Some (n, [])
    | Some (cs, resolve) =>
        match set_animations resolve cs (anims n) with
        | None => None
        | Some m => Some (mk_nodep (props n) (f_arrange f m), cancel_events cs (anims n))
        end
    end.
  Definition apply_step (pending : nat -> cvalue V) (n : node) : node * (nat -> option V) :=
    let panim := anim_value n in
    (mk_nodep (fun p => let s := props n p in mk_pst (pending p) (panim p) (t_opts s) (trans s) (serial s)) (anims n),
     fun p => match new_value (pending p) (computed (props n p)) (panim p) (last_anim (props n p)) with
              | Some (CVal v) => Some v | _ => None end).

  Definition frame (f : frame_input) (n0 : node) : option frame_output :=
    let n1 := if f_reset f then reset n0 else n0 in
    match tick_node (f_delta f) n1 with
    | None => None
    | Some (n2, ev1, aev1) =>
        let '(n3, ev2) := options_step f n2 in
        let pending p := match f_pending f with Some c => c p | None => computed (props n3 p) end in
        match create_step pending n3 with
        | None => None
        | Some (n4, ev3) =>
            match animations_step f n4 with
            | None => None
            | Some (n5, aev2) =>
                let '(n6, writes) := apply_step pending n5 in
                Some (mk_out n6 writes (fun p => ev1 p ++ ev2 p ++ ev3 p) (aev1 ++ aev2))
            end
        end
    end.
End Node.
Arguments mk_pst {F V E}. Arguments mk_nodep {F V E K}. Arguments mk_frame_input {V E K}.
Arguments pst : clear implicits. Arguments node : clear implicits. Arguments frame_input : clear implicits. Arguments frame_output : clear implicits.
Arguments o_node {F V E K}. Arguments o_writes {F V E K}. Arguments o_events {F V E K}. Arguments o_anim_events {F V E K}.
Arguments f_reset {V E K}. Arguments f_delta {V E K}. Arguments f_restyle {V E K}. Arguments f_pending {V E K}. Arguments f_configs {V E K}. Arguments f_arrange {V E K}.

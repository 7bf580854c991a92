(** Model of how the animations that the style declares get to play: crates/bevy_flair_style/src/systems.rs:893-905
    (set_property_values), 937-990 (resolve_animations), components.rs:459-460, 931, 938-957.  The animations themselves are
    those of NodeProps.v; this file adds which keyframes they are given, and when.

    Simplified: what the rules declare ([declared], C69/C80 for what that is) and what resolving keyframes gives ([keyframes],
    C69) in a frame are given per frame; the second depends on the custom properties and the computed values of that frame.
    The pending configurations never outlive a frame, because both systems see the same assets, and are left out.  If one
    name is declared twice, the timing function of its first declaration is taken, as the code does. *)
From Coq Require Import NArith.
From Verif Require Import Base Inherit Animation Transition NodeProps.

Section Flow.
  Context {F V E K T : Type} (op : fops F) (veq : forall a b : V, {a = b} + {a <> b}).
  Variables (interp : V -> V -> F -> V) (ease : E -> F -> F) (vdefault : V) (asample : K -> animation -> option V).
  Variables (np : nat) (animatable : nat -> bool) (fuel : nat).

  (** animations/properties.rs:391-400 AnimationConfiguration; [T]: timing functions *)
  Record declared_animation := mkdeclared { d_name : nat; d_timing : T; d_options : options }.
  (** equality of configurations (derived PartialEq) *)
  Variable same : list declared_animation -> list declared_animation -> bool.

  Record flow_input := mkinput {
    i_frame : frame_input V E K;         (* reset, time, transitions and computed values; its configurations are not used *)
    i_marked : bool;                     (* the node is marked for recalculation *)
    i_loaded : bool;                     (* its style sheet is loaded *)
    i_declared : list declared_animation;(* what the matching rules declare *)
    i_keyframes : nat -> T -> option (list (nat * K)) (* the keyframes of a name with a default timing function, resolved now *) }.
  Record flow := mkflow { fl_node : node F V E K; fl_current : list declared_animation }.

  Definition timing_of (cs : list declared_animation) (name : nat) : option T :=
    option_map d_timing (find (fun c => Nat.eqb (d_name c) name) cs).
  Definition stripped (cs : list declared_animation) : list config := map (fun c => (d_name c, d_options c)) cs.
  (** systems.rs:965-978 resolve_animation *)
  Definition resolver (i : flow_input) (c : config) : option (list (nat * K)) :=
    match timing_of (i_declared i) (fst c) with Some t => i_keyframes i (fst c) t | None => None end.
  (** systems.rs:39-51 reset_properties: a reset node is recalculated *)
  Definition recalculated (i : flow_input) : bool := (i_marked i || f_reset (i_frame i)) && i_loaded i.
  Definition with_configs (f : frame_input V E K) (c : option (list config * (config -> option (list (nat * K))))) : frame_input V E K :=
    mk_frame_input (f_reset f) (f_delta f) (f_restyle f) (f_pending f) c (f_arrange f).
  Definition flow_step (i : flow_input) (s : flow) : option flow :=
    let cur := if f_reset (i_frame i) then [] else fl_current s in
    let change := recalculated i && negb (same (i_declared i) cur) in
    match frame op veq interp ease vdefault asample np animatable fuel
            (with_configs (i_frame i) (if change then Some (stripped (i_declared i), resolver i) else None)) (fl_node s) with
    | None => None
    | Some out => Some (mkflow (o_node out) (if change then i_declared i else cur))
    end.
  Fixpoint flow_run (h : list flow_input) (s : flow) : option flow :=
    match h with [] => Some s | i :: h => match flow_step i s with Some s' => flow_run h s' | None => None end end.
End Flow.
Arguments mkdeclared {T}. Arguments d_name {T}. Arguments d_timing {T}. Arguments d_options {T}. Arguments declared_animation : clear implicits.
Arguments mkinput {V E K T}. Arguments i_frame {V E K T}. Arguments i_marked {V E K T}. Arguments i_loaded {V E K T}. Arguments i_declared {V E K T}. Arguments i_keyframes {V E K T}. Arguments flow_input : clear implicits.
Arguments mkflow {F V E K T}. Arguments fl_node {F V E K T}. Arguments fl_current {F V E K T}. Arguments flow : clear implicits.

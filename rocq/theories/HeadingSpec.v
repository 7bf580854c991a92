(** Which histories C106 is about. *)
From Coq Require Import NArith.
From Verif Require Import Base Inherit Animation Transition NodeProps NodePropsSpec.

Section Spec.
  Context {F V E K : Type} (op : fops F) (veq : forall a b : V, {a = b} + {a <> b}).
  Variables (interp : V -> V -> F -> V) (ease : E -> F -> F) (vdefault : V).
  Variable asample : K -> animation -> option V.
  Variables (np : nat) (animatable : nat -> bool) (fuel : nat).
  Notation node := (node F V E K).
  Notation frame_input := (frame_input V E K).
  (** The style of a property that has a value does not lose it in the frame [f], unless the node is reset. *)
  Definition keeps_value (f : frame_input) (n : node) (p : nat) : Prop :=
    f_reset f = true \/ computed (props n p) = CNone \/ (forall pend, f_pending f = Some pend -> pend p <> CNone).
  Fixpoint values_stay (p : nat) (fs : list frame_input) (w : world F V E K) : Prop :=
    match fs with
    | [] => True
    | f :: fs => keeps_value f (w_node w) p /\
                 forall w', frame_world op veq interp ease vdefault asample np animatable fuel f w = Some w' -> values_stay p fs w'
    end.
  (** The transition of [p] that is under way in [n], if any, ends at [v]. *)
  Definition heads_for (n : node) (p : nat) (v : V) : Prop :=
    forall i x, trans (props n p) = Some (i, x) -> t_is_active x = true -> t_to x = v.
End Spec.

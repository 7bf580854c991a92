(** What it means that a node plays the animations its style declares. *)
From Coq Require Import NArith Permutation.
From Verif Require Import Base Inherit Animation Transition NodeProps NodeAnimsSpec AnimFlow.

Section Spec.
  Context {F V E K T : Type}.
  (** The declared animations change only in frames that find the node marked or reset and its sheet loaded (C35, C81-C84 say when
      that is so); a reset node has none until its sheet is loaded. *)
  Fixpoint honest (before : list (declared_animation T)) (h : list (flow_input V E K T)) : Prop :=
    match h with
    | [] => True
    | i :: h => (i_loaded i = false \/ (i_marked i = false /\ f_reset (i_frame i) = false) -> i_declared i = if f_reset (i_frame i) then [] else before) /\ honest (i_declared i) h
    end.
  Definition names (cs : list (declared_animation T)) : list nat := map d_name cs.
  (** No name is declared twice, and the order of the hash map is any order. *)
  Definition tidy (i : flow_input V E K T) : Prop :=
    NoDup (names (i_declared i)) /\ forall m, Permutation (f_arrange (i_frame i) m) m.
  Definition last_declared (h : list (flow_input V E K T)) : list (declared_animation T) :=
    match rev h with [] => [] | i :: _ => i_declared i end.
  (** The node plays [ks], keyframes of properties, under [name]: none of these animations is cancelled. *)
  Definition plays (s : flow F V E K T) (name : nat) (ks : list (nat * K)) : Prop :=
    map (fun pa => (fst pa, snd (snd pa))) (of_name (anims (fl_node s)) name) = ks /\
    Forall (fun pa => state (fst (snd pa)) <> Canceled) (of_name (anims (fl_node s)) name).
  (** It plays nothing under [name]. *)
  Definition silent (s : flow F V E K T) (name : nat) : Prop :=
    Forall (fun pa => state (fst (snd pa)) = Canceled) (of_name (anims (fl_node s)) name).
  (** What the style sheet and the custom properties give for [name] in a frame. *)
  Definition given_now (i : flow_input V E K T) (name : nat) : option (list (nat * K)) :=
    match timing_of (i_declared i) name with Some t => i_keyframes i name t | None => None end.
  (** a node that has just been spawned *)
  Definition fresh_node : flow F V E K T := mkflow (mk_nodep (fun _ => mk_pst CNone CNone None None 0) []) [].
End Spec.

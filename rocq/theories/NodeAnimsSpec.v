(** Specification vocabulary for the animations of a node (changes of `animation-name`). *)
From Verif Require Import Base Animation NodeProps.

(** the animations of a node that belong to the animation called [name]: (property, (animation, keyframes)) *)
Definition of_name {K} (m : anim_map (K := K)) (name : nat) : list (nat * (animation * K)) :=
  flat_map snd (filter (fun e => Nat.eqb (fst e) name) m).
(** a hash map has every key once *)
Definition is_map {K} (m : anim_map (K := K)) : Prop := NoDup (map fst m).

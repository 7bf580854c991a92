(** The orders in which the scheduler may run the systems. *)
From Coq Require Import Permutation.
From Verif Require Import Base Schedule.
(** every system once, none before one that has to precede it *)
Definition allowed (l : list system) : Prop := Permutation systems l /\ forall a x b y c, l = a ++ x :: b ++ y :: c -> before y x = false.
From Coq Require Import NArith.
(** No node has its Interaction changed in the same frame as Pressed or Hovered. *)
Definition single_source {k} (b : behaviour k) (e : KExt k) : Prop := N.land (b_interaction_touch k b e) (N.lor (b_pressed_touch k b e) (b_hovered_touch k b e)) = 0%N.
(** Equal, but for the flag any_animation_active, which is private to the plugin and which nothing reads. *)
Definition same {k} (w w' : world k) : Prop := put_active false w = put_active false w'.

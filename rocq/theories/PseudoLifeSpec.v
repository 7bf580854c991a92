(** What pseudo-elements and type names should be: C113. *)
From Verif Require Import Base Siblings PseudoLife.

Definition textual (x : ent) : bool := e_text x || e_span x.
Definition styled (b : bundle) : bool := b_node b || b_text b || b_span b.
(** [c] is the pseudo-element [k] of the entity [x]: a TextSpan in a text, else a hidden Node, and selectors see it as [k] *)
Definition made (s : state) (x : ent) (k : pseudo) (c : nat) : Prop :=
  exists y, ents s c = Some y /\ e_pseudo y = Some k /\ e_data y = Some (e_type y, Some k) /\
    if textual x then e_span y = true /\ e_node y = false else e_node y = true /\ e_hidden y = true /\ e_span y = false /\ e_text y = false.
Definition pseudo_right (s : state) : Prop := forall e x, ents s e = Some x ->
  (e_support x = true -> exists b others a, kids s e = b :: others ++ [a] /\ made s x Before b /\ made s x After a /\ forall o, In o others -> kind s o = None) /\
  (e_support x = false -> forall o, In o (kids s e) -> kind s o = None).
(** selectors see the TypeName and the PseudoElement that the entity has *)
Definition data_right (s : state) : Prop := forall e x, ents s e = Some x ->
  match e_data x with Some (n, k) => n = e_type x /\ k = e_pseudo x | None => e_type x = None /\ e_pseudo x = None end.

(** ** What an application does: it leaves pseudo-elements alone, *)
Definition ordinary (s : state) (e : nat) : Prop := exists x, ents s e = Some x /\ e_pseudo x = None.
Definition allowed (x : ent) (b : bundle) : Prop :=
  e_pseudo x = None /\ b_pseudo b = None /\
  (** gives support once, to a Node or text (C113_support_again_refuted, C113_support_first_refuted), *)
  (b_support b = true -> e_support x = false /\ (e_node x = true \/ textual x = true \/ styled b = true)) /\
  (** which does not become a text later (C113_text_later_refuted), *)
  (e_support x = true -> b_text b || b_span b = true -> textual x = true) /\
  (** and one type name, to an entity with a Node or text (C113_type_again_refuted, C113_type_first_refuted) *)
  (b_type b <> None -> e_type x = None) /\ (b_type b <> None \/ b_named b <> None -> e_data x <> None \/ styled b = true).
Definition allowed_op (s : state) (o : op) : Prop :=
  match o with
  | Spawn par b => match par with Some p => ents s p <> None | None => True end /\ allowed bare b
  | Insert e b => exists x, ents s e = Some x /\ allowed x b
  | Move e p => ordinary s e /\ ents s p <> None
  | Despawn e => ordinary s e
  | DropSupport _ | DropType _ => False (* C113_support_removed_refuted, C113_type_again_refuted *)
  | Frame => True
  end.
Fixpoint allowed_all (s : state) (l : list op) : Prop := match l with [] => True | o :: l => allowed_op s o /\ forall s', run s o = Some s' -> allowed_all s' l end.

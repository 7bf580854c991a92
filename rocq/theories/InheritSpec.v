(** Specification: CSS-wide keywords and inheritance, from scratch. *)
From Verif Require Import Base Inherit.

Section Spec.
  Context {V : Type}.

  (** What a declared value means: [parent = None] at a root. *)
  Inductive means (unset : pvalue V) (initial : V) (parent : option (cvalue V)) : pvalue V -> cvalue V -> Prop :=
  | M_nothing : means unset initial parent PNone CNone
  | M_inherit : forall c, parent = Some c -> means unset initial parent PInherit c
  | M_inherit_root : parent = None -> means unset initial parent PInherit CNone
  | M_initial : means unset initial parent PInitial (CVal initial)
  | M_value : forall v, means unset initial parent (PVal v) (CVal v)
  | M_unset : forall c, unset <> PUnset -> means unset initial parent unset c -> means unset initial parent PUnset c.

  (** The computed value of property [p] at node [n] of a tree, from the declared values alone.  Nodes
      without a style sheet ([declared n = None]) have no computed values. *)
  Inductive value_at (parent : nat -> option nat) (declared : nat -> option (nat -> pvalue V))
      (unset : nat -> pvalue V) (initial : nat -> V) (p : nat) : nat -> cvalue V -> Prop :=
  | at_unstyled : forall n, declared n = None -> value_at parent declared unset initial p n CNone
  | at_root : forall n d c, declared n = Some d -> parent n = None -> means (unset p) (initial p) None (d p) c ->
      value_at parent declared unset initial p n c
  | at_child : forall n d m cm c, declared n = Some d -> parent n = Some m ->
      value_at parent declared unset initial p m cm -> means (unset p) (initial p) (Some cm) (d p) c ->
      value_at parent declared unset initial p n c.

  (** The visiting order of a frame: every node once, after its parent, with its parent. *)
  Definition tree_order (parent : nat -> option nat) (visits : list (option nat * nat)) : Prop :=
    NoDup (map snd visits) /\
    forall l1 pm n l2, visits = l1 ++ (pm, n) :: l2 -> parent n = pm /\ (forall m, pm = Some m -> In m (map snd l1)).

  (** The declared values after a frame. *)
  Definition declared_after (f : frame V) (declared : nat -> option (nat -> pvalue V)) : nat -> option (nat -> pvalue V) :=
    fun n => match f_style f n with Some (d, _) => Some d | None => if f_reset f n then None else declared n end.

  (** Histories.  Each step gives the frame, the tree and the declared values. *)
  Record moment := mk_moment { at_frame : frame V; at_parent : nat -> option nat; at_declared : nat -> option (nat -> pvalue V) }.
  Definition before_start : moment := mk_moment (mk_frame (fun _ => false) (fun _ => None) []) (fun _ => None) (fun _ => None).

  (** What the rest of the plugin ensures about a frame that follows another one:
      - spawned nodes are reset (systems.rs:39-51);
      - nodes with a new parent are restyled if they have a style sheet (systems.rs:238-262 touches
        NodeStyleData, 515-517 marks them);
      and the two conditions needed for incremental inheritance:
      - when a node is reset, its styled children are restyled too;
      - no property inherited by default is declared [unset] explicitly. *)
  Definition follows (unset : nat -> pvalue V) (a b : moment) : Prop :=
    let f := at_frame b in
    tree_order (at_parent b) (f_visits f) /\
    at_declared b = declared_after f (at_declared a) /\
    (forall n, In n (map snd (f_visits f)) -> ~ In n (map snd (f_visits (at_frame a))) -> f_reset f n = true) /\
    (forall n, In n (map snd (f_visits f)) -> f_reset f n = false -> at_parent b n <> at_parent a n -> f_style f n <> None \/ at_declared b n = None) /\
    (forall n m, In n (map snd (f_visits f)) -> at_parent b n = Some m -> f_reset f m = true -> f_style f n <> None \/ at_declared b n = None) /\
    (forall n d p, at_declared b n = Some d -> d p = PUnset -> unset p <> PInherit).

  Fixpoint history (unset : nat -> pvalue V) (a : moment) (hs : list moment) : Prop :=
    match hs with [] => True | b :: r => follows unset a b /\ history unset b r end.
End Spec.
Arguments moment : clear implicits.

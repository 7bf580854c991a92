(** Model of CSS-wide keywords and of the incremental computation of values over the UI tree.
    crates/bevy_flair_core/src/property_value.rs and, for the tree,
    crates/bevy_flair_style/src/components.rs:509-700, systems.rs:916-1083.

    Property maps are functions from property ids below [np] (justified by C12).  What the code
    observes of the sharing of maps ([ptr_eq]) is tracked exactly by two booleans per node. *)
From Verif Require Import Base.

(** property_value.rs:19-32 PropertyValue; 113-120 ComputedValue *)
Inductive pvalue (V : Type) := PNone | PUnset | PInherit | PInitial | PVal (v : V).
Inductive cvalue (V : Type) := CNone | CVal (v : V).
Arguments PNone {V}. Arguments PUnset {V}. Arguments PInherit {V}. Arguments PInitial {V}. Arguments PVal {V}.
Arguments CNone {V}. Arguments CVal {V}.

Section Inherit.
  Context {V : Type} (veq : forall a b : V, {a = b} + {a <> b}).

  (** property_value.rs:58-79 compute_internal ([None] = the [unreachable!] panic).  The code calls
      itself once, with [unset_value = None]. *)
  Definition compute_resolved (self : pvalue V) (initial : V) (parent : option (cvalue V)) : option (cvalue V) :=
    match self, parent with
    | PNone, _ => Some CNone
    | PUnset, _ => None
    | PInherit, Some p => Some p
    | PInherit, None => Some CNone
    | PInitial, _ => Some (CVal initial)
    | PVal v, _ => Some (CVal v)
    end.
  Definition compute_internal (self : pvalue V) (unset : pvalue V) (initial : V) (parent : option (cvalue V)) : option (cvalue V) :=
    match self with
    | PUnset => compute_resolved unset initial parent
    | _ => compute_resolved self initial parent
    end.
  (** property_value.rs:82-93, 96-102 *)
  Definition compute_with_parent (self unset : pvalue V) (initial : V) (parent : cvalue V) := compute_internal self unset initial (Some parent).
  Definition compute_as_root (self unset : pvalue V) (initial : V) := compute_internal self unset initial None.

  Definition ceqb (a b : cvalue V) : bool :=
    match a, b with CNone, CNone => true | CVal x, CVal y => if veq x y then true else false | _, _ => false end.
  Definition is_value (a : cvalue V) : bool := match a with CVal _ => true | CNone => false end.

  (** The registry: number of properties, unset and initial values (components.rs:403-412 StaticPropertyMaps) *)
  Variables (np : nat) (unset : nat -> pvalue V) (initial : nat -> V).
  Definition pids : list nat := seq 0 np.

  (** The part of NodeProperties (components.rs:434-457) the computation uses.
      [values = None]: [property_values] is the empty map (never styled since the last reset);
      [new_values]: [pending_property_values] ([None] = empty).
      [is_static]: [computed_values] is a clone of [StaticPropertyMaps::empty_computed];
      [same]: [pending_computed_values.ptr_eq(&computed_values)].
      [can_transition p]: [p] has transition options and an animatable type. *)
  Record node := mk_node {
    values : option (nat -> pvalue V); new_values : option (nat -> pvalue V);
    computed : nat -> cvalue V; is_static : bool; pending : nat -> cvalue V; same : bool;
    can_transition : nat -> bool }.

  Definition total_compute (d : pvalue V) (p : nat) (par : option (cvalue V)) : cvalue V :=
    match compute_internal d (unset p) (initial p) par with Some c => c | None => CNone end.

  (** components.rs:509-540 compute_pending_property_values_for_root and 542-596
      compute_pending_property_values_with_parent: the pending values and whether they still share
      the allocation of [computed_values] *)
  Definition pending_values (par : option node) (n : node) : (nat -> cvalue V) * bool :=
    match new_values n with
    | None =>
        let pend p :=
          match par, values n with
          | Some pa, Some d => if same pa then computed n p else match d p with PInherit => pending pa p | _ => computed n p end
          | _, _ => computed n p
          end in
        (pend, forallb (fun p => ceqb (pend p) (computed n p)) pids)
    | Some d =>
        let pend p := total_compute (d p) p (option_map (fun pa => pending pa p) par) in
        (pend, is_static n && forallb (fun p => negb (is_value (pend p))) pids)
    end.

  (** components.rs:598-640 create_transitions, its effect on [computed_values]: the new value is
      recorded at once where a transition takes over *)
  Definition takes_over (n : node) (pend : nat -> cvalue V) (p : nat) : bool :=
    can_transition n p && is_value (computed n p) && is_value (pend p) && negb (ceqb (computed n p) (pend p)).

  Definition compute_node (par : option node) (n : node) : node :=
    let (pend, shared) := pending_values par n in
    let wrote := existsb (takes_over n pend) pids in
    mk_node (match new_values n with Some d => Some d | None => values n end) None
      (fun p => if takes_over n pend p then pend p else computed n p)
      (is_static n && negb wrote) pend (shared && negb wrote) (can_transition n).

  (** systems.rs:1013-1020 set_pending_compute_property_values *)
  Definition keep_node (n : node) : node :=
    mk_node (values n) (new_values n) (computed n) (is_static n) (computed n) true (can_transition n).

  (** components.rs:747-818 apply_computed_properties, its effect on [computed_values]; not run when
      the maps are shared and no animation value changed (systems.rs:929-937, 1206-1213) *)
  Definition apply_node (n : node) : node :=
    if same n then n
    else mk_node (values n) (new_values n) (pending n)
           (is_static n && forallb (fun p => ceqb (pending n p) (computed n p)) pids) (pending n) (same n) (can_transition n).

  (** components.rs:937-957 reset *)
  Definition reset_node (n : node) : node :=
    mk_node None None (fun _ => CNone) true (fun _ => CNone) false (fun _ => false).
  (** systems.rs:841-914 set_property_values *)
  Definition restyle_node (d : nat -> pvalue V) (t : nat -> bool) (n : node) : node :=
    mk_node (values n) (Some d) (computed n) (is_static n) (pending n) (same n) t.

  (** A frame: which nodes are reset, which are given new declared values (and transition options), and
      the order in which compute_property_values visits the tree (root first, then (parent, child)
      pairs, custom_iterators.rs; see C34). *)
  Record frame := mk_frame {
    f_reset : nat -> bool; f_style : nat -> option ((nat -> pvalue V) * (nat -> bool)); f_visits : list (option nat * nat) }.

  Definition world := nat -> node.
  Definition begin_frame (f : frame) (w : world) : world := fun n =>
    let x := if f_reset f n then reset_node (w n) else w n in
    match f_style f n with Some (d, t) => restyle_node d t x | None => x end.

  Definition set_world (w : world) (n : nat) (x : node) : world := fun m => if Nat.eqb m n then x else w m.
  (** systems.rs:1057-1081 *)
  Definition visit (w : world) (v : option nat * nat) : world :=
    set_world w (snd v) (compute_node (option_map w (fst v)) (w (snd v))).

  (** systems.rs:425-443 (lib.rs): compute_property_values if some node was restyled (systems.rs:916-920,
      886: the comparison is against the empty map, so any restyling counts), then apply *)
  Definition restyled (f : frame) : bool :=
    existsb (fun v => match f_style f (snd v) with Some _ => true | None => false end) (f_visits f).
  Definition run_frame (f : frame) (w : world) : world :=
    let w1 := begin_frame f w in
    let w2 := if restyled f then fold_left visit (f_visits f) w1 else fun n => keep_node (w1 n) in
    fun n => apply_node (w2 n).
End Inherit.
Arguments node : clear implicits.
Arguments frame : clear implicits.
Arguments world : clear implicits.

(** systems.rs:1057-1068: the order of the visits, over the roots of the UI tree *)
From Verif Require Import Tree.
Fixpoint visits_of (w : forest) (fuel : nat) (roots : list nat) : option (list (option nat * nat)) :=
  match roots with
  | [] => Some []
  | r :: rs =>
      match iter_ui_descendants_with_parent w fuel r, visits_of w fuel rs with
      | Some l, Some vs => Some ((None, r) :: map (fun v => (Some (fst v), snd v)) l ++ vs)
      | _, _ => None
      end
  end.

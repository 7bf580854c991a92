(** What the components of styled nodes should show: C87. *)
From Verif Require Import Base Tree TreeSpec Vars VarsSpec.
From Verif Require VarFlow VarFlowSpec Inherit InheritSpec.
From Verif Require Import Pipeline.

Section Spec.
  Context {V : Type} (initial : nat -> V) (decode : nat -> Inherit.pvalue V) (unset_code : nat -> nat).
  Notation unset := (fun p => decode (unset_code p)).
  (** The value of property [p] at node [n]: the last matching declaration that gives it one, with the custom properties the node sees
      (VarFlowSpec.v), computed from the value of the parent (InheritSpec.v).  Nodes without a loaded sheet have none. *)
  Definition declares (f : VarFlow.frame) (p n : nat) (d : Inherit.pvalue V) : Prop :=
    exists c r v, VarFlow.f_sheet f n = Some c /\ VarFlowSpec.sees f n r /\ VarFlowSpec.value_of r (VarFlowSpec.declarations f c n) (unset_code p) p v /\ d = decode v.
  Inductive css_value (f : VarFlow.frame) (p : nat) : nat -> Inherit.cvalue V -> Prop :=
  | cv_unstyled n : VarFlow.f_sheet f n = None -> css_value f p n Inherit.CNone
  | cv_root n d c : parent (VarFlow.f_forest f) n = None -> declares f p n d -> InheritSpec.means (unset p) (initial p) None d c -> css_value f p n c
  | cv_child n m d cm c : parent (VarFlow.f_forest f) n = Some m -> css_value f p m cm -> declares f p n d -> InheritSpec.means (unset p) (initial p) (Some cm) d c -> css_value f p n c.

  (** ** Histories *)
  (** everything that happens to a node is noticed (VarFlowSpec.v), with these exceptions excluded: *)
  Definition well_behaved (nodes : list nat) (f : frame) : Prop :=
    let w := VarFlow.f_forest (p_flow f) in
    wf_forest w /\ NoDup (p_alive f) /\ VarFlowSpec.in_nodes (p_alive f) w /\ (forall n, In n (p_alive f) -> In n nodes) /\ (forall n, VarFlow.f_sheet (p_flow f) n <> None -> In n (p_alive f)) /\
    (** no declaration says `unset` for a property that is inherited by default (C14_explicit_unset_refuted) *)
    (forall n c r d p v, VarFlow.f_sheet (p_flow f) n = Some c -> VarFlowSpec.sees (p_flow f) n r -> In d (VarFlowSpec.declarations (p_flow f) c n) -> VarFlowSpec.gives r d p v -> decode v = Inherit.PUnset -> unset p <> Inherit.PInherit) /\
    (** below a node that is reset, nodes are noticed (C14_reset_parent_refuted) *)
    (forall n m, parent w n = Some m -> VarFlow.f_modified (p_flow f) m = true \/ p_reset f m = true -> p_reset f n = true \/ VarFlowSpec.noticed (p_flow f) n).
  Definition goes_on (f0 f : frame) : Prop :=
    VarFlowSpec.reported (p_flow f0) (flow_frame f) /\
    (** C84_moved_subtree_refuted, C84_lost_sheet_refuted, C84_other_sheet_below_refuted *)
    VarFlowSpec.moves_leaves (p_flow f0) (flow_frame f) /\ VarFlowSpec.keeps_sheets (p_flow f0) (flow_frame f) /\ VarFlowSpec.modifies_below (flow_frame f) /\
    (** new nodes are reset *)
    (forall n, In n (p_alive f) -> ~ In n (p_alive f0) -> p_reset f n = true).
  Fixpoint history (nodes : list nat) (f0 : frame) (fs : list frame) : Prop :=
    match fs with [] => True | f :: fs => well_behaved nodes f /\ goes_on f0 f /\ history nodes f fs end.
  Definition from_start (nodes : list nat) (fs : list frame) : Prop :=
    match fs with [] => True | f :: fs => well_behaved nodes f /\ (forall n, In n (p_alive f) -> p_reset f n = true) /\ history nodes f fs end.
End Spec.

(** Custom properties reach the nodes that use them: C84. *)
From Verif Require Import Base Tree TreeSpec Vars VarsSpec VarFlow.

(** ** What the properties of a node should be *)
(** the last entry of a list for a key *)
Definition last_entry {A} (l : list (nat * A)) (k : nat) (o : option A) : Prop :=
  match o with
  | Some v => exists l1 l2, l = l1 ++ (k, v) :: l2 /\ ~ In k (map fst l2)
  | None => ~ In k (map fst l)
  end.
(** the custom properties a node declares itself: its matching rules in cascade order, then its inline style *)
Definition declared (f : frame) (n : nat) : list (nat * toks) :=
  match f_sheet f n with Some c => flat_map (fun i => r_vars (c i)) (f_rules f n) ++ r_vars (f_inline f n) | None => [] end.
(** [r]: the custom properties a node sees, of the nearest node above (or at) it that declares them *)
Definition sees (f : frame) (n : nat) (r : env nat nat) : Prop :=
  exists own : nat -> env nat nat, (forall a k, last_entry (declared f a) k (own a k)) /\ forall v, nearest (f_forest f) own v n (r v).
(** a declaration gives property [p] the value [v] *)
Definition gives (r : env nat nat) (d : decl) (p v : nat) : Prop :=
  match d with
  | Specific q x => q = p /\ x = v
  | Dynamic parser ts => exists out k l, expands r ts out k /\ k < 8 /\ parser out = Some l /\ last_entry l p (Some v)
  end.
Definition declarations (f : frame) (c : sheet) (n : nat) : list decl := flat_map (fun i => r_props (c i)) (f_rules f n) ++ r_props (f_inline f n).
Definition value_of (r : env nat nat) (ds : list decl) (unset : nat) (p v : nat) : Prop :=
  (exists l1 d l2, ds = l1 ++ d :: l2 /\ gives r d p v /\ forall d', In d' l2 -> forall v', ~ gives r d' p v') \/
  ((forall d, In d ds -> forall v', ~ gives r d p v') /\ v = unset).
Definition up_to_date (unset : nat -> nat) (f : frame) (s : state) (n : nat) : Prop :=
  forall c, f_sheet f n = Some c -> exists r, sees f n r /\ forall p, value_of r (declarations f c n) (unset p) p (v_values s n p).

(** ** What change detection reports *)
Definition noticed (f : frame) (n : nat) : Prop := f_modified f n = true \/ f_changed f n = true \/ f_marked f n = true.
Definition in_nodes (nodes : list nat) (w : forest) : Prop := forall n p, parent w n = Some p -> In n nodes /\ In p nodes.
(** nodes that do not exist are not in the tree and have no style sheet *)
Definition nothing_gone (f : frame) : Prop :=
  (forall n p, parent (f_forest f) n = Some p -> f_gone f n = false /\ f_gone f p = false) /\ (forall n, f_sheet f n <> None -> f_gone f n = false).
(** A node that gets another parent has its data written (calculate_is_root, C81); inline styles are watched; when the rules that match
    change the node is marked (C35, C82, C83); a sheet that finishes loading says nothing; a change of a loaded sheet, or of the sheet
    of a node, is noticed at the nodes that have that sheet *)
Definition reported (f0 f : frame) : Prop := forall n, f_gone f n = false ->
  (f_changed f n = false -> parent (f_forest f) n = parent (f_forest f0) n /\ f_inline f n = f_inline f0 n) /\
  (~ noticed f n -> f_sheet f0 n <> None -> f_sheet f n = f_sheet f0 n /\ f_rules f n = f_rules f0 n).
(** the three cases where it goes wrong: a node is moved, and a node below it is not noticed; a node loses its sheet; a sheet is modified and
    a node below a node with that sheet, with another sheet, is not noticed *)
Definition moves_leaves (f0 f : frame) : Prop := forall n d, parent (f_forest f) n <> parent (f_forest f0) n -> descendant (f_forest f) n d -> noticed f d.
Definition keeps_sheets (f0 f : frame) : Prop := forall n, f_gone f n = false -> f_sheet f0 n <> None -> f_sheet f n <> None.
Definition modifies_below (f : frame) : Prop := forall n d, f_modified f n = true -> descendant (f_forest f) n d -> noticed f d.
Fixpoint history (nodes : list nat) (also : frame -> frame -> Prop) (f0 : frame) (fs : list frame) : Prop :=
  match fs with
  | [] => True
  | f :: fs => wf_forest (f_forest f) /\ in_nodes nodes (f_forest f) /\ nothing_gone f /\ reported f0 f /\ also f0 f /\ history nodes also f fs
  end.
(** the history of an application, from the start *)
Definition from_start (nodes : list nat) (also : frame -> frame -> Prop) (fs : list frame) : Prop :=
  match fs with [] => True | f :: fs => wf_forest (f_forest f) /\ in_nodes nodes (f_forest f) /\ nothing_gone f /\ history nodes also f fs end.

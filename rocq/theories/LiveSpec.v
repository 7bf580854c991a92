(** Which histories C105 is about.  What the components should show is in WholeSpec.v. *)
From Coq Require Import Ascii String NArith.
From Verif Require Import Base Tree TreeSpec Vars VarsSpec Siblings Media MediaSpec Invalidation InvalidationSpec Matching MatchingSpec Specificity SpecificitySpec Follow FollowSpec Cascade Whole WholeSpec Live.
From Verif Require VarFlow Inherit InheritSpec.
Open Scope list_scope.

Section Spec.
  Context {CN TP AP KN KF FF f32 V : Type}.
  Variables (feq fle fge : f32 -> f32 -> bool).
  Variables (resolve_name : CN -> option nat) (placeholder : nat -> nat).
  Notation dyn := ((list nat -> option (list (nat * nat))) * VarFlow.toks)%type.
  Notation builderT := (builder complex (media_selectors f32) nat VarFlow.toks CN nat dyn TP AP KN KF FF).
  Notation momentT := (moment CN TP AP KN KF FF f32).
  Variables (decode : nat -> Inherit.pvalue V) (unset_code : nat -> nat) (loaded : builderT -> Prop).

  (** the situation for WholeSpec.v: its [noticed] are the nodes about which something is reported *)
  Definition situation_of (m : momentT) : situation CN TP AP KN KF FF f32 :=
    mk_situation (l_world m) (l_sheet m) (l_inline m) (l_media m) (l_ratio m) (l_alive m) (l_modified m) (fun n => (l_data m n || l_style m n)%bool)
      (fun n => (l_marked m n || l_assigned m n)%bool) (l_reset m).
  Definition reported_node (m : momentT) (n : nat) : Prop := noticed (situation_of m) n.
  Definition marked_node (m : momentT) (n : nat) : Prop := l_marked m n = true \/ l_modified m n = true \/ l_assigned m n = true \/ l_reset m n = true.
  Definition selector_at (m : momentT) (n : nat) (s : complex) : Prop :=
    exists b sel id, l_sheet m n = Some b /\ loaded b /\ In (sel, id) (css_selectors_to_rulesets b) /\ s = selector sel.

  Definition live_sane (nodes : list nat) (m : momentT) : Prop :=
    let w := l_world m in
    sane resolve_name placeholder decode unset_code loaded nodes (situation_of m) /\
    (forall n, w_data w n <> None <-> In n (l_alive m)) /\
    (** the selectors of C104 *)
    (forall n s, selector_at m n s -> followed false s) /\
    ((forall n s, selector_at m n s -> ~ looks_sideways s) \/
     (forall n p, parent (w_tree w) n = Some p -> exists s, selector_at m p s /\ asks_first s)).
  (** [m] comes after [m0] *)
  Definition live_goes_on (m0 m : momentT) : Prop :=
    let w0 := l_world m0 in let w := l_world m in
    (** Bevy's change detection, and the systems that write style data (C79-C81); children that come, go or change places *)
    (forall n, In n (l_alive m) -> l_data m n = false -> w_data w n = w_data w0 n /\ parent (w_tree w) n = parent (w_tree w0) n) /\
    (forall n, In n (l_alive m) -> l_style m n = false -> l_inline m n = l_inline m0 n) /\
    (forall p, In p (l_alive m) -> l_children m p = false -> children (w_tree w) p = children (w_tree w0) p) /\
    (** the features of the window of a node (C82_moved_refuted) *)
    (forall n, In n (l_alive m) -> l_sheet m0 n <> None -> l_theme m n = false -> p_color_scheme _ (l_media m n) = p_color_scheme _ (l_media m0 n)) /\
    (forall n, In n (l_alive m) -> l_sheet m0 n <> None -> l_info m n = false ->
       l_ratio m n = l_ratio m0 n /\ p_resolution _ (l_media m n) = p_resolution _ (l_media m0 n) /\ p_width _ (l_media m n) = p_width _ (l_media m0 n) /\ p_height _ (l_media m n) = p_height _ (l_media m0 n)) /\
    (** loaded style sheets change with a mark, and are not taken away (C84_lost_sheet_refuted); that one arrives is not reported *)
    (forall n b, In n (l_alive m) -> l_sheet m0 n = Some b -> loaded b -> (exists b', l_sheet m n = Some b' /\ loaded b') /\ (l_sheet m n = Some b \/ marked_node m n)) /\
    (** a new style sheet comes for the whole tree (C35_sheet_change_refuted, C84_other_sheet_below_refuted) *)
    (forall a n, l_modified m a = true \/ l_assigned m a = true -> connected (w_tree w) a n -> marked_node m n) /\
    (** C84_moved_subtree_refuted *)
    (forall n d, parent (w_tree w) n <> parent (w_tree w0) n -> descendant (w_tree w) n d -> reported_node m d) /\
    (** new nodes are reset *)
    (forall n, In n (l_alive m) -> ~ In n (l_alive m0) -> l_reset m n = true).
  Fixpoint live_history (nodes : list nat) (m0 : momentT) (ms : list momentT) : Prop :=
    match ms with [] => True | m :: ms => live_sane nodes m /\ live_goes_on m0 m /\ live_history nodes m ms end.
  (** before the first frame there is nothing *)
  Definition nothing (ratio : nat -> f32) (media : nat -> provider f32) : momentT :=
    let no := fun _ : nat => false in
    mk_moment (mk_world {| children := fun _ => []; parent := fun _ => None |} (fun _ => None) (fun _ => None)) (fun _ => None) (fun _ => None) media ratio [] no no no no no no no no no no.
  Definition live_from_start (nodes : list nat) (ms : list momentT) : Prop :=
    match ms with [] => True | m :: _ => live_history nodes (nothing (l_ratio m) (l_media m)) ms end.
End Spec.

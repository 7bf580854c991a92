(** What the components should show, from the style sheets and the tree alone: C103. *)
From Coq Require Import Ascii String NArith.
From Verif Require Import Base Tree TreeSpec Vars VarsSpec Media MediaSpec Cascade Matching MatchingSpec Specificity SpecificitySpec Whole.
From Verif Require VarFlow VarFlowSpec Inherit InheritSpec.
Open Scope list_scope.

(** the last of a list that gives something *)
Definition last_that {X A} (G : X -> A -> Prop) (l : list X) (v : A) : Prop :=
  exists l1 d l2, l = l1 ++ d :: l2 /\ G d v /\ forall d', In d' l2 -> forall v', ~ G d' v'.
Definition none_that {X A} (G : X -> A -> Prop) (l : list X) : Prop := forall d, In d l -> forall v, ~ G d v.

Section Spec.
  Context {CN TP AP KN KF FF f32 V : Type}.
  Variables (feq fle fge : f32 -> f32 -> bool).
  Variables (resolve_name : CN -> option nat) (placeholder : nat -> nat).
  Notation dyn := ((list nat -> option (list (nat * nat))) * VarFlow.toks)%type.
  Notation builderT := (builder complex (media_selectors f32) nat VarFlow.toks CN nat dyn TP AP KN KF FF).
  Notation bruleset := (builder_ruleset nat VarFlow.toks CN nat dyn TP AP).
  Notation situationT := (situation CN TP AP KN KF FF f32).

  (** ** The cascade *)
  (** [i]: a rule of the style sheet, a selector with a ruleset, counted in source order *)
  Definition rule (b : builderT) (i : nat) (sel : css_selector complex (media_selectors f32)) (r : bruleset) : Prop :=
    exists id, nth_error (css_selectors_to_rulesets b) i = Some (sel, id) /\ nth_error (rulesets b) id = Some r.
  Definition applies (t : situationT) (b : builderT) (n i : nat) (r : bruleset) : Prop :=
    exists sel, rule b i sel r /\ sat (s_world t) (selector sel) None n /\ forall q, In q (media sel) -> test_holds f32 feq fle fge (fun _ _ => s_ratio t n) (s_media t n) q.
  (** layers in the order of the sheet (C01-C03), no layer last *)
  Definition layer_below (b : builderT) (l1 l2 : list ascii) : Prop :=
    l1 <> [] /\ (l2 = [] \/ exists x y z, layers_hierarchy b = x ++ l1 :: y ++ l2 :: z /\ ~ In l1 x /\ ~ In l2 (x ++ l1 :: y)).
  Definition ranks_below (b : builderT) (i j : nat) : Prop :=
    exists si ri sj rj ci cj, rule b i si ri /\ rule b j sj rj /\ counted_complex (selector si) ci /\ counted_complex (selector sj) cj /\
      (layer_below b (layer si) (layer sj) \/ layer si = layer sj /\ (below ci cj \/ ci = cj /\ i < j)).
  (** the winning declaration: of inline styles, else of the rule that ranks highest among those that declare something.  [G]: what a
      declaration gives (a custom property, or a property), [items]: the declarations of a rule, [inl]: the inline ones *)
  Definition cascaded {X Y A} (t : situationT) (b : builderT) (n : nat) (items : bruleset -> list X) (G : X -> A -> Prop) (inl : list Y) (Gi : Y -> A -> Prop) (v : A) : Prop :=
    last_that Gi inl v \/
    none_that Gi inl /\ exists i r, applies t b n i r /\ last_that G (items r) v /\
      forall j r', applies t b n j r' -> none_that G (items r') \/ j = i \/ ranks_below b j i.
  Definition not_cascaded {X Y A} (t : situationT) (b : builderT) (n : nat) (items : bruleset -> list X) (G : X -> A -> Prop) (inl : list Y) (Gi : Y -> A -> Prop) : Prop :=
    none_that Gi inl /\ forall i r, applies t b n i r -> none_that G (items r).

  (** ** Custom properties *)
  Definition inline_vars (t : situationT) (n : nat) := match s_inline t n with Some r => vars r | None => [] end.
  Definition is_var (k : nat) (d : nat * VarFlow.toks) (v : VarFlow.toks) : Prop := d = (k, v).
  (** what a node declares itself; nothing without a loaded sheet *)
  Definition own_var (loaded : builderT -> Prop) (t : situationT) (n k : nat) (o : option VarFlow.toks) : Prop :=
    (exists b, s_sheet t n = Some b /\ loaded b /\
       match o with
       | Some v => cascaded t b n vars (is_var k) (inline_vars t n) (is_var k) v
       | None => not_cascaded t b n vars (is_var k) (inline_vars t n) (is_var k)
       end) \/
    ((forall b, s_sheet t n = Some b -> ~ loaded b) /\ o = None).
  Definition sees (loaded : builderT -> Prop) (t : situationT) (n : nat) (r : env nat nat) : Prop :=
    exists own : nat -> env nat nat, (forall a k, own_var loaded t a k (own a k)) /\ forall k, nearest (w_tree (s_world t)) own k n (r k).

  (** ** Properties *)
  (** a declaration of a rule gives property [p] the value [v] *)
  Definition gives (r : env nat nat) (p : nat) (d : builder_property CN nat dyn) (v : nat) : Prop :=
    match d with
    | BSpecific (RefId q) x => q = p /\ placeholder x = v
    | BSpecific (RefName c) x => resolve_name c = Some p /\ placeholder x = v
    | BDynamic (parser, ts) => VarFlowSpec.gives r (VarFlow.Dynamic parser ts) p v
    end.
  Definition inline_gives (r : env nat nat) (p : nat) (d : ruleset_property nat dyn) (v : nat) : Prop :=
    match d with RSpecific q x => q = p /\ x = v | RDynamic (parser, ts) => VarFlowSpec.gives r (VarFlow.Dynamic parser ts) p v end.
  Definition inline_properties (t : situationT) (n : nat) := match s_inline t n with Some r => properties r | None => [] end.
  Variables (initial : nat -> V) (decode : nat -> Inherit.pvalue V) (unset_code : nat -> nat).
  Definition declared (loaded : builderT -> Prop) (t : situationT) (p n : nat) (d : Inherit.pvalue V) : Prop :=
    exists b r v, s_sheet t n = Some b /\ loaded b /\ sees loaded t n r /\ d = decode v /\
      (cascaded t b n properties (gives r p) (inline_properties t n) (inline_gives r p) v \/
       not_cascaded t b n properties (gives r p) (inline_properties t n) (inline_gives r p) /\ v = unset_code p).
  (** the computed value *)
  Inductive css (loaded : builderT -> Prop) (t : situationT) (p : nat) : nat -> Inherit.cvalue V -> Prop :=
  | css_unstyled n : (forall b, s_sheet t n = Some b -> ~ loaded b) -> css loaded t p n Inherit.CNone
  | css_root n d c : parent (w_tree (s_world t)) n = None -> declared loaded t p n d ->
      InheritSpec.means (decode (unset_code p)) (initial p) None d c -> css loaded t p n c
  | css_child n m d cm c : parent (w_tree (s_world t)) n = Some m -> css loaded t p m cm -> declared loaded t p n d ->
      InheritSpec.means (decode (unset_code p)) (initial p) (Some cm) d c -> css loaded t p n c.

  (** ** Histories *)
  Definition noticed (t : situationT) (n : nat) : Prop := s_modified t n = true \/ s_changed t n = true \/ s_marked t n = true \/ s_reset t n = true.
  (** selectors the parser produces, with fewer than 1024 ids, classes and types each, and with rulesets (CascadeSpec.reachable) *)
  Definition usable (b : builderT) : Prop := forall sel id, In (sel, id) (css_selectors_to_rulesets b) ->
    nth_error (rulesets b) id <> None /\ parsed (selector sel) /\ exists x, counted_complex (selector sel) x /\ countable x.
  Definition sane (loaded : builderT -> Prop) (nodes : list nat) (t : situationT) : Prop :=
    let w := w_tree (s_world t) in
    consistent (s_alive t) (s_world t) /\ NoDup (s_alive t) /\ (forall n p, parent w n = Some p -> In p (s_alive t)) /\ (forall n, In n (s_alive t) -> In n nodes) /\
    (forall n b, s_sheet t n = Some b -> usable b) /\ (forall n b, s_sheet t n = Some b -> In n (s_alive t)) /\
    (** no declaration says `unset` for a property that is inherited by default (C14_explicit_unset_refuted) *)
    (forall r p v, decode v = Inherit.PUnset -> decode (unset_code p) = Inherit.PInherit ->
       (forall n b rs d, s_sheet t n = Some b -> loaded b -> In rs (rulesets b) -> In d (properties rs) -> ~ gives r p d v) /\
       (forall n d, In d (inline_properties t n) -> ~ inline_gives r p d v)) /\
    (** below a node that is reset, nodes are noticed (C14_reset_parent_refuted) *)
    (forall n m, parent w n = Some m -> s_modified t m = true \/ s_reset t m = true -> noticed t n).
  Definition goes_on (loaded : builderT -> Prop) (t0 t : situationT) : Prop :=
    (** a new parent and a new inline style write to the node (C81) *)
    (forall n, In n (s_alive t) -> s_changed t n = false -> parent (w_tree (s_world t)) n = parent (w_tree (s_world t0)) n /\ s_inline t n = s_inline t0 n) /\
    (** a node is noticed when its sheet is replaced or modified, or when other rules of its sheet apply (C35, C82, C83) *)
    (forall n b, In n (s_alive t) -> s_sheet t0 n = Some b -> loaded b -> ~ noticed t n ->
       s_sheet t n = Some b /\ forall i r, applies t b n i r <-> applies t0 b n i r) /\
    (** C84_moved_subtree_refuted, C84_lost_sheet_refuted, C84_other_sheet_below_refuted *)
    (forall n d, parent (w_tree (s_world t)) n <> parent (w_tree (s_world t0)) n -> descendant (w_tree (s_world t)) n d -> noticed t d) /\
    (forall n b, In n (s_alive t) -> s_sheet t0 n = Some b -> loaded b -> exists b', s_sheet t n = Some b' /\ loaded b') /\
    (forall n d, s_modified t n = true -> descendant (w_tree (s_world t)) n d -> noticed t d) /\
    (** new nodes are reset *)
    (forall n, In n (s_alive t) -> ~ In n (s_alive t0) -> s_reset t n = true).
  Fixpoint history (loaded : builderT -> Prop) (nodes : list nat) (t0 : situationT) (ts : list situationT) : Prop :=
    match ts with [] => True | t :: ts => sane loaded nodes t /\ goes_on loaded t0 t /\ history loaded nodes t ts end.
  Definition from_start (loaded : builderT -> Prop) (nodes : list nat) (ts : list situationT) : Prop :=
    match ts with [] => True | t :: ts => sane loaded nodes t /\ (forall n, In n (s_alive t) -> s_reset t n = true) /\ history loaded nodes t ts end.
End Spec.

(** a style sheet is there if it builds (builder.rs:631-689) *)
Definition loaded {CN TP AP KN KF FF f32} (resolve_name : CN -> option nat) type_ok (path_ok : FF -> bool) placeholder
    (b : builder complex (media_selectors f32) nat VarFlow.toks CN nat ((list nat -> option (list (nat * nat))) * VarFlow.toks) TP AP KN KF FF) : Prop :=
  exists s, build specificity resolve_name type_ok path_ok placeholder b = Built s.

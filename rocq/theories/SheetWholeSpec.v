(** What the components should show, from the texts of the style sheets and the tree alone: C112.  As WholeSpec.v, but with the declarations
    of a text (SheetCascadeSpec.v, NestingSpec.v) in place of a builder. *)
From Coq Require Import Ascii String NArith.
From Verif Require Import Base Tree TreeSpec Vars VarsSpec LayersSpec Media MediaSpec Cascade Matching MatchingSpec SpecificitySpec Nesting NestingSpec SheetText SelText SheetSel SheetCascadeSpec Whole WholeSpec.
From Verif Require VarFlow VarFlowSpec Inherit InheritSpec.
Open Scope list_scope.

Section Cascade.
  Context {D X Y A : Type}.
  Variables (w : world) (m : provider fval) (ratio : fval) (said : list (list (list ascii))) (es : list (@entry complex (media_selector fval) D)) (n : nat).
  Variables (items : D -> list X) (G : X -> A -> Prop) (inl : list Y) (Gi : Y -> A -> Prop).
  (** [v] is what the strongest declaration that applies to [n] and gives something ([G]) gives; inline declarations come before all *)
  Definition strongest (v : A) : Prop :=
    exists k e a x, nth_error es k = Some e /\ SheetCascadeSpec.applies w m ratio n e a /\ counted_complex a x /\ last_that G (items (n_decl e)) v /\
    forall j e' a' y, nth_error es j = Some e' -> SheetCascadeSpec.applies w m ratio n e' a' -> counted_complex a' y -> none_that G (items (n_decl e')) \/ no_stronger said (n_layer e') y j (n_layer e) x k.
  Definition cascaded (v : A) : Prop := last_that Gi inl v \/ none_that Gi inl /\ strongest v.
  Definition not_cascaded : Prop := none_that Gi inl /\ forall e a, In e es -> SheetCascadeSpec.applies w m ratio n e a -> none_that G (items (n_decl e)).
End Cascade.

Section Spec.
  Context {CN TP AP KN KF FF V : Type}.
  Variables (resolve_name : CN -> option nat) (placeholder : nat -> nat).
  Notation dyn := ((list nat -> option (list (nat * nat))) * VarFlow.toks)%type.
  Notation D := (list (nat * VarFlow.toks) * list (builder_property CN nat dyn))%type.
  Notation rulesT := (list (Nesting.top pcomplex (media_selector fval) D)).
  Notation situationT := (situation CN TP AP KN KF FF fval).
  (** the declarations of a sheet in source order, and its layers in the order in which they are mentioned *)
  Definition declarations_in (rs : rulesT) := flat_map (top_entries (fun p parents => resolve parents p) amp_selector [] []) rs.
  Definition layers_in (rs : rulesT) := LayersSpec.mentions (flat_map (top_layers []) rs).
  (** [texts n]: the rules of the sheet of [n] *)
  Variables (t : situationT) (texts : nat -> option rulesT).
  Notation casc rs n := (cascaded (s_world t) (s_media t n) (s_ratio t n) (layers_in rs) (declarations_in rs) n).
  Notation not_casc rs n := (not_cascaded (s_world t) (s_media t n) (s_ratio t n) (declarations_in rs) n).

  Definition own_var (n k : nat) (o : option VarFlow.toks) : Prop :=
    match texts n with
    | Some rs => match o with
                 | Some v => casc rs n fst (is_var k) (inline_vars t n) (is_var k) v
                 | None => not_casc rs n fst (is_var k) (inline_vars t n) (is_var k)
                 end
    | None => o = None
    end.
  Definition sees (n : nat) (r : env nat nat) : Prop :=
    exists own : nat -> env nat nat, (forall a k, own_var a k (own a k)) /\ forall k, nearest (w_tree (s_world t)) own k n (r k).
  Variables (initial : nat -> V) (decode : nat -> Inherit.pvalue V) (unset_code : nat -> nat).
  Definition declared (p n : nat) (d : Inherit.pvalue V) : Prop :=
    exists rs r v, texts n = Some rs /\ sees n r /\ d = decode v /\
      (casc rs n snd (gives resolve_name placeholder r p) (inline_properties t n) (inline_gives r p) v \/
       not_casc rs n snd (gives resolve_name placeholder r p) (inline_properties t n) (inline_gives r p) /\ v = unset_code p).
  (** the computed value *)
  Inductive css (p : nat) : nat -> Inherit.cvalue V -> Prop :=
  | css_unstyled n : texts n = None -> css p n Inherit.CNone
  | css_root n d c : parent (w_tree (s_world t)) n = None -> declared p n d -> InheritSpec.means (decode (unset_code p)) (initial p) None d c -> css p n c
  | css_child n m d cm c : parent (w_tree (s_world t)) n = Some m -> css p m cm -> declared p n d ->
      InheritSpec.means (decode (unset_code p)) (initial p) (Some cm) d c -> css p n c.
End Spec.

(** ** The texts of C112 *)
(** a value has the type of its property *)
Definition fits {CN dyn} (resolve_name : CN -> option nat) (type_ok : nat -> nat -> bool) (placeholder : nat -> nat) (q : builder_property CN nat dyn) : Prop :=
  match q with
  | BSpecific (RefId i) x => type_ok i (placeholder x) = true
  | BSpecific (RefName c) x => exists i, resolve_name c = Some i /\ type_ok i (placeholder x) = true
  | BDynamic _ => True
  end.
(** the parsers of values (C46-C48, C63-C65) give only such *)
Definition reads_values {CN} (resolve_name : CN -> option nat) type_ok (placeholder : nat -> nat)
    (declare : VarText.text -> list VarText.tree -> @decl_result (list (nat * VarFlow.toks) * list (builder_property CN nat ((list nat -> option (list (nat * nat))) * VarFlow.toks)))) : Prop :=
  forall nm l d q, declare nm l = DVal d -> In q (snd d) -> fits resolve_name type_ok placeholder q.
(** a text without escapes, without empty blocks (C59_empty_block_refuted, C111_empty_block_refuted), with fewer than 1024 ids, classes and
    types in a selector (C40) *)
Definition plain_text {CN} (rules : VarText.text -> list (Nesting.top pcomplex (media_selector fval) (list (nat * VarFlow.toks) * list (builder_property CN nat ((list nat -> option (list (nat * nat))) * VarFlow.toks))))) (s : VarText.text) : Prop :=
  ~ In "\"%char s /\ Forall blocks_inhabited (rules s) /\ forall e a x, In e (declarations_in (rules s)) -> In a (n_alts e) -> counted_complex a x -> countable x.

(** Model of CssSelector::specificity: crates/bevy_flair_style/src/css_selector/mod.rs:499-501, which is Selector::specificity of the
    `selectors` crate (0.32, not part of /repo; modelled from its published source, builder.rs: Specificity, From<Specificity> for u32,
    complex_selector_specificity, simple_selector_specificity, selector_list_specificity).  Selectors as in Matching.v: [&] is
    replaced by then, and replacing it gives the specificity of [:is].  A u32 is an [N]; the counters do not overflow. *)
From Coq Require Import String NArith.
From Verif Require Import Base Matching.
Open Scope list_scope.
Local Open Scope N_scope.

(** struct Specificity: id_selectors, class_like_selectors, element_selectors *)
Record counts := mk_counts { ids : N; classes : N; elements : N }.
Definition zero := mk_counts 0 0 0.
Definition plus (a b : counts) : counts := mk_counts (ids a + ids b) (classes a + classes b) (elements a + elements b).
(** From<Specificity> for u32: each counter in ten bits, MAX_10BIT at most *)
Definition max_10bit : N := 1023.
Definition pack (c : counts) : N :=
  N.lor (N.lor (N.shiftl (N.min (ids c) max_10bit) 20) (N.shiftl (N.min (classes c) max_10bit) 10)) (N.min (elements c) max_10bit).
(** From<u32> for Specificity *)
Definition unpack (n : N) : counts := mk_counts (N.shiftr n 20) (N.land (N.shiftr n 10) max_10bit) (N.land n max_10bit).
(** the specificity of a list: the largest of the packed ones *)
Definition list_max {A} (f : A -> counts) : list A -> N := fix go l := match l with [] => 0 | x :: l => N.max (pack (f x)) (go l) end.
Definition sum {A} (f : A -> counts) : list A -> counts := fix go l := match l with [] => zero | x :: l => plus (f x) (go l) end.
Fixpoint complex_counts (s : complex) : counts :=
  match s with One c => sum simple_counts c | Then c _ r => plus (sum simple_counts c) (complex_counts r) end
with simple_counts (x : simple) : counts :=
  match x with
  | Universal | Anchor => zero
  | LocalName _ | PseudoEl _ => mk_counts 0 0 1
  | Id _ => mk_counts 1 0 0
  | Class _ | AttrExists _ | Attr _ _ | State _ | Root | Empty | Nth _ _ _ _ => mk_counts 0 1 0
  | NthOf _ _ _ l => plus (unpack (list_max complex_counts l)) (mk_counts 0 1 0)
  | Is true _ => zero
  | Is false l | Not l | Has l => unpack (list_max complex_counts l)
  end.
Definition specificity (s : complex) : N := pack (complex_counts s).

(** Which declaration of a sheet a node gets: C111.  From the entries of the sheet (NestingSpec: layer, media conditions, selectors and
    declaration of each declaration in source order) alone. *)
From Coq Require Import Ascii String NArith.
From Verif Require Import Base Tree LayersSpec Media MediaSpec Matching MatchingSpec SpecificitySpec Nesting NestingSpec SheetText.
Open Scope list_scope.

(** the declaration applies to [n], by the selector [a] *)
Definition applies {D} (w : world) (m : provider fval) (ratio : fval) (n : nat) (e : @entry complex (media_selector fval) D) (a : complex) : Prop :=
  In a (n_alts e) /\ sat w a None n /\ forall q, In q (n_media e) -> test_holds fval feq fle (fun x y => fle y x) (fun _ _ => ratio) m q.
(** layer, then specificity, then source order.  [said]: the layers in the order in which the sheet mentions them; no layer is above all *)
Definition no_stronger (said : list (list (list ascii))) (l1 : list (list ascii)) (x1 : abc) (k1 : nat) (l2 : list (list ascii)) (x2 : abc) (k2 : nat) : Prop :=
  lower said l1 l2 \/ l1 = l2 /\ (below x1 x2 \/ x1 = x2 /\ k1 <= k2).
Section S.
  Context {V : Type}.
  Notation entryT := (@entry complex (media_selector fval) (list (nat * V))).
  Variables (w : world) (m : provider fval) (ratio : fval).
  Notation applies := (applies w m ratio).
  (** it sets the property [p] to [v]: a shorthand sets several *)
  Definition sets (e : entryT) (p : nat) (v : V) : Prop := exists l1 l2, n_decl e = l1 ++ (p, v) :: l2 /\ forall v', ~ In (p, v') l2.
  (** [wins es n p k v]: the [k]-th declaration sets [p] to [v] at [n], and no other that does is stronger *)
  Definition wins (said : list (list (list ascii))) (es : list entryT) (n p k : nat) (v : V) : Prop :=
    exists e a x, nth_error es k = Some e /\ applies n e a /\ counted_complex a x /\ sets e p v /\
    forall j e' a' y v', nth_error es j = Some e' -> applies n e' a' -> counted_complex a' y -> sets e' p v' -> no_stronger said (n_layer e') y j (n_layer e) x k.
  Definition nobody_sets (es : list entryT) (n p : nat) : Prop := forall e a v, In e es -> applies n e a -> ~ sets e p v.
End S.

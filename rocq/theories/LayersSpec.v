(** Specification for cascade layers, independent of the algorithm: names are paths of
    non-empty dot-free segments, and the priority order is defined from the order of first
    mention alone (css-cascade-5, "layer ordering"). *)
From Coq Require Import Ascii.
From Verif Require Import Base.

Notation segment := (list ascii) (only parsing).
Notation path := (list (list ascii)) (only parsing).

(** A legal layer name: at least one segment, no segment empty or containing a dot. *)
Definition legal_segment (s : segment) : Prop := s <> [] /\ ~ In "."%char s.
Definition legal (p : path) : Prop := p <> [] /\ Forall legal_segment p.

(** The written form [a.b.c] of a path. *)
Fixpoint dotted (p : path) : list ascii :=
  match p with
  | [] => []
  | [s] => s
  | s :: r => s ++ "."%char :: dotted r
  end.

(** All non-empty prefixes of a path, shortest first: mentioning [a.b.c] mentions [a], [a.b],
    [a.b.c] in this order. *)
Fixpoint prefixes (p : path) : list path :=
  match p with
  | [] => []
  | s :: r => [s] :: map (cons s) (prefixes r)
  end.

Definition mentions (ds : list path) : list path := concat (map prefixes ds).

(** [a] is mentioned at a moment when [b] has not been mentioned yet. *)
Definition mentioned_before (ms : list path) (a b : path) : Prop :=
  a <> b /\ exists l1 l2, ms = l1 ++ a :: l2 /\ ~ In b l1.

(** [lower ms p q]: layer [p] has lower priority than layer [q]. *)
Inductive lower (ms : list path) : path -> path -> Prop :=
| lower_nested : forall p x s, lower ms (p ++ x :: s) p
    (* a nested layer is below each of its ancestors *)
| lower_sibling : forall c x y s t,
    mentioned_before ms (c ++ [x]) (c ++ [y]) ->
    lower ms (c ++ x :: s) (c ++ y :: t).
    (* everything in the sibling mentioned first is below everything in the other *)

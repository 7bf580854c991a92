(** C11: media queries. *)
From Coq Require Import NArith.
From Verif Require Import Base Media MediaSpec MediaProofs.

(** C11.  For every interpretation of f32 comparisons and every provider: a selector list matches
    iff every listed test holds; a test on an unavailable feature makes it fail; merging is
    conjunction, associative, with the empty list as unit. *)
Theorem C11_conjunction :
  forall f32 feq fle fge fdiv l m,
  media_matches f32 feq fle fge fdiv l m = true <->
  forall s, In s l -> test_holds f32 feq fle fge fdiv m s.
Proof. exact matches_iff. Qed.
Print Assumptions C11_conjunction.

Theorem C11_fails_closed :
  forall f32 feq fle fge fdiv m l s,
  In s l -> feature_missing f32 m s -> media_matches f32 feq fle fge fdiv l m = false.
Proof. exact missing_never. Qed.
Print Assumptions C11_fails_closed.

Theorem C11_merge :
  forall f32 feq fle fge fdiv a b c m,
  media_matches f32 feq fle fge fdiv (merge_with f32 a b) m
    = media_matches f32 feq fle fge fdiv a m && media_matches f32 feq fle fge fdiv b m /\
  merge_with f32 (merge_with f32 a b) c = merge_with f32 a (merge_with f32 b c) /\
  merge_with f32 a (media_empty f32) = a /\ merge_with f32 (media_empty f32) a = a.
Proof.
  exact (fun f32 feq fle fge fdiv a b c m =>
    conj (merge_matches f32 feq fle fge fdiv a b m) (conj (merge_assoc f32 a b c) (merge_unit f32 a))).
Qed.
Print Assumptions C11_merge.

Definition ex_provider : provider nat :=
  {| p_color_scheme := Some Dark; p_resolution := None; p_width := Some 300%N; p_height := Some 200%N |}.
Example ex_media :
  media_matches nat Nat.eqb Nat.leb (fun a b => Nat.leb b a) (fun a b => N.to_nat (N.div a b))
    [MColorScheme nat Dark; MViewportWidth nat (GreaterOrEqual 300%N); MViewportWidth nat (LessOrEqual 300%N)] ex_provider = true
  /\ feature_missing nat ex_provider (MResolution nat (Exact 1)).
Proof. vm_compute. auto. Qed.

(** C01, C02, C03: cascade layers (layers.rs). *)
From Coq Require Import Ascii String.
From Verif Require Import Base Layers LayersSpec LayersProofs.
Local Open Scope list_scope.

(** C01.  For every sequence of declarations of legal (dotted) names: declaring never panics; the
    list has no duplicate; its elements are exactly the declared names and their dotted ancestors;
    the unlayered priority is strictly above the priority of every layer. *)
Theorem C01_layers_well_formed :
  forall ds, Forall legal ds ->
  exists h, define_layers (map dotted ds) [] = Some h /\
    NoDup h /\
    (forall n, In n h <-> exists p, In p (mentions ds) /\ n = dotted p) /\
    (forall p i, In p (mentions ds) -> get_layer_priority h (dotted p) = Some i ->
       exists u, get_layer_priority h [] = Some u /\ i < u).
Proof. exact layers_well_formed. Qed.
Print Assumptions C01_layers_well_formed.

(** C02.  The priority order of declared layers is exactly the order [lower] of first mentions:
    nested below parents, siblings by first mention, subtrees contiguous. *)
Theorem C02_layer_order :
  forall ds p q h, Forall legal ds -> define_layers (map dotted ds) [] = Some h ->
  In p (mentions ds) -> In q (mentions ds) ->
  exists i j, get_layer_priority h (dotted p) = Some i /\ get_layer_priority h (dotted q) = Some j /\
              (i < j <-> lower (mentions ds) p q) /\ (i = j <-> p = q).
Proof. exact layer_order_complete. Qed.
Print Assumptions C02_layer_order.

(** C03.  In every reachable hierarchy, declaring one more layer keeps all existing layers in
    their relative order, changes nothing if the layer was already mentioned, and is idempotent. *)
Theorem C03_declaring_keeps_order :
  forall ds p h, Forall legal ds -> legal p -> define_layers (map dotted ds) [] = Some h ->
  exists h', define_layer h (dotted p) = Some h' /\ subseq h h' /\
             (In p (mentions ds) -> h' = h) /\ define_layer h' (dotted p) = Some h'.
Proof. exact declare_keeps_order. Qed.
Print Assumptions C03_declaring_keeps_order.

(** Non-vacuity: a concrete interleaved declaration sequence meets the hypotheses, with the
    result of layers.rs's own test style. *)
Local Notation "' s" := (list_ascii_of_string s) (at level 0).
Definition ex_decls : list (list (list ascii)) :=
  [ ['"first"]; ['"second"]; ['"first"; '"m1"]; ['"last"]; ['"second"; '"m1"; '"c"]; ['"first"; '"m0"] ].

Example ex_decls_legal : Forall legal ex_decls.
Proof.
  repeat constructor; try discriminate; simpl; intuition discriminate.
Qed.

Example ex_decls_result :
  define_layers (map dotted ex_decls) [] =
  Some [ '"first.m1"; '"first.m0"; '"first"; '"second.m1.c"; '"second.m1"; '"second"; '"last" ].
Proof. vm_compute. reflexivity. Qed.

(** The legality hypothesis is needed: a name with an empty segment panics. *)
Example ex_illegal_panics : define_layer [] ('".a") = None /\ define_layer [] ('"a..b") = None.
Proof. vm_compute. auto. Qed.

(** Specification of inline styles (C55, C56). *)
From Verif Require Import Base InlineStyle.

(** C55: the declarations that survive a history of writes are the [set]s that no later operation on the same name
    overrides, in the order in which they were made. *)
Definition names (n : list ascii) (o : style_op) : Prop := match o with Set_ n' _ => n' = n | Remove_ n' => n' = n end.
Inductive survives : list style_op -> list (list ascii * list ascii) -> Prop :=
| sv_nil : survives [] []
| sv_kept n v r s : (forall o, In o r -> ~ names n o) -> survives r s -> survives (Set_ n v :: r) ((n, v) :: s)
| sv_overridden n v r s o : In o r -> names n o -> survives r s -> survives (Set_ n v :: r) s
| sv_remove n r s : survives r s -> survives (Remove_ n :: r) s.

(** A declaration written in text: name and value without the separators and without white space at their ends, and
    arbitrary white space around them *)
Definition white (s : list ascii) : Prop := forall c, In c s -> is_ws c = true.
Definition tidy (s : list ascii) : Prop :=
  (forall c r, s = c :: r -> is_ws c = false) /\ (forall c r, s = r ++ [c] -> is_ws c = false).
Inductive piece : list ascii -> list (list ascii * list ascii) -> Prop :=
| p_blank w : white w -> piece w []
| p_decl w1 n w2 w3 v w4 : white w1 -> white w2 -> white w3 -> white w4 -> tidy n -> tidy v ->
    ~ In ":"%char n -> ~ In ";"%char n -> ~ In ";"%char v ->
    piece (w1 ++ n ++ w2 ++ ":"%char :: w3 ++ v ++ w4) [(n, v)].
Inductive written : list ascii -> list (list ascii * list ascii) -> Prop :=
| w_last s d : piece s d -> written s d
| w_more s d s' d' : piece s d -> written s' d' -> written (s ++ ";"%char :: s') (d ++ d').

(** C56: what a list of parsed items declares when none of them is an error or carries an advice *)
Inductive all_declare {D} : list (item D) -> list D -> Prop :=
| ad_nil : all_declare [] []
| ad_cons d its ds : all_declare its ds -> all_declare (Plain d :: its) (d :: ds).
Definition clean {D} (parse : list ascii -> list (item D)) (m : list (list ascii * list ascii)) : Prop :=
  exists ds, all_declare (parse (to_text m)) ds.
(** Every run of the system sees all the entities (in any order), and the styles it finds changed are clean *)
Definition orderly {D} (parse : list ascii -> list (item D)) (vs : list event) : Prop :=
  forall vs1 order vs2, vs = vs1 ++ Frame order :: vs2 ->
  forall e m, e_style (run parse vs1 e) = Some m -> In e order /\ (e_changed (run parse vs1 e) = true -> clean parse m).

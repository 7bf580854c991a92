(** What names of assets and fonts mean: C88. *)
From Coq Require Import String.
From Verif Require Import Base Inherit InheritSpec Placeholder.

Section Spec.
  Variable load : string -> option nat.
  (** the last font face with the name *)
  Definition face_of {A} (faces : list (string * A)) (name : string) (x : A) : Prop := exists l1 l2, faces = l1 ++ (name, x) :: l2 /\ ~ In name (map fst l2).
  (** A name means the font of the last font face with that name, a path the asset at the path; names without a font face and
      paths that are none mean nothing. *)
  Inductive stands_for (fonts : list (string * nat)) : value -> option nat -> Prop :=
  | sf_plain v : stands_for fonts (Plain v) (Some v)
  | sf_asset path : stands_for fonts (AssetPath path) (load path)
  | sf_font name h : face_of fonts name h -> stands_for fonts (FontFamily name) (Some h)
  | sf_no_font name : ~ In name (map fst fonts) -> stands_for fonts (FontFamily name) None.
  (** a declared value with names replaced by what they mean *)
  Inductive named (fonts : list (string * nat)) : pvalue value -> pvalue value -> Prop :=
  | nm_value v h : stands_for fonts v (Some h) -> named fonts (PVal v) (PVal (Plain h))
  | nm_nothing v : stands_for fonts v None -> named fonts (PVal v) PNone
  | nm_other d : (forall v, d <> PVal v) -> named fonts d d.
  (** the declared values of all nodes with names replaced *)
  Definition all_named (fonts : list (string * nat)) (declared meant : nat -> option (nat -> pvalue value)) : Prop := forall n,
    match declared n, meant n with Some d, Some d' => forall p, named fonts (d p) (d' p) | None, None => True | _, _ => False end.
  (** Histories as in InheritSpec.v, without transitions.  The font faces are the same for all nodes; when they change, which is when the sheet
      is modified, all nodes are reset. *)
  Definition fonts_follow (fa fb : list (string * nat)) (b : moment value) : Prop :=
    (fa = fb \/ forall n, In n (map snd (f_visits (at_frame b))) -> f_reset (at_frame b) n = true) /\
    (forall n d t, f_style (at_frame b) n = Some (d, t) -> forall p, t p = false).
  Fixpoint font_history (unset : nat -> pvalue value) (fa : list (string * nat)) (a : moment value) (hs : list (list (string * nat) * moment value)) : Prop :=
    match hs with [] => True | (fb, b) :: r => follows unset a b /\ fonts_follow fa fb b /\ font_history unset fb b r end.
End Spec.

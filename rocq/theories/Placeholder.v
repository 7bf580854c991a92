(** Model of the placeholders of assets and fonts:
    crates/bevy_flair_style/src/placeholder.rs:115-275, builder.rs:590-655 (StyleSheetBuilder::resolve_placeholders, the font faces of build),
    systems.rs:1127-1176 (resolve_placeholders), and the computation and application of values around it (Inherit.v).
    - A value is plain (also a handle of an asset is), or the path of an asset, or the name of a font family.  [load] is the asset server:
      the handle of a path, [None] if the path cannot be parsed (placeholder.rs:205-216).
    - No property has transition options (a transition would compare handles with placeholders), and there are no animations. *)
From Coq Require Import String.
From Verif Require Import Base Inherit.

Inductive value := Plain (v : nat) | AssetPath (path : string) | FontFamily (name : string).
Definition value_dec (a b : value) : {a = b} + {a <> b}.
Proof. decide equality; [apply Nat.eq_dec|apply string_dec|apply string_dec]. Defined.
(** FxHashMap of font families; of two entries with the same name the last one is in it *)
Fixpoint find_font (fonts : list (string * nat)) (name : string) : option nat :=
  match fonts with [] => None | (a, h) :: r => match find_font r name with Some x => Some x | None => if string_dec a name then Some h else None end end.

Section Placeholder.
  Variable load : string -> option nat.
  (** placeholder.rs:256-274 try_resolve_placeholder: [Ok None], [Ok (Some v)], [Err] *)
  Inductive resolved := NotAPlaceholder | Resolved (v : value) | Failed.
  Definition try_resolve_placeholder (fonts : list (string * nat)) (v : value) : resolved :=
    match v with
    | Plain _ => NotAPlaceholder
    | AssetPath path => match load path with Some h => Resolved (Plain h) | None => Failed end
    | FontFamily name => match find_font fonts name with Some h => Resolved (Plain h) | None => Failed end
    end.

  (** ** Building a style sheet *)
  (** builder.rs:590-626, one declaration: a value, or tokens with var() *)
  Inductive declaration := Specific (p : nat) (v : pvalue value) | Dynamic (p : nat) (tokens : nat).
  Definition resolve_declaration (fonts : list (string * nat)) (d : declaration) : declaration :=
    match d with
    | Specific p (PVal v) => match try_resolve_placeholder fonts v with Resolved w => Specific p (PVal w) | Failed => Specific p PNone | NotAPlaceholder => Specific p (PVal v) end
    | _ => d
    end.
  (** builder.rs:639-651: the font faces; a path that cannot be parsed makes the whole sheet fail *)
  Fixpoint resolve_font_faces (faces : list (string * string)) : option (list (string * nat)) :=
    match faces with
    | [] => Some []
    | (family, path) :: r => match load path, resolve_font_faces r with Some h, Some l => Some ((family, h) :: l) | _, _ => None end
    end.
  Definition build (faces : list (string * string)) (ds : list declaration) : option (list (string * nat) * list declaration) :=
    option_map (fun fonts => (fonts, map (resolve_declaration fonts) ds)) (resolve_font_faces faces).

  (** ** While the application runs *)
  (** systems.rs:1151-1171, one value *)
  Definition resolve_value (fonts : list (string * nat)) (c : cvalue value) : cvalue value :=
    match c with
    | CNone => CNone
    | CVal v => match try_resolve_placeholder fonts v with Resolved w => CVal w | Failed => CNone | NotAPlaceholder => CVal v end
    end.
  (** systems.rs:1137-1171, one node; [fonts]: of its sheet, [None] if that is not loaded.  Nodes whose pending values are their computed values
      do not need property application (Inherit.same) *)
  Definition resolve_node (fonts : option (list (string * nat))) (n : node value) : node value :=
    match fonts with
    | Some fs => if same n then n else mk_node (values n) (new_values n) (computed n) (is_static n) (fun p => resolve_value fs (pending n p)) (same n) (can_transition n)
    | None => n
    end.
  Variables (np : nat) (unset : nat -> pvalue value) (initial : nat -> value).
  (** lib.rs:425-443: Inherit.run_frame with resolve_placeholders before the last step *)
  Definition run_frame (fonts : nat -> option (list (string * nat))) (f : frame value) (w : world value) : world value :=
    let w1 := begin_frame f w in
    let w2 := if restyled f then fold_left (visit value_dec np unset initial) (f_visits f) w1 else fun n => keep_node (w1 n) in
    fun n => apply_node value_dec np (resolve_node (fonts n) (w2 n)).
End Placeholder.

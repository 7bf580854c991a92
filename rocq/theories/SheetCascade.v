(** Model of the use of a sheet text: what the calls that Nesting.v records leave in the builder of Cascade.v
    (crates/bevy_flair_style/src/builder.rs:241-261, 325-331, 411-415, 534-545), then crates/bevy_flair_css_parser/src/internal_loader.rs:296-327
    (remove_all_empty_rulesets), builder.rs:631-689 (build) and, for a node, style_sheet.rs:194-209, 294-309.
    New here is only what is handed over between them.
    - A declaration is the list of the properties that it sets, with their values (one for a longhand, several for a shorthand:
      internal_loader.rs:36-60).  Custom properties, values with var(), animations, transitions, keyframes, fonts and imports are left out.
    - The selectors are resolved when they are added; in the code they stay selectors of the selectors crate. *)
From Coq Require Import Ascii String NArith ZArith.
From Verif Require Import Base VarText Layers Media Matching Specificity Nesting SheetText SelText SheetSel Cascade.
Open Scope list_scope.

(** css_selector/mod.rs:281-286 *)
Definition to_css (c : csel pcomplex (media_selector fval)) : css_selector complex (list (media_selector fval)) := {| layer := c_layer c; media := c_media c; selector := resolve [] (c_sel c) |}.
(** builder.rs:325-331: the selectors are added right after their ruleset *)
Fixpoint entries_from {D} (id : nat) (rs : list (list (csel pcomplex (media_selector fval)) * list D)) : list (css_selector complex (list (media_selector fval)) * nat) :=
  match rs with [] => [] | r :: rs => map (fun c => (to_css c, id)) (fst r) ++ entries_from (S id) rs end.

Section C.
  Context {V : Type}.
  Notation M := (media_selector fval).
  Notation D := (list (nat * V)).
  Notation dyn := unit.
  Notation builderT := (Cascade.builder complex (list M) nat nat unit V dyn unit unit unit unit unit).

  (** builder.rs:241-261 add_property, for each property of each declaration *)
  Definition contents_of (ds : list D) : builder_ruleset nat nat unit V dyn unit unit :=
    mk_ruleset [] (map (fun d => BSpecific (RefId (fst d)) (snd d)) (concat ds)) [] [].
  Definition cascade_builder (b : Nesting.builder pcomplex M D) : option builderT :=
    match Layers.define_layers (defined b) [] with
    | Some h => Some (mk_builder h [] (map (fun r => contents_of (snd r)) (Nesting.rulesets b)) [] (entries_from 0 (Nesting.rulesets b)))
    | None => None
    end.
  Variables (type_ok : nat -> V -> bool) (placeholder : V -> V).
  (** internal_loader.rs:296-327, loader.rs: load_stylesheet and build ([None]: a panic) *)
  Definition load_sheet (rules : list (Nesting.top pcomplex M D)) : option (build_result complex (list M) nat nat V dyn unit unit unit unit unit) :=
    match load amp_selector substitute rules with
    | Some b => match cascade_builder b with
                | Some cb => match remove_all_empty_rulesets cb with
                             | Some cb => Some (build specificity (fun _ => None) type_ok (fun _ => true) placeholder cb)
                             | None => None end
                | None => None end
    | None => None
    end.
  (** style_sheet.rs:194-209, 294-309: the values of a node; [m], [ratio]: the media features of its window *)
  Definition node_values (veqb : V -> V -> bool) (w : world) (fuel : nat) (m : provider fval) (ratio : fval) (base : nat -> V)
      (s : style_sheet complex (list M) nat nat V dyn unit unit unit unit unit) (n : nat) : option (nat -> V) :=
    get_property_values (fun _ => None) veqb s
      (get_matching_ruleset_ids (fun x => matches_selector w fuel x n) (fun q => media_matches fval feq fle (fun x y => fle y x) (fun _ _ => ratio) q m) s) None base.
End C.

(** Model of the use of a sheet text in an application: the builder of SheetCascade.v with custom properties and values with var(), which
    Whole.v and Live.v then use.
    crates/bevy_flair_css_parser/src/internal_loader.rs:26-73 (process_ruleset_property), 296-327;
    crates/bevy_flair_style/src/builder.rs:171-261, 325-331, 411-415, 534-545.
    - A declaration is the custom properties and the properties that it sets: a custom property; or the longhand, or the longhands of the
      shorthand; or a value with var(), which is kept as a parser with its tokens.
    - Transitions, animations, keyframes, fonts and imports are left out, as in Whole.v. *)
From Coq Require Import Ascii String NArith.
From Verif Require Import Base VarText Layers Media Matching Specificity Nesting SheetText SelText SheetSel Cascade SheetCascade.
From Verif Require VarFlow.
Open Scope list_scope.

Section W.
  Context {CN TP AP KN KF FF : Type}.
  Notation M := (media_selector fval).
  Notation dyn := ((list nat -> option (list (nat * nat))) * VarFlow.toks)%type.
  Notation D := (list (nat * VarFlow.toks) * list (builder_property CN nat dyn))%type.
  Notation builderT := (Cascade.builder complex (list M) nat VarFlow.toks CN nat dyn TP AP KN KF FF).
  (** builder.rs:177-261 add_property, add_var for each declaration of a ruleset *)
  Definition whole_contents (ds : list D) : builder_ruleset nat VarFlow.toks CN nat dyn TP AP := mk_ruleset (concat (map fst ds)) (concat (map snd ds)) [] [].
  (** internal_loader.rs:296-327 ([None]: a panic) *)
  Definition text_builder (rules : list (Nesting.top pcomplex M D)) : option builderT :=
    match load amp_selector substitute rules with
    | Some b => match Layers.define_layers (defined b) [] with
                | Some h => remove_all_empty_rulesets (mk_builder h [] (map (fun r => whole_contents (snd r)) (Nesting.rulesets b)) [] (entries_from 0 (Nesting.rulesets b)))
                | None => None end
    | None => None
    end.
End W.

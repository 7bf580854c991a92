(** Model of an update from style sheets to components: the parts of Pipeline.v, whose rules are now found as the code does:
    crates/bevy_flair_style/src/systems.rs:755-839 (calculate_style_and_set_vars), style_sheet.rs:294-309
    (get_matching_ruleset_ids_for_element), builder.rs:631-689 (build: Cascade.v), css_selector (Matching.v, Specificity.v),
    media_selector.rs (Media.v).  New here is only what is handed over between them.
    - A style sheet is given by its builder; one that does not build is not loaded.
    - Values, names and tokens are numbers, as in VarFlow.v; a value with var() is a parser and its tokens.
    - f32 is any type with any comparisons, as in Media.v.
    - Transitions and animations are not there, as in Pipeline.v. *)
From Coq Require Import Ascii String NArith.
From Verif Require Import Base Tree Vars Siblings Media Layers Cascade Matching Specificity.
From Verif Require VarFlow Inherit Pipeline.
Open Scope list_scope.

Section Whole.
  Context {CN TP AP KN KF FF f32 : Type}.
  Variables (feq fle fge : f32 -> f32 -> bool).
  Variables (resolve_name : CN -> option nat) (type_ok : nat -> nat -> bool) (path_ok : FF -> bool) (placeholder : nat -> nat).
  Notation dyn := ((list nat -> option (list (nat * nat))) * VarFlow.toks)%type.
  Notation builderT := (builder complex (media_selectors f32) nat VarFlow.toks CN nat dyn TP AP KN KF FF).
  Notation sheetT := (style_sheet complex (media_selectors f32) nat VarFlow.toks nat dyn TP AP KN KF FF).
  Notation rulesetT := (ruleset nat VarFlow.toks nat dyn TP AP).

  (** what holds in a frame, and what change detection reports (Pipeline.v, VarFlow.v).  [s_media n]: the features of the window of [n]; [s_ratio n]:
      its aspect ratio, computed from the sizes that are not rounded (systems.rs:747-751) *)
  Record situation := mk_situation {
    s_world : world; s_sheet : nat -> option builderT; s_inline : nat -> option rulesetT; s_media : nat -> provider f32; s_ratio : nat -> f32;
    s_alive : list nat; s_modified : nat -> bool; s_changed : nat -> bool; s_marked : nat -> bool; s_reset : nat -> bool }.

  (** style_sheet.rs:46-58, 112-117 *)
  Definition decl_of (p : ruleset_property nat dyn) : VarFlow.decl :=
    match p with RSpecific id v => VarFlow.Specific id v | RDynamic d => VarFlow.Dynamic (fst d) (snd d) end.
  Definition ruleset_at (r : option rulesetT) : VarFlow.ruleset :=
    match r with Some r => VarFlow.mk_ruleset (vars r) (map decl_of (properties r)) | None => VarFlow.mk_ruleset [] [] end.
  (** style_sheet.rs:182-191: an index into the rulesets (an unknown id panics: C04_no_panic) *)
  Definition contents (s : sheetT) : VarFlow.sheet := fun id => ruleset_at (nth_error (s_rulesets s) id).
  (** builder.rs:631-689 *)
  Definition load (b : option builderT) : option sheetT :=
    match b with
    | Some b => match build specificity resolve_name type_ok path_ok placeholder b with Built s => Some s | BuildError _ => None end
    | None => None
    end.
  (** style_sheet.rs:294-309 *)
  Definition rules_at (fuel : nat) (t : situation) (n : nat) : list nat :=
    match load (s_sheet t n) with
    | Some s => get_matching_ruleset_ids (fun x => matches_selector (s_world t) fuel x n) (fun m => media_matches f32 feq fle fge (fun _ _ => s_ratio t n) m (s_media t n)) s
    | None => []
    end.
  Definition frame_of (fuel : nat) (t : situation) : Pipeline.frame :=
    Pipeline.mk_frame (VarFlow.mk_frame (w_tree (s_world t)) (fun n => option_map contents (load (s_sheet t n))) (rules_at fuel t)
        (fun n => ruleset_at (s_inline t n)) (s_modified t) (s_changed t) (s_marked t) (fun _ => false)) (s_alive t) (s_reset t).
End Whole.
Arguments situation : clear implicits.

(** Model of whole updates in which only marked nodes are looked at: crates/bevy_flair_style/src/lib.rs:356-445 (the order of the
    systems), systems.rs:39-51, 127-200, 389-540, 542-612, 664-911, style_sheet.rs:294-309.
    Whole.v takes as given which nodes are marked in a frame.  Here that is computed: from the flags that the matching of earlier frames
    left behind (Follow.v), from the media features that were asked for (MediaDeps.v) and from what change detection reports; and the
    rules of a node are those that were found when it was matched last.  What follows from there to the components is Pipeline.v.
    There is one marker per node: the one of VarFlow.v.
    What Follow.v, MediaDeps.v, Whole.v and Pipeline.v leave out is left out here. *)
From Coq Require Import Ascii String NArith.
From Verif Require Import Base Tree Vars Siblings Media Invalidation Matching Specificity Follow Layers Cascade Whole.
From Verif Require VarFlow Inherit Pipeline MediaDeps.
Open Scope list_scope.

Section Live.
  Context {CN TP AP KN KF FF f32 V : Type} (veq : forall a b : V, {a = b} + {a <> b}).
  Variables (feq fle fge : f32 -> f32 -> bool).
  Variables (resolve_name : CN -> option nat) (type_ok : nat -> nat -> bool) (path_ok : FF -> bool) (placeholder : nat -> nat).
  Variables (np : nat) (initial : nat -> V) (decode : nat -> Inherit.pvalue V) (unset_code : nat -> nat) (nodes : list nat).
  Notation dyn := ((list nat -> option (list (nat * nat))) * VarFlow.toks)%type.
  Notation builderT := (builder complex (media_selectors f32) nat VarFlow.toks CN nat dyn TP AP KN KF FF).
  Notation sheetT := (style_sheet complex (media_selectors f32) nat VarFlow.toks nat dyn TP AP KN KF FF).
  Notation rulesetT := (ruleset nat VarFlow.toks nat dyn TP AP).
  Notation loadT := (load resolve_name type_ok path_ok placeholder).

  (** What holds in a frame, and what is reported about it.  [l_children]: Changed<Children> or RemovedComponents<Children>; [l_data]:
      Changed<NodeStyleData>; [l_style]: Changed<RawInlineStyle>; [l_touched]: Changed<NodeStyleMarker>; [l_marked]: marked by the user, or
      its NodeStyleSheet changed; [l_modified]: AssetEvent::Modified for its sheet; [l_assigned]: another effective style sheet
      (systems.rs:180-183); [l_reset]: needs a reset or was added (systems.rs:44); [l_theme]: the WindowMediaFeatures of its window changed
      (389-427); [l_info]: Changed<ComputedUiRenderTargetInfo> (429-442) *)
  Record moment := mk_moment {
    l_world : world; l_sheet : nat -> option builderT; l_inline : nat -> option rulesetT; l_media : nat -> provider f32; l_ratio : nat -> f32;
    l_alive : list nat; l_children : nat -> bool; l_data : nat -> bool; l_style : nat -> bool; l_touched : nat -> bool; l_marked : nat -> bool;
    l_modified : nat -> bool; l_assigned : nat -> bool; l_reset : nat -> bool; l_theme : nat -> bool; l_info : nat -> bool }.
  Record live := mk_live { lv_flags : nat -> eflags; lv_media : nat -> MediaDeps.dflags; lv_matching : nat -> option (list nat); lv_pipe : Pipeline.state V }.

  (** ** Matching *)
  (** style_sheet.rs:294-309: first the selectors ... *)
  Fixpoint numbered (i : nat) (l : list complex) : list erule := match l with [] => [] | s :: l => (s, true, i) :: numbered (S i) l end.
  Definition selectors_of (s : sheetT) : list erule := numbered 0 (map (fun e => selector (fst e)) (s_css s)).
  (** ... then the media features of those that match; what was asked for is remembered (716-751) *)
  Definition asks (q : media_selector f32) : MediaDeps.dflags :=
    match q with MColorScheme _ _ => MediaDeps.mk_dflags true false | _ => MediaDeps.mk_dflags false true end.
  Fixpoint media_flags (p : provider f32) (ratio : f32) (l : media_selectors f32) : MediaDeps.dflags :=
    match l with
    | [] => MediaDeps.none_flags
    | q :: l => MediaDeps.or_dflags (asks q)
        (match Media.selector_matches f32 feq fle fge (fun _ _ => ratio) q p with Some true => media_flags p ratio l | _ => MediaDeps.none_flags end)
    end.
  Fixpoint chosen (s : sheetT) (p : provider f32) (ratio : f32) (l : list nat) : list nat * MediaDeps.dflags :=
    match l with
    | [] => ([], MediaDeps.none_flags)
    | i :: l =>
        let (ids, fl) := chosen s p ratio l in
        match nth_error (s_css s) i with
        | Some (sel, id) => (if media_matches f32 feq fle fge (fun _ _ => ratio) (media sel) p then id :: ids else ids, MediaDeps.or_dflags (media_flags p ratio (media sel)) fl)
        | None => (ids, fl)
        end
    end.

  (** ** Marking *)
  (** systems.rs:180-183, 605: flags.reset(); nodes that do not exist have none *)
  Definition cleared (m : moment) (n : nat) : bool := (l_modified m n || l_assigned m n)%bool.
  Definition flags_now (m : moment) (s : live) (n : nat) : MediaDeps.dflags := if (cleared m n || negb (mem n (l_alive m)))%bool then MediaDeps.none_flags else lv_media s n.
  (** 389-442 *)
  Definition late (m : moment) (s : live) (n : nat) : bool :=
    ((l_theme m n && MediaDeps.on_window (flags_now m s n)) || (l_info m n && MediaDeps.on_info (flags_now m s n)))%bool.
  Definition eframe_of (m : moment) (late : nat -> bool) : eframe :=
    mk_eframe (l_world m) (fun n => option_map selectors_of (loadT (l_sheet m n))) (l_children m) (l_data m) (l_style m) (l_touched m)
      (fun n => (l_marked m n || l_modified m n || l_assigned m n || l_reset m n)%bool) late (cleared m).
  Definition matching_state (s : live) : estate (list nat) := mk_estate (lv_flags s) (VarFlow.v_needs (Pipeline.flow (lv_pipe s))) (lv_matching s).

  (** ** One update *)
  (** what is handed over to Pipeline.v; [rules n] is only looked at if [n] was matched in this frame *)
  Definition frame_with (m : moment) (needs : nat -> bool) (rules : nat -> list nat) : Pipeline.frame :=
    Pipeline.mk_frame (VarFlow.mk_frame (w_tree (l_world m)) (fun n => option_map contents (loadT (l_sheet m n))) rules
        (fun n => ruleset_at (l_inline m n)) (l_modified m) (fun n => (l_data m n || l_style m n)%bool) needs (fun _ => false)) (l_alive m) (l_reset m).
  Definition active_at (m : moment) (matching : nat -> option (list nat)) (n : nat) : list nat * MediaDeps.dflags :=
    match loadT (l_sheet m n), matching n with Some s, Some l => chosen s (l_media m n) (l_ratio m n) l | _, _ => ([], MediaDeps.none_flags) end.
  Definition update (mf fuel : nat) (m : moment) (s : live) : option live :=
    let ef := eframe_of m (late m s) in
    match noticed_now ef nodes fuel (matching_state s), estep (rule_progs mf) nodes fuel ef (matching_state s) with
    | Some needs, Some es =>
        let active := active_at m (a_active es) in
        match Pipeline.update veq np initial decode unset_code nodes fuel (lv_pipe s) (frame_with m needs (fun n => fst (active n))) with
        | Some p => Some (mk_live (a_flags es) (fun n => if (needs n && mem n nodes)%bool then MediaDeps.or_dflags (flags_now m s n) (snd (active n)) else flags_now m s n) (a_active es) p)
        | None => None
        end
    | _, _ => None
    end.
  Fixpoint updates (mf fuel : nat) (ms : list moment) (s : live) : option live :=
    match ms with [] => Some s | m :: ms => match update mf fuel m s with Some s => updates mf fuel ms s | None => None end end.
  (** components as they are spawned: [before] *)
  Definition start (before : nat -> nat -> V) : live := mk_live (fun _ => no_eflags) (fun _ => MediaDeps.none_flags) (fun _ => None) (Pipeline.start before).
End Live.
Arguments moment : clear implicits.
Arguments live : clear implicits.

(** Model of how nodes follow changes of media features: crates/bevy_flair_style/src/systems.rs:200-235 (themes of windows),
    389-442 (which nodes are looked at again), 664-755 (where a node's features come from, and the flags that remember what it
    asked for) and the media part of 755-839 and 838-915 (calculate_style_and_set_vars, set_property_values);
    components.rs:155-190, 235-246.
    Not modelled: how bevy_ui computes the camera and the render target of a node (they are changed by the program here), the
    other reasons to look at a node again (one operation [Restyle]; Invalidation.v), and float sizes ([i_width] and [i_height]
    are `logical_size().as_uvec2()`, [i_ratio] the quotient of the unrounded sizes). *)
From Coq Require Import NArith.
From Verif Require Import Base Media.

Section Deps.
  Variable f32 : Type.
  Variables feq fle fge : f32 -> f32 -> bool.

  (** bevy_ui::ComputedUiRenderTargetInfo *)
  Record info := mk_info { i_scale : f32; i_width : N; i_height : N; i_ratio : f32 }.
  (** bevy_camera::RenderTarget; an image or a texture view is [Elsewhere] *)
  Inductive target := Primary | ToWindow (w : nat) | Elsewhere.
  (** a window: `Window::window_theme`, the [WindowMediaFeatures] component, and whether they changed since the last update *)
  Record window := mk_window { w_theme : option color_scheme; w_features : option (option color_scheme); w_changed : bool; w_fchanged : bool }.
  (** components.rs:180-190 DependsOnMediaFeaturesFlags *)
  Record dflags := mk_dflags { on_window : bool; on_info : bool }.
  Definition or_dflags (a b : dflags) : dflags := mk_dflags (on_window a || on_window b) (on_info a || on_info b).
  Definition none_flags : dflags := mk_dflags false false.
  (** A node: ComputedUiTargetCamera, ComputedUiRenderTargetInfo (neither on a TextSpan), the media queries of the rules whose
      selectors it matches ([None]: its style sheet is not there), NodeStyleSelectorFlags, the marker, and the active rules *)
  Record node := mk_node { n_camera : option nat; n_info : option info; n_info_changed : bool; n_rules : option (list (media_selectors f32));
                           n_flags : dflags; n_marked : bool; n_active : list bool }.
  Record world := mk_world { windows : nat -> option window; cameras : nat -> option target; primary : option nat; nodes : nat -> node }.
  Definition bare_node : node := mk_node None None false None none_flags true [].
  Definition start : world := mk_world (fun _ => None) (fun _ => None) None (fun _ => bare_node).

  Definition set {A} (m : nat -> A) (k : nat) (v : A) : nat -> A := fun i => if Nat.eqb i k then v else m i.
  Definition upd_windows f w := mk_world (f (windows w)) (cameras w) (primary w) (nodes w).
  Definition upd_cameras f w := mk_world (windows w) (f (cameras w)) (primary w) (nodes w).
  Definition upd_nodes f w := mk_world (windows w) (cameras w) (primary w) (f (nodes w)).

  (** What happens between two runs of the systems *)
  Inductive op :=
  | OpenWindow (w : nat) (t : option color_scheme) | CloseWindow (w : nat)
  | SetTheme (w : nat) (t : option color_scheme)   (* the program writes to the window *)
  | ThemeMessage (w : nat) (t : color_scheme)      (* WindowEvent::WindowThemeChanged *)
  | SetCamera (c : nat) (t : target) | RemoveCamera (c : nat) | SetPrimary (w : option nat)
  | SetNodeCamera (n : nat) (c : option nat) | SetInfo (n : nat) (i : option info)
  | Load (n : nat) (rules : list (media_selectors f32)) (* the style sheet of the node arrives: nothing marks the node (only Modified is listened to, systems.rs:565) *)
  | Restyle (n : nat) (rules : option (list (media_selectors f32))) (reset : bool). (* data or style sheet changed, new node; reset: systems.rs:605 *)
  Definition opt_scheme_eqb (a b : option color_scheme) : bool :=
    match a, b with Some x, Some y => color_scheme_eqb x y | None, None => true | _, _ => false end.
  Definition retheme (t : option color_scheme) (w : window) : window := mk_window t (w_features w) true (w_fchanged w).
  Definition do (o : op) (s : world) : world :=
    match o with
    | OpenWindow w t => upd_windows (fun m => set m w (Some (mk_window t None true false))) s
    | CloseWindow w => upd_windows (fun m => set m w None) s
    | SetTheme w t => upd_windows (fun m => match m w with Some x => set m w (Some (retheme t x)) | None => m end) s
    | ThemeMessage w t => (* 200-218 *)
        upd_windows (fun m => match m w with
                              | Some x => if opt_scheme_eqb (w_theme x) (Some t) then m else set m w (Some (retheme (Some t) x))
                              | None => m
                              end) s
    | SetCamera c t => upd_cameras (fun m => set m c (Some t)) s
    | RemoveCamera c => upd_cameras (fun m => set m c None) s
    | SetPrimary w => mk_world (windows s) (cameras s) w (nodes s)
    | SetNodeCamera n c => upd_nodes (fun m => let x := m n in set m n (mk_node c (n_info x) (n_info_changed x) (n_rules x) (n_flags x) (n_marked x) (n_active x))) s
    | SetInfo n i => upd_nodes (fun m => let x := m n in set m n (mk_node (n_camera x) i true (n_rules x) (n_flags x) (n_marked x) (n_active x))) s
    | Load n r => upd_nodes (fun m => let x := m n in set m n (mk_node (n_camera x) (n_info x) (n_info_changed x) (Some (match n_rules x with Some r' => r' | None => r end)) (n_flags x) (n_marked x) (n_active x))) s
    | Restyle n r reset => upd_nodes (fun m => let x := m n in set m n (mk_node (n_camera x) (n_info x) (n_info_changed x) r (if reset then none_flags else n_flags x) true (n_active x))) s
    end.

  (** 221-235 compute_window_media_features, components.rs:162-166 from_window *)
  Definition compute_features (x : window) : window :=
    if w_changed x
    then match w_features x with
         | Some f => if opt_scheme_eqb f (w_theme x) then x else mk_window (w_theme x) (Some (w_theme x)) (w_changed x) true
         | None => mk_window (w_theme x) (Some (w_theme x)) (w_changed x) true
         end
    else x.
  (** RenderTarget::normalize, [Some w] for NormalizedRenderTarget::Window(w) *)
  Definition normalize (prim : option nat) (t : target) : option nat :=
    match t with Primary => prim | ToWindow w => Some w | Elsewhere => None end.
  (** 389-427, seen from one node: its camera is the one the loop comes to *)
  Definition mark_window (s : world) (x : node) : bool :=
    match n_camera x with
    | Some c => match cameras s c with
                | Some t => match normalize (primary s) t with
                            | Some w => match windows s w with Some win => w_fchanged win && on_window (n_flags x) | None => false end
                            | None => false
                            end
                | None => false
                end
    | None => false
    end.
  (** 429-442 *)
  Definition mark_info (x : node) : bool := (n_info_changed x && match n_info x with Some _ => on_info (n_flags x) | None => false end)%bool.

  (** 672-683, 716-721 *)
  Definition get_color_scheme (s : world) (x : node) : option color_scheme :=
    match n_camera x with
    | Some c => match cameras s c with
                | Some t => match normalize (primary s) t with
                            | Some w => match windows s w with Some win => match w_features win with Some f => f | None => None end | None => None end
                            | None => None
                            end
                | None => None
                end
    | None => None
    end.
  (** media_selector.rs:75-87 with 716-752: the answer and the flags the question leaves *)
  Definition ask (scheme : option color_scheme) (i : option info) (q : media_selector f32) : bool * dflags :=
    match q with
    | MColorScheme _ c => (match scheme with Some c' => color_scheme_eqb c c' | None => false end, mk_dflags true false)
    | MViewportWidth _ r => (match i with Some i => range_matches N.eqb N.leb ngeb r (i_width i) | None => false end, mk_dflags false true)
    | MViewportHeight _ r => (match i with Some i => range_matches N.eqb N.leb ngeb r (i_height i) | None => false end, mk_dflags false true)
    | MAspectRatio _ r => (match i with Some i => range_matches feq fle fge r (i_ratio i) | None => false end, mk_dflags false true)
    | MResolution _ r => (match i with Some i => range_matches feq fle fge r (i_scale i) | None => false end, mk_dflags false true)
    end.
  (** media_selector.rs:150-164: `all` stops at the first that does not match *)
  Fixpoint ask_all (scheme : option color_scheme) (i : option info) (l : media_selectors f32) : bool * dflags :=
    match l with
    | [] => (true, none_flags)
    | q :: l => let (b, f) := ask scheme i q in if b then let (b', f') := ask_all scheme i l in (b', or_dflags f f') else (false, f)
    end.
  (** style_sheet.rs:294-309 *)
  Fixpoint ask_rules (scheme : option color_scheme) (i : option info) (l : list (media_selectors f32)) : list bool * dflags :=
    match l with
    | [] => ([], none_flags)
    | r :: l => let (b, f) := ask_all scheme i r in let (bs, f') := ask_rules scheme i l in (b :: bs, or_dflags f f')
    end.
  (** 755-839 and 838-915 *)
  Definition recalculate (s : world) (x : node) : node :=
    if n_marked x
    then match n_rules x with
         | Some rules => let (bs, f) := ask_rules (get_color_scheme s x) (n_info x) rules in
             mk_node (n_camera x) (n_info x) (n_info_changed x) (n_rules x) (or_dflags (n_flags x) f) false bs
         | None => x
         end
    else x.
  Definition mark (s : world) (x : node) : node :=
    mk_node (n_camera x) (n_info x) (n_info_changed x) (n_rules x) (n_flags x) (n_marked x || mark_info x || mark_window s x) (n_active x).
  Definition settle_window (x : window) : window := mk_window (w_theme x) (w_features x) false false.
  Definition settle_node (x : node) : node := mk_node (n_camera x) (n_info x) false (n_rules x) (n_flags x) (n_marked x) (n_active x).
  (** One update, in the order of lib.rs:358-376 and 395-425 *)
  Definition systems (s : world) : world :=
    let s1 := upd_windows (fun m w => option_map compute_features (m w)) s in
    let s2 := upd_nodes (fun m n => recalculate s1 (mark s1 (m n))) s1 in
    upd_nodes (fun m n => settle_node (m n)) (upd_windows (fun m w => option_map settle_window (m w)) s2).
  Definition program (ops : list op) (s : world) : world := fold_left (fun s o => do o s) ops s.
  Definition update (s : world) (ops : list op) : world := systems (program ops s).
  Definition updates (h : list (list op)) : world := fold_left update h start.
End Deps.

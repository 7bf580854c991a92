(** Model of crates/bevy_flair_style/src/media_selector.rs (whole non-test part).

    [f32] is an abstract type with the three comparison results the code uses ([==], [<=], [>=])
    and the conversion/division used for the aspect ratio; nothing is assumed about them, so NaN is
    covered. [u32] is [N]. *)
From Coq Require Import NArith.
From Verif Require Import Base.

(** media_selector.rs:9-16 *)
Inductive range_selector (T : Type) := Exact (t : T) | LessOrEqual (t : T) | GreaterOrEqual (t : T).
Arguments Exact {T}. Arguments LessOrEqual {T}. Arguments GreaterOrEqual {T}.

(** media_selector.rs:23-29; [eq le ge] are T's [PartialEq]/[PartialOrd] *)
Definition range_matches {T} (eq le ge : T -> T -> bool) (s : range_selector T) (value : T) : bool :=
  match s with
  | Exact exact => eq value exact
  | LessOrEqual lt => le value lt
  | GreaterOrEqual gt => ge value gt
  end.

(** lib.rs:135 enum ColorScheme *)
Inductive color_scheme := Light | Dark.
Definition color_scheme_eqb (a b : color_scheme) : bool :=
  match a, b with Light, Light | Dark, Dark => true | _, _ => false end.

Section Media.
  Variable f32 : Type.
  Variables feq fle fge : f32 -> f32 -> bool.
  Variable fdiv : N -> N -> f32. (* (a as f32) / (b as f32) *)

  (** media_selector.rs:36-53  MediaFeaturesProvider *)
  Record provider := { p_color_scheme : option color_scheme; p_resolution : option f32;
                       p_width : option N; p_height : option N }.

  (** media_selector.rs:50-52 *)
  Definition get_aspect_ratio (m : provider) : option f32 :=
    match p_width m, p_height m with
    | Some w, Some h => Some (fdiv w h)
    | _, _ => None
    end.

  (** media_selector.rs:57-68 *)
  Inductive media_selector :=
  | MColorScheme (c : color_scheme)
  | MViewportWidth (s : range_selector N)
  | MViewportHeight (s : range_selector N)
  | MAspectRatio (s : range_selector f32)
  | MResolution (s : range_selector f32).

  Definition ngeb (a b : N) : bool := N.leb b a.

  (** media_selector.rs:75-87; [?] on a missing feature = [None] *)
  Definition selector_matches (s : media_selector) (m : provider) : option bool :=
    match s with
    | MColorScheme t => option_map (fun c => color_scheme_eqb t c) (p_color_scheme m)
    | MViewportWidth s => option_map (range_matches N.eqb N.leb ngeb s) (p_width m)
    | MViewportHeight s => option_map (range_matches N.eqb N.leb ngeb s) (p_height m)
    | MAspectRatio s => option_map (range_matches feq fle fge s) (get_aspect_ratio m)
    | MResolution s => option_map (range_matches feq fle fge s) (p_resolution m)
    end.

  (** media_selector.rs:106  MediaSelectors(Arc<[MediaSelector]>) *)
  Definition media_selectors := list media_selector.

  (** media_selector.rs:136-138 *)
  Definition media_empty : media_selectors := [].

  (** media_selector.rs:141-147 *)
  Definition merge_with (self other : media_selectors) : media_selectors :=
    match self with
    | [] => other
    | _ => self ++ other
    end.

  (** media_selector.rs:150-164 (the warning log is not modelled) *)
  Definition media_matches (self : media_selectors) (m : provider) : bool :=
    match self with
    | [] => true
    | _ => forallb (fun s => match selector_matches s m with Some b => b | None => false end) self
    end.
End Media.

(** What a media feature test means. *)
From Coq Require Import NArith.
From Verif Require Import Base Media.
Local Open Scope N_scope.

Section Spec.
  Variable f32 : Type.
  Variables feq fle fge : f32 -> f32 -> bool.
  Variable fdiv : N -> N -> f32.

  Inductive test_holds (m : provider f32) : media_selector f32 -> Prop :=
  | th_scheme : forall c, p_color_scheme f32 m = Some c -> test_holds m (MColorScheme f32 c)
  | th_width_exact : forall w, p_width f32 m = Some w -> test_holds m (MViewportWidth f32 (Exact w))
  | th_width_max : forall w x, p_width f32 m = Some w -> w <= x -> test_holds m (MViewportWidth f32 (LessOrEqual x))
  | th_width_min : forall w x, p_width f32 m = Some w -> x <= w -> test_holds m (MViewportWidth f32 (GreaterOrEqual x))
  | th_height_exact : forall h, p_height f32 m = Some h -> test_holds m (MViewportHeight f32 (Exact h))
  | th_height_max : forall h x, p_height f32 m = Some h -> h <= x -> test_holds m (MViewportHeight f32 (LessOrEqual x))
  | th_height_min : forall h x, p_height f32 m = Some h -> x <= h -> test_holds m (MViewportHeight f32 (GreaterOrEqual x))
  | th_aspect_exact : forall w h x, p_width f32 m = Some w -> p_height f32 m = Some h -> feq (fdiv w h) x = true -> test_holds m (MAspectRatio f32 (Exact x))
  | th_aspect_max : forall w h x, p_width f32 m = Some w -> p_height f32 m = Some h -> fle (fdiv w h) x = true -> test_holds m (MAspectRatio f32 (LessOrEqual x))
  | th_aspect_min : forall w h x, p_width f32 m = Some w -> p_height f32 m = Some h -> fge (fdiv w h) x = true -> test_holds m (MAspectRatio f32 (GreaterOrEqual x))
  | th_res_exact : forall r x, p_resolution f32 m = Some r -> feq r x = true -> test_holds m (MResolution f32 (Exact x))
  | th_res_max : forall r x, p_resolution f32 m = Some r -> fle r x = true -> test_holds m (MResolution f32 (LessOrEqual x))
  | th_res_min : forall r x, p_resolution f32 m = Some r -> fge r x = true -> test_holds m (MResolution f32 (GreaterOrEqual x)).

  (** the feature a test needs is not known to the provider *)
  Definition feature_missing (m : provider f32) (s : media_selector f32) : Prop :=
    match s with
    | MColorScheme _ _ => p_color_scheme f32 m = None
    | MViewportWidth _ _ => p_width f32 m = None
    | MViewportHeight _ _ => p_height f32 m = None
    | MAspectRatio _ _ => p_width f32 m = None \/ p_height f32 m = None
    | MResolution _ _ => p_resolution f32 m = None
    end.
End Spec.

(** Model of the interpolation of animated values: crates/bevy_flair_style/src/animations/reflect.rs:29-470 (the
    implementations of InterpolateValue for the ten types registered as animatable, 478-500).
    Numbers are rationals: f32 rounding, infinities and NaN are not modelled. Colours are given by their four Oklab
    coordinates: the conversion from and to other colour spaces is not modelled. *)
From Coq Require Import QArith.
From Verif Require Import Base Calc.

(** bevy_math FloatExt::lerp *)
Definition lerp (a b t : Q) : Q := a + (b - a) * t.

(** reflect.rs:212-250 interpolate_val. The debug assertion that the value made is zero panics in builds with debug assertions
    ([debug]); without them the function goes on. [OutOfFuel] never happens (proved, C67). *)
Fixpoint interpolate_val_fuel (debug : bool) (fuel : nat) (a b : val) (t : Q) : res val :=
  match fuel with
  | O => OutOfFuel
  | S n =>
      match a, b with
      | VPx x, VPx y => Ok (VPx (lerp x y t)) | VPercent x, VPercent y => Ok (VPercent (lerp x y t))
      | VVw x, VVw y => Ok (VVw (lerp x y t)) | VVh x, VVh y => Ok (VVh (lerp x y t))
      | VVmin x, VVmin y => Ok (VVmin (lerp x y t)) | VVmax x, VVmax y => Ok (VVmax (lerp x y t))
      | VAuto, VAuto => Ok VAuto
      | _, _ =>
          if is_zero a then
            let a' := val_mul b 0 in
            if debug && negb (is_zero a') then Panic else interpolate_val_fuel debug n a' b t
          else if is_zero b then
            let b' := val_mul a 0 in
            if debug && negb (is_zero b') then Panic else interpolate_val_fuel debug n a b' t
          else Ok (if Qle_bool 1 t then b else a)
      end
  end.
(** Two calls are enough (C67_terminates) *)
Definition interpolate_val_res (debug : bool) : val -> val -> Q -> res val := interpolate_val_fuel debug 2.
(** The value in builds without debug assertions *)
Definition interpolate_val (a b : val) (t : Q) : val :=
  match interpolate_val_res false a b t with Ok v => v | _ => a end.

(** bevy_math Vec2::lerp *)
Record vec2 := mk_vec2 { vx : Q; vy : Q }.
Definition interpolate_vec2 (a b : vec2) (t : Q) : vec2 := mk_vec2 (lerp (vx a) (vx b) t) (lerp (vy a) (vy b) t).
(** reflect.rs:258-266 Val2 *)
Record val2 := mk_val2 { v2x : val; v2y : val }.
Definition interpolate_val2 (a b : val2) (t : Q) : val2 :=
  mk_val2 (interpolate_val (v2x a) (v2x b) t) (interpolate_val (v2y a) (v2y b) t).
(** reflect.rs:268-273 interpolate_color; bevy_color's Mix for Oklaba is component-wise *)
Record color := mk_color { c_l : Q; c_a : Q; c_b : Q; c_alpha : Q }.
Definition interpolate_color (a b : color) (t : Q) : color :=
  mk_color (lerp (c_l a) (c_l b) t) (lerp (c_a a) (c_a b) t) (lerp (c_b a) (c_b b) t) (lerp (c_alpha a) (c_alpha b) t).
(** reflect.rs:46-50 Rot2: bevy_math's slerp rotates by a fraction of the angle between the two, which is at most half a turn.
    Rotations are given in turns in (-1/2, 1/2] (Calc.v, [wrap]). *)
Definition interpolate_rot2 (a b : Q) (t : Q) : Q := wrap (a + wrap (b - a) * t).

(** reflect.rs:184-199 interpolate_list_with *)
Definition zip_with {X} (f : X -> X -> X) : list X -> list X -> list X :=
  fix go (a b : list X) := match a, b with x :: a, y :: b => f x y :: go a b | _, _ => [] end.
Definition interpolate_list_with {X} (a b : list X) (t : Q) (f : X -> X -> Q -> X) : list X :=
  if negb (Nat.eqb (length a) (length b)) then a else zip_with (fun x y => f x y t) a b.
(** reflect.rs:201-211 interpolate_option_with *)
Definition interpolate_option_with {X} (f : X -> X -> Q -> X) (a b : option X) (t : Q) : option X :=
  match a, b with Some x, Some y => Some (f x y t) | _, _ => None end.

(** reflect.rs:281-287 interpolate_color_stop *)
Record color_stop := mk_stop { s_color : color; s_point : val; s_hint : Q }.
Definition interpolate_color_stop (a b : color_stop) (t : Q) : color_stop :=
  mk_stop (interpolate_color (s_color a) (s_color b) t) (interpolate_val (s_point a) (s_point b) t) (lerp (s_hint a) (s_hint b) t).
(** reflect.rs:289-299 interpolate_angular_color_stop *)
Record angular_stop := mk_astop { as_color : color; as_angle : option Q; as_hint : Q }.
Definition interpolate_angular_color_stop (a b : angular_stop) (t : Q) : angular_stop :=
  mk_astop (interpolate_color (as_color a) (as_color b) t) (interpolate_option_with lerp (as_angle a) (as_angle b) t) (lerp (as_hint a) (as_hint b) t).
(** reflect.rs:301-307 interpolate_ui_position *)
Record ui_position := mk_pos { p_anchor : vec2; p_x : val; p_y : val }.
Definition interpolate_ui_position (a b : ui_position) (t : Q) : ui_position :=
  mk_pos (interpolate_vec2 (p_anchor a) (p_anchor b) t) (interpolate_val (p_x a) (p_x b) t) (interpolate_val (p_y a) (p_y b) t).

(** bevy_ui's gradients. Colour spaces and radial shapes are only compared: they are numbers here. *)
Record linear_gradient := mk_lin { l_space : nat; l_angle : Q; l_stops : list color_stop }.
Record radial_gradient := mk_rad { r_space : nat; r_pos : ui_position; r_shape : nat; r_stops : list color_stop }.
Record conic_gradient := mk_con { k_space : nat; k_start : Q; k_pos : ui_position; k_stops : list angular_stop }.
Inductive gradient := GLinear (g : linear_gradient) | GRadial (g : radial_gradient) | GConic (g : conic_gradient).
(** reflect.rs:309-327 interpolate_linear_gradient *)
Definition interpolate_linear_gradient (a b : linear_gradient) (t : Q) : linear_gradient :=
  if negb (Nat.eqb (l_space a) (l_space b)) then a
  else mk_lin (l_space a) (lerp (l_angle a) (l_angle b) t) (interpolate_list_with (l_stops a) (l_stops b) t interpolate_color_stop).
(** reflect.rs:329-356 interpolate_radial_gradient *)
Definition interpolate_radial_gradient (a b : radial_gradient) (t : Q) : radial_gradient :=
  if negb (Nat.eqb (r_space a) (r_space b)) then a
  else if negb (Nat.eqb (r_shape a) (r_shape b)) then a
  else mk_rad (r_space a) (interpolate_ui_position (r_pos a) (r_pos b) t) (r_shape a)
              (interpolate_list_with (r_stops a) (r_stops b) t interpolate_color_stop).
(** reflect.rs:358-378 interpolate_conic_gradient *)
Definition interpolate_conic_gradient (a b : conic_gradient) (t : Q) : conic_gradient :=
  if negb (Nat.eqb (k_space a) (k_space b)) then a
  else mk_con (k_space a) (lerp (k_start a) (k_start b) t) (interpolate_ui_position (k_pos a) (k_pos b) t)
              (interpolate_list_with (k_stops a) (k_stops b) t interpolate_angular_color_stop).
(** reflect.rs:380-398 interpolate_gradient *)
Definition interpolate_gradient (a b : gradient) (t : Q) : gradient :=
  match a, b with
  | GLinear a, GLinear b => GLinear (interpolate_linear_gradient a b t)
  | GRadial a, GRadial b => GRadial (interpolate_radial_gradient a b t)
  | GConic a, GConic b => GConic (interpolate_conic_gradient a b t)
  | _, _ => a
  end.
(** reflect.rs:400-408 interpolate_shadow_style *)
Record shadow := mk_shadow { h_color : color; h_x : val; h_y : val; h_spread : val; h_blur : val }.
Definition interpolate_shadow_style (a b : shadow) (t : Q) : shadow :=
  mk_shadow (interpolate_color (h_color a) (h_color b) t) (interpolate_val (h_x a) (h_x b) t) (interpolate_val (h_y a) (h_y b) t)
            (interpolate_val (h_spread a) (h_spread b) t) (interpolate_val (h_blur a) (h_blur b) t).
(** reflect.rs:440-451 TextShadow *)
Record text_shadow := mk_tshadow { ts_offset : vec2; ts_color : color }.
Definition interpolate_text_shadow (a b : text_shadow) (t : Q) : text_shadow :=
  mk_tshadow (interpolate_vec2 (ts_offset a) (ts_offset b) t) (interpolate_color (ts_color a) (ts_color b) t).

(** The animatable types, reflect.rs:478-500. BorderGradient is handled as BackgroundGradient is (410-431). *)
Inductive value :=
| AF32 (q : Q) | AVec2 (v : vec2) | ARot2 (r : Q) | AColor (c : color) | AVal (v : val) | AVal2 (v : val2)
| AGradients (l : list gradient) | ABoxShadow (l : list shadow) | ATextShadow (s : text_shadow).
(** reflect.rs:108-145: a transition curve is made for the type of its values; values of another type panic in
    `downcast_value` (a property has one type, so this does not happen; the value is left as it is here). *)
Definition interpolate (a b : value) (t : Q) : value :=
  match a, b with
  | AF32 a, AF32 b => AF32 (lerp a b t)
  | AVec2 a, AVec2 b => AVec2 (interpolate_vec2 a b t)
  | ARot2 a, ARot2 b => ARot2 (interpolate_rot2 a b t)
  | AColor a, AColor b => AColor (interpolate_color a b t)
  | AVal a, AVal b => AVal (interpolate_val a b t)
  | AVal2 a, AVal2 b => AVal2 (interpolate_val2 a b t)
  | AGradients a, AGradients b => AGradients (interpolate_list_with a b t interpolate_gradient)
  | ABoxShadow a, ABoxShadow b => ABoxShadow (interpolate_list_with a b t interpolate_shadow_style)
  | ATextShadow a, ATextShadow b => ATextShadow (interpolate_text_shadow a b t)
  | _, _ => a
  end.

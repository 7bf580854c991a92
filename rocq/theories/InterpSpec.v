(** What interpolating two values should mean, said independently of the code: a value is a list of numbers plus a
    skeleton (its type, which lengths are `auto`, how long its lists are ...). *)
From Coq Require Import QArith.
From Verif Require Import Base Calc CalcSpec Interp.

(** A number, a part of the skeleton, or a length: whether it is `auto`, and how many of each unit it is worth *)
Inductive atom := Num (q : Q) | Tag (n : nat) | Len (auto : bool) (worth : lunit -> Q).
Definition is_auto (v : val) : bool := match v with VAuto => true | _ => false end.
Definition flat_val (v : val) : list atom := [Len (is_auto v) (val_worth v)].
Definition flat_vec2 (v : vec2) : list atom := [Num (vx v); Num (vy v)].
Definition flat_color (c : color) : list atom := [Num (c_l c); Num (c_a c); Num (c_b c); Num (c_alpha c)].
Definition flat_list {X} (f : X -> list atom) (l : list X) : list atom := Tag (length l) :: flat_map f l.
Definition flat_stop (s : color_stop) : list atom := flat_color (s_color s) ++ flat_val (s_point s) ++ [Num (s_hint s)].
Definition flat_option (o : option Q) : list atom := match o with None => [Tag 0] | Some q => [Tag 1; Num q] end.
Definition flat_astop (s : angular_stop) : list atom := flat_color (as_color s) ++ flat_option (as_angle s) ++ [Num (as_hint s)].
Definition flat_pos (p : ui_position) : list atom := flat_vec2 (p_anchor p) ++ flat_val (p_x p) ++ flat_val (p_y p).
Definition flat_gradient (g : gradient) : list atom :=
  match g with
  | GLinear g => Tag 0 :: Tag (l_space g) :: Num (l_angle g) :: flat_list flat_stop (l_stops g)
  | GRadial g => Tag 1 :: Tag (r_space g) :: Tag (r_shape g) :: flat_pos (r_pos g) ++ flat_list flat_stop (r_stops g)
  | GConic g => Tag 2 :: Tag (k_space g) :: Num (k_start g) :: flat_pos (k_pos g) ++ flat_list flat_astop (k_stops g)
  end.
Definition flat_shadow (s : shadow) : list atom :=
  flat_color (h_color s) ++ flat_val (h_x s) ++ flat_val (h_y s) ++ flat_val (h_spread s) ++ flat_val (h_blur s).
Definition flat (v : value) : list atom :=
  match v with
  | AF32 q => [Tag 0; Num q] | AVec2 v => Tag 1 :: flat_vec2 v | ARot2 r => [Tag 2; Num r] | AColor c => Tag 3 :: flat_color c
  | AVal v => Tag 4 :: flat_val v | AVal2 v => Tag 5 :: flat_val (v2x v) ++ flat_val (v2y v)
  | AGradients l => Tag 6 :: flat_list flat_gradient l | ABoxShadow l => Tag 7 :: flat_list flat_shadow l
  | ATextShadow s => Tag 8 :: flat_vec2 (ts_offset s) ++ flat_color (ts_color s)
  end.

(** the same skeleton *)
Definition same_kind (a b : atom) : Prop :=
  match a, b with Num _, Num _ => True | Tag m, Tag n => m = n | Len x _, Len y _ => x = y | _, _ => False end.
Definition same_shape (a b : list atom) : Prop := Forall2 same_kind a b.
(** the same skeleton, and any two corresponding lengths are multiples of one unit (zero is a multiple of every unit) *)
Definition one_unit (f g : lunit -> Q) : Prop := exists u, forall u', u' <> u -> f u' == 0 /\ g u' == 0.
Definition compat (a b : atom) : Prop :=
  match a, b with Len x f, Len y g => x = y /\ one_unit f g | _, _ => same_kind a b end.
Definition compatible (a b : list atom) : Prop := Forall2 compat a b.
(** the same value *)
Definition atom_eq (a b : atom) : Prop :=
  match a, b with Num p, Num q => p == q | Tag m, Tag n => m = n | Len x f, Len y g => x = y /\ (forall u, f u == g u) | _, _ => False end.
Definition same (a b : list atom) : Prop := Forall2 atom_eq a b.
(** [r] is [t] of the way from [a] to [b] *)
Definition atom_on_line (t : Q) (a b r : atom) : Prop :=
  match a, b, r with
  | Num p, Num q, Num x => x == (1 - t) * p + t * q
  | Tag m, Tag n, Tag o => m = n /\ o = m
  | Len x f, Len y g, Len z h => x = y /\ z = x /\ forall u, h u == (1 - t) * f u + t * g u
  | _, _, _ => False
  end.
Inductive on_line (t : Q) : list atom -> list atom -> list atom -> Prop :=
| on_nil : on_line t [] [] []
| on_cons : forall x y z a b r, atom_on_line t x y z -> on_line t a b r -> on_line t (x :: a) (y :: b) (z :: r).

Definition zero_length (v : val) : Prop := v <> VAuto /\ forall u, val_worth v u == 0.
Definition is_rotation (v : value) : Prop := match v with ARot2 _ => True | _ => False end.

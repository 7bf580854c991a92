(** The notations of CSS Color 4 and the colors they stand for: C100. *)
From Coq Require Import Ascii String NArith ZArith QArith.
From Verif Require Import Base Vars VarText SheetText ValueParse ValueParseSpec Color.
Open Scope nat_scope.

(** ** What is written *)
(** a component: the word none, a number, or so many percent *)
Inductive given := Missing | Number (q : Q) | Percent (q : Q).
Inductive is_given : tree -> given -> Prop :=
| ig_none x : word x "none" -> is_given x Missing
| ig_number x q : number x q -> is_given x (Number q)
| ig_percent x q : percentage x q -> is_given x (Percent q).
(** a hue in degrees, or none; [rho]: turns in a radian *)
Inductive is_hue (rho : Q) : tree -> option Q -> Prop :=
| ih_none x : word x "none" -> is_hue rho x None
| ih_number x q : number x q -> is_hue rho x (Some q)
| ih_deg x q : dimension x "deg" q -> is_hue rho x (Some q)
| ih_grad x q : dimension x "grad" q -> is_hue rho x (Some (q * 360 / 400)%Q)
| ih_rad x q : dimension x "rad" q -> is_hue rho x (Some (q * rho * 360)%Q)
| ih_turn x q : dimension x "turn" q -> is_hue rho x (Some (q * 360)%Q).
(** behind the components: nothing, or a slash and alpha; with commas: nothing, or a comma and alpha *)
Inductive modern_end : list tree -> given -> Prop :=
| me_opaque : modern_end [] (Number 1)
| me_alpha x a : is_given x a -> modern_end [slash; x] a.
Inductive legacy_end : list tree -> given -> Prop :=
| le_opaque : legacy_end [] (Number 1)
| le_alpha x a : is_given x a -> a <> Missing -> legacy_end [comma; x] a.
Definition is_percent (g : given) : Prop := exists q, g = Percent q.
Definition is_number (g : given) : Prop := exists q, g = Number q.

Inductive space_name := InSrgb | InLinearSrgb | InXyz | InOther.
Definition space_names : list (string * space_name) :=
  [("srgb", InSrgb); ("srgb-linear", InLinearSrgb); ("xyz", InXyz); ("xyz-d65", InXyz);
   ("display-p3", InOther); ("a98-rgb", InOther); ("prophoto-rgb", InOther); ("rec2020", InOther); ("xyz-d50", InOther)]%string.
Inductive notation :=
| Bytes (r g b : Z) (a : Q)
| CurrentColor
| Rgb (r g b a : given)
| Hsl (h : option Q) (s l a : given)
| Hwb (h : option Q) (w b a : given)
| Lab (l a b al : given)
| Lch (l c : given) (h : option Q) (a : given)
| Oklab (l a b al : given)
| Oklch (l c : given) (h : option Q) (a : given)
| InSpace (s : space_name) (x y z a : given).
(** hexadecimal digits *)
Definition digit_is (c : ascii) (v : Z) : Prop := exists n, nth_error (tx "0123456789abcdef") n = Some (lower c) /\ v = Z.of_nat n.
Definition hash (x : tree) (s : text) : Prop := x = Leaf (THash s) \/ x = Leaf (TIdHash s).
Definition called (x : tree) (ks : list string) (l : list tree) : Prop := exists k, In k ks /\ call x k l.
(** [numbers]: whether the percentages of hsl and hwb may be written without the sign *)
Definition share (numbers : bool) (g : given) : Prop := match g with Number _ => numbers = true | _ => True end.
Inductive written (numbers : bool) (rho : Q) : tree -> notation -> Prop :=
| wr_hex3 x a b c r g u : hash x [a; b; c] -> digit_is a r -> digit_is b g -> digit_is c u -> written numbers rho x (Bytes (r * 16 + r) (g * 16 + g) (u * 16 + u) 1)
| wr_hex4 x a b c d r g u v : hash x [a; b; c; d] -> digit_is a r -> digit_is b g -> digit_is c u -> digit_is d v ->
    written numbers rho x (Bytes (r * 16 + r) (g * 16 + g) (u * 16 + u) (inject_Z (v * 16 + v) / 255)%Q)
| wr_hex6 x a a' b b' c c' r r' g g' u u' : hash x [a; a'; b; b'; c; c'] -> digit_is a r -> digit_is a' r' -> digit_is b g -> digit_is b' g' -> digit_is c u -> digit_is c' u' ->
    written numbers rho x (Bytes (r * 16 + r') (g * 16 + g') (u * 16 + u') 1)
| wr_hex8 x a a' b b' c c' d d' r r' g g' u u' v v' : hash x [a; a'; b; b'; c; c'; d; d'] ->
    digit_is a r -> digit_is a' r' -> digit_is b g -> digit_is b' g' -> digit_is c u -> digit_is c' u' -> digit_is d v -> digit_is d' v' ->
    written numbers rho x (Bytes (r * 16 + r') (g * 16 + g') (u * 16 + u') (inject_Z (v * 16 + v') / 255)%Q)
| wr_name x k r g b : In (k, (r, g, b)) named_colors -> word x k -> written numbers rho x (Bytes r g b 1)
| wr_transparent x : word x "transparent" -> written numbers rho x (Bytes 0 0 0 0)
| wr_current x : word x "currentcolor" -> written numbers rho x CurrentColor
| wr_rgb x r g b e r' g' b' a : called x ["rgb"; "rgba"]%string (r :: g :: b :: e) -> is_given r r' -> is_given g g' -> is_given b b' -> modern_end e a -> written numbers rho x (Rgb r' g' b' a)
| wr_rgb_commas x r g b e r' g' b' a : called x ["rgb"; "rgba"]%string (r :: comma :: g :: comma :: b :: e) -> is_given r r' -> is_given g g' -> is_given b b' -> legacy_end e a ->
    (is_number r' /\ is_number g' /\ is_number b') \/ (is_percent r' /\ is_percent g' /\ is_percent b') -> written numbers rho x (Rgb r' g' b' a)
| wr_hsl x h s l e h' s' l' a : called x ["hsl"; "hsla"]%string (h :: s :: l :: e) -> is_hue rho h h' -> is_given s s' -> is_given l l' -> share numbers s' -> share numbers l' -> modern_end e a ->
    written numbers rho x (Hsl h' s' l' a)
| wr_hsl_commas x h s l e h' s' l' a : called x ["hsl"; "hsla"]%string (h :: comma :: s :: comma :: l :: e) -> is_hue rho h (Some h') -> is_given s s' -> is_given l l' -> is_percent s' -> is_percent l' -> legacy_end e a ->
    written numbers rho x (Hsl (Some h') s' l' a)
| wr_hwb x h w b e h' w' b' a : called x ["hwb"]%string (h :: w :: b :: e) -> is_hue rho h h' -> is_given w w' -> is_given b b' -> share numbers w' -> share numbers b' -> modern_end e a ->
    written numbers rho x (Hwb h' w' b' a)
| wr_lab x l a b e l' a' b' al : called x ["lab"]%string (l :: a :: b :: e) -> is_given l l' -> is_given a a' -> is_given b b' -> modern_end e al -> written numbers rho x (Lab l' a' b' al)
| wr_lch x l c h e l' c' h' al : called x ["lch"]%string (l :: c :: h :: e) -> is_given l l' -> is_given c c' -> is_hue rho h h' -> modern_end e al -> written numbers rho x (Lch l' c' h' al)
| wr_oklab x l a b e l' a' b' al : called x ["oklab"]%string (l :: a :: b :: e) -> is_given l l' -> is_given a a' -> is_given b b' -> modern_end e al -> written numbers rho x (Oklab l' a' b' al)
| wr_oklch x l c h e l' c' h' al : called x ["oklch"]%string (l :: c :: h :: e) -> is_given l l' -> is_given c c' -> is_hue rho h h' -> modern_end e al -> written numbers rho x (Oklch l' c' h' al)
| wr_space x s k sp a b c e a' b' c' al : called x ["color"]%string (s :: a :: b :: c :: e) -> In (k, sp) space_names -> word s k -> is_given a a' -> is_given b b' -> is_given c c' -> modern_end e al ->
    written numbers rho x (InSpace sp a' b' c' al).

(** ** What it stands for, in the units of bevy_color *)
Open Scope Q_scope.
(** [v] is what is left of [q] between [lo] and [hi] *)
Definition clamped (lo hi q v : Q) : Prop := (lo <= q <= hi /\ v == q) \/ (q < lo /\ v == lo) \/ (hi < q /\ v == hi).
(** a number, or percents of [range]; nothing is nothing *)
Definition amount (range : Q) (g : given) : Q := match g with Missing => 0 | Number q => q | Percent q => q / 100 * range end.
(** percents, with or without the sign *)
Definition percents (g : given) : Q := match g with Missing => 0 | Number q => q / 100 | Percent q => q / 100 end.
(** the byte that is nearest to the amount *)
Definition byte (g : given) (v : Q) : Prop := exists z c, clamped 0 255 (amount 255 g) c /\ inject_Z z - (1 # 2) <= c < inject_Z z + (1 # 2) /\ v == inject_Z z / 255.
Definition alpha_is (missing : Q) (g : given) (v : Q) : Prop := match g with Missing => v == missing | _ => clamped 0 1 (amount 1 g) v end.
(** the same direction, less than a turn *)
Definition direction (h : option Q) (v : Q) : Prop := match h with None => v == 0 | Some q => 0 <= v < 360 /\ exists k : Z, v == q - 360 * inject_Z k end.
(** How alpha is, if it is missing, and the units of bevy_color for lightness, a and b, and chroma of CIE Lab and LCH.
    In CSS missing components are 0; bevy_color's lightness, a, b and chroma are hundredths of those of CSS (its conversions to XYZ multiply by 100). *)
Record convention := { no_alpha : Q; lab_l : Q; lab_ab : Q; lch_l : Q; lch_c : Q }.
Definition css : convention := {| no_alpha := 0; lab_l := 1 # 100; lab_ab := 1 # 100; lch_l := 1 # 100; lch_c := 1 # 100 |}.
(** what the code makes of it *)
Definition code : convention := {| no_alpha := 1; lab_l := 15 # 1000; lab_ab := 12 # 1000; lch_l := 15 # 1000; lch_c := 1 # 100 |}.
Definition is_color (c : color) (m : color_model) (p q r a : Q -> Prop) : Prop := model c = m /\ p (c1 c) /\ q (c2 c) /\ r (c3 c) /\ a (alpha c).
Definition stands_for (k : convention) (w : notation) (c : color) : Prop :=
  match w with
  | Bytes r g b a => is_color c Srgba (Qeq (inject_Z r / 255)) (Qeq (inject_Z g / 255)) (Qeq (inject_Z b / 255)) (Qeq a)
  | CurrentColor => False
  | Rgb r g b a => is_color c Srgba (byte r) (byte g) (byte b) (alpha_is 0 a)
  | Hsl h s l a => is_color c Hsla (direction h) (clamped 0 1 (percents s)) (clamped 0 1 (percents l)) (alpha_is (no_alpha k) a)
  | Hwb h w b a => is_color c Hwba (direction h) (clamped 0 1 (percents w)) (clamped 0 1 (percents b)) (alpha_is (no_alpha k) a)
  | Lab l a b al => is_color c Laba (Qeq (amount 100 l * lab_l k)) (Qeq (amount 125 a * lab_ab k)) (Qeq (amount 125 b * lab_ab k)) (alpha_is (no_alpha k) al)
  | Lch l ch h al => is_color c Lcha (Qeq (amount 100 l * lch_l k)) (Qeq (amount 150 ch * lch_c k)) (direction h) (alpha_is (no_alpha k) al)
  | Oklab l a b al => is_color c Oklaba (Qeq (amount 1 l)) (Qeq (amount (4 # 10) a)) (Qeq (amount (4 # 10) b)) (alpha_is (no_alpha k) al)
  | Oklch l ch h al => is_color c Oklcha (Qeq (amount 1 l)) (Qeq (amount (4 # 10) ch)) (direction h) (alpha_is (no_alpha k) al)
  | InSpace sp x y z al =>
      exists m, match sp with InSrgb => m = Srgba | InLinearSrgb => m = LinearRgba | InXyz => m = Xyza | InOther => False end /\
        is_color c m (Qeq (amount 1 x)) (Qeq (amount 1 y)) (Qeq (amount 1 z)) (alpha_is (no_alpha k) al)
  end.
(** notations with a color in bevy_color that does not depend on what is around *)
Definition supported (w : notation) : Prop := match w with CurrentColor | InSpace InOther _ _ _ _ => False | _ => True end.
(** notations the code and CSS agree on; CSS brings lightness of Oklab and Oklch back between 0 and 1 and makes chroma at least 0 *)
Definition sure_alpha (a : given) : Prop := a <> Missing.
Definition agreed (w : notation) : Prop :=
  match w with
  | Bytes _ _ _ _ | Rgb _ _ _ _ => True
  | Hsl _ s l a => ~ is_number s /\ ~ is_number l /\ sure_alpha a
  | Hwb _ s l a => ~ is_number s /\ ~ is_number l /\ sure_alpha a
  | Oklab l _ _ a => sure_alpha a /\ 0 <= amount 1 l <= 1
  | Oklch l c _ a => sure_alpha a /\ 0 <= amount 1 l <= 1 /\ 0 <= amount (4 # 10) c
  | InSpace sp _ _ _ a => sp <> InOther /\ sure_alpha a
  | _ => False
  end.
(** the same color *)
Definition same_color (c d : color) : Prop := model c = model d /\ c1 c == c1 d /\ c2 c == c2 d /\ c3 c == c3 d /\ alpha c == alpha d.

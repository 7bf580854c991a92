(** Model of the parser of colors: crates/bevy_flair_css_parser/src/reflect/color.rs:12-202.
    color.rs hands the tokens to cssparser_color 0.3 (parse_color_with; the crate is not in /repo, its functions are written down here from its documentation and
    CSS Color 4) and says with FromParsedColor what becomes of each notation: that is [from_rgba], [from_hsl], ... below.
    As in ValueParse.v a color is one tree of tokens without white space, and numbers are exact (f32 in the code).  [rho]: turns in a radian. *)
From Coq Require Import Ascii String NArith ZArith QArith Qround.
From Verif Require Import Base Vars VarText SheetText ValueParse.
Open Scope nat_scope.

(** bevy_color's Color: the space, three coordinates and alpha *)
Inductive color_model := Srgba | LinearRgba | Hsla | Hwba | Laba | Lcha | Oklaba | Oklcha | Xyza.
Record color := mk_color { model : color_model; c1 : Q; c2 : Q; c3 : Q; alpha : Q }.

(** ** color.rs:27-160.  [None] stands for the missing component `none`; an error is [None] *)
Definition unwrap_component (o : option Q) : Q := match o with Some q => q | None => 0%Q end.
Definition unwrap_alpha (o : option Q) : Q := match o with Some q => q | None => 1%Q end.
(** 39-44; lerp(0, output, inverse_lerp(0, input, value)) *)
Definition remap (value input output : Q) : Q := (0 + (output - 0) * ((value - 0) / (input - 0)))%Q.
(** 47-52 *)
Definition from_current_color : option color := None.
(** 54-56; srgb_u8 divides by 255 *)
Definition from_rgba (r g b : Z) (a : Q) : color := mk_color Srgba (inject_Z r / 255) (inject_Z g / 255) (inject_Z b / 255) a.
(** 58-80 *)
Definition from_hsl (h s l a : option Q) : color := mk_color Hsla (unwrap_component h) (unwrap_component s) (unwrap_component l) (unwrap_alpha a).
Definition from_hwb (h w b a : option Q) : color := mk_color Hwba (unwrap_component h) (unwrap_component w) (unwrap_component b) (unwrap_alpha a).
(** 82-104 *)
Definition from_lab (l a b al : option Q) : color :=
  mk_color Laba (remap (unwrap_component l) 100 (15 # 10)) (remap (unwrap_component a) 125 (15 # 10)) (remap (unwrap_component b) 125 (15 # 10)) (unwrap_alpha al).
Definition from_lch (l c h al : option Q) : color :=
  mk_color Lcha (remap (unwrap_component l) 100 (15 # 10)) (remap (unwrap_component c) 150 (15 # 10)) (unwrap_component h) (unwrap_alpha al).
(** 106-128 *)
Definition from_oklab (l a b al : option Q) : color := mk_color Oklaba (unwrap_component l) (unwrap_component a) (unwrap_component b) (unwrap_alpha al).
Definition from_oklch (l c h al : option Q) : color := mk_color Oklcha (unwrap_component l) (unwrap_component c) (unwrap_component h) (unwrap_alpha al).
(** 130-165; cssparser::color::PredefinedColorSpace *)
Inductive space := SpSrgb | SpSrgbLinear | SpDisplayP3 | SpA98Rgb | SpProphotoRgb | SpRec2020 | SpXyzD50 | SpXyzD65.
Definition from_color_function (s : space) (x y z al : option Q) : option color :=
  match s with
  | SpSrgb => Some (mk_color Srgba (unwrap_component x) (unwrap_component y) (unwrap_component z) (unwrap_alpha al))
  | SpSrgbLinear => Some (mk_color LinearRgba (unwrap_component x) (unwrap_component y) (unwrap_component z) (unwrap_alpha al))
  | SpXyzD65 => Some (mk_color Xyza (unwrap_component x) (unwrap_component y) (unwrap_component z) (unwrap_alpha al))
  | _ => None
  end.

(** ** cssparser_color: pieces *)
Definition clamp (lo hi q : Q) : Q := if Qle_bool q lo then lo else if Qle_bool hi q then hi else q.
(** f32::round: halves away from zero *)
Definition round (q : Q) : Z := if Qle_bool 0 q then Qfloor (q + (1 # 2)) else (- Qfloor (- q + (1 # 2)))%Z.
(** clamp_floor_256_f32, clamp_unit_f32 *)
Definition channel (q : Q) : Z := Z.max 0 (Z.min (round q) 255).
Definition channel_of_unit (q : Q) : Z := channel (q * 255).
(** normalize_hue *)
Definition normalize_hue (h : Q) : Q := (h - 360 * inject_Z (Qfloor (h / 360)))%Q.
Inductive number_or_percentage := NNumber (q : Q) | NPercentage (unit_value : Q).
Definition np_value (range : Q) (n : number_or_percentage) : Q := match n with NNumber q => q | NPercentage u => (u * range)%Q end.
Definition np_unit (n : number_or_percentage) : Q := match n with NNumber q => q | NPercentage u => u end.
Definition parse_np (x : tree) : option number_or_percentage :=
  match x with Leaf (TNumber d _) => Some (NNumber (dec_Q d)) | Leaf (TPercent d) => Some (NPercentage (dec_Q d)) | _ => None end.
Definition parse_number (x : tree) : option Q := match x with Leaf (TNumber d _) => Some (dec_Q d) | _ => None end.
Definition parse_percentage (x : tree) : option Q := match x with Leaf (TPercent d) => Some (dec_Q d) | _ => None end.
(** parse_angle_or_number, in degrees *)
Definition angle_units (rho : Q) : list (string * Q) := [("deg", 1); ("grad", 360 / 400); ("rad", 360 * rho); ("turn", 360)]%string%Q.
Definition parse_hue (rho : Q) (x : tree) : option Q :=
  match x with
  | Leaf (TNumber d _) => Some (dec_Q d)
  | Leaf (TDim d _ u) => option_map (fun k => dec_Q d * k)%Q (lookup u (angle_units rho))
  | _ => None
  end.
(** parse_none_or *)
Definition none_or {X} (parse : tree -> option X) (l : list tree) : option (option X * list tree) :=
  if starts_none l then Some (None, skipn 1 l) else option_map (fun p : X * list tree => (Some (fst p), snd p)) (one parse l).
Definition eat_comma (l : list tree) : option (list tree) := match l with Leaf TComma :: r => Some r | _ => None end.
Definition eat_slash (l : list tree) : option (list tree) := match l with Leaf (TDelim c) :: r => if Ascii.eqb c "/"%char then Some r else None | _ => None end.
(** parse_legacy_alpha, parse_modern_alpha *)
Definition legacy_alpha (l : list tree) : option (Q * list tree) :=
  match l with
  | [] => Some (1%Q, [])
  | _ => bind (eat_comma l) (fun r => option_map (fun p : number_or_percentage * list tree => (clamp 0 1 (np_unit (fst p)), snd p)) (one parse_np r))
  end.
Definition modern_alpha (l : list tree) : option (option Q * list tree) :=
  match l with
  | [] => Some (Some 1%Q, [])
  | _ => bind (eat_slash l) (fun r => option_map (fun p : option number_or_percentage * list tree => (option_map (fun n => clamp 0 1 (np_unit n)) (fst p), snd p)) (none_or parse_np r))
  end.
(** parse_components *)
Definition components {A B C} (f : tree -> option A) (g : tree -> option B) (h : tree -> option C) (l : list tree) : option (option A * option B * option C * option Q * list tree) :=
  bind (none_or f l) (fun a => bind (none_or g (snd a)) (fun b => bind (none_or h (snd b)) (fun c => bind (modern_alpha (snd c)) (fun al => Some (fst a, fst b, fst c, fst al, snd al))))).
(** two more values behind a comma, and alpha *)
Definition legacy_rest {A} (f : tree -> option A) (l : list tree) : option (A * A * Q * list tree) :=
  bind (one f l) (fun b => bind (eat_comma (snd b)) (fun r => bind (one f r) (fun c => bind (legacy_alpha (snd c)) (fun al => Some (fst b, fst c, fst al, snd al))))).

(** ** cssparser_color: the functions *)
(** parse_rgb *)
Definition component_value (o : option number_or_percentage) : Z :=
  match o with Some (NNumber q) => channel q | Some (NPercentage u) => channel_of_unit u | None => 0%Z end.
Definition parse_rgb (l : list tree) : option (color * list tree) :=
  bind (none_or parse_np l) (fun red =>
    match fst red, eat_comma (snd red) with
    | Some (NNumber q), Some r => option_map (fun p : Q * Q * Q * list tree => let '(g, b, a, rest) := p in (from_rgba (channel q) (channel g) (channel b) a, rest)) (legacy_rest parse_number r)
    | Some (NPercentage u), Some r => option_map (fun p : Q * Q * Q * list tree => let '(g, b, a, rest) := p in (from_rgba (channel_of_unit u) (channel_of_unit g) (channel_of_unit b) a, rest)) (legacy_rest parse_percentage r)
    | _, _ => bind (none_or parse_np (snd red)) (fun g => bind (none_or parse_np (snd g)) (fun b => bind (modern_alpha (snd b)) (fun a =>
        Some (from_rgba (component_value (fst red)) (component_value (fst g)) (component_value (fst b)) (match fst a with Some q => q | None => 0%Q end), snd a))))
    end).
(** parse_hsl *)
Definition parse_hsl (rho : Q) (l : list tree) : option (color * list tree) :=
  bind (none_or (parse_hue rho) l) (fun hue =>
    match fst hue, eat_comma (snd hue) with
    | Some h, Some r => option_map (fun p : Q * Q * Q * list tree => let '(s, l, a, rest) := p in (from_hsl (Some (normalize_hue h)) (Some (clamp 0 1 s)) (Some (clamp 0 1 l)) (Some a), rest)) (legacy_rest parse_percentage r)
    | _, _ => bind (none_or parse_percentage (snd hue)) (fun s => bind (none_or parse_percentage (snd s)) (fun l => bind (modern_alpha (snd l)) (fun a =>
        Some (from_hsl (option_map normalize_hue (fst hue)) (option_map (clamp 0 1) (fst s)) (option_map (clamp 0 1) (fst l)) (fst a), snd a))))
    end).
(** parse_hwb *)
Definition parse_hwb (rho : Q) (l : list tree) : option (color * list tree) :=
  option_map (fun p : option Q * option Q * option Q * option Q * list tree => let '(h, w, b, a, rest) := p in
    (from_hwb (option_map normalize_hue h) (option_map (clamp 0 1) w) (option_map (clamp 0 1) b) a, rest)) (components (parse_hue rho) parse_percentage parse_percentage l).
(** parse_lab_like, parse_lch_like *)
Definition parse_lab_like (range_l range_ab : Q) (into : option Q -> option Q -> option Q -> option Q -> color) (l : list tree) : option (color * list tree) :=
  option_map (fun p : option number_or_percentage * option number_or_percentage * option number_or_percentage * option Q * list tree => let '(li, a, b, al, rest) := p in
    (into (option_map (np_value range_l) li) (option_map (np_value range_ab) a) (option_map (np_value range_ab) b) al, rest)) (components parse_np parse_np parse_np l).
Definition parse_lch_like (rho : Q) (range_l range_c : Q) (into : option Q -> option Q -> option Q -> option Q -> color) (l : list tree) : option (color * list tree) :=
  option_map (fun p : option number_or_percentage * option number_or_percentage * option Q * option Q * list tree => let '(li, c, h, al, rest) := p in
    (into (option_map (np_value range_l) li) (option_map (np_value range_c) c) (option_map normalize_hue h) al, rest)) (components parse_np parse_np (parse_hue rho) l).
(** parse_color_with_color_space *)
Definition spaces : list (string * space) :=
  [("srgb", SpSrgb); ("srgb-linear", SpSrgbLinear); ("display-p3", SpDisplayP3); ("a98-rgb", SpA98Rgb); ("prophoto-rgb", SpProphotoRgb); ("rec2020", SpRec2020);
   ("xyz-d50", SpXyzD50); ("xyz", SpXyzD65); ("xyz-d65", SpXyzD65)]%string.
Definition parse_color_space (l : list tree) : option (option color * list tree) :=
  match l with
  | Leaf (TIdent s) :: r => bind (lookup s spaces) (fun sp =>
      option_map (fun p : option number_or_percentage * option number_or_percentage * option number_or_percentage * option Q * list tree => let '(x, y, z, al, rest) := p in
        (from_color_function sp (option_map np_unit x) (option_map np_unit y) (option_map np_unit z) al, rest)) (components parse_np parse_np parse_np r))
  | _ => None
  end.
(** parse_color_function: nothing may be left *)
Inductive color_function := FRgb | FHsl | FHwb | FLab | FLch | FOklab | FOklch | FColor.
Definition color_functions : list (string * color_function) :=
  [("rgb", FRgb); ("rgba", FRgb); ("hsl", FHsl); ("hsla", FHsl); ("hwb", FHwb); ("lab", FLab); ("lch", FLch); ("oklab", FOklab); ("oklch", FOklch); ("color", FColor)]%string.
Definition exhausted {X} (p : option (X * list tree)) : option X := match p with Some (v, []) => Some v | _ => None end.
Definition parse_color_function (rho : Q) (f : color_function) (l : list tree) : option color :=
  match f with
  | FRgb => exhausted (parse_rgb l)
  | FHsl => exhausted (parse_hsl rho l)
  | FHwb => exhausted (parse_hwb rho l)
  | FLab => exhausted (parse_lab_like 100 125 from_lab l)
  | FLch => exhausted (parse_lch_like rho 100 150 from_lch l)
  | FOklab => exhausted (parse_lab_like 1 (4 # 10) from_oklab l)
  | FOklch => exhausted (parse_lch_like rho 1 (4 # 10) from_oklch l)
  | FColor => bind (exhausted (parse_color_space l)) (fun o => o)
  end.
(** parse_hash_color *)
Definition hex_digit (c : ascii) : option Z := if is_hex c then Some (Z.of_N (hex_value c)) else None.
Fixpoint hex_all (s : text) : option (list Z) := match s with [] => Some [] | c :: r => bind (hex_digit c) (fun v => option_map (cons v) (hex_all r)) end.
Definition parse_hash_color (s : text) : option color :=
  match hex_all s with
  | Some [r; g; b] => Some (from_rgba (r * 17) (g * 17) (b * 17) 1)
  | Some [r; g; b; a] => Some (from_rgba (r * 17) (g * 17) (b * 17) (inject_Z (a * 17) / 255))
  | Some [r; r'; g; g'; b; b'] => Some (from_rgba (r * 16 + r') (g * 16 + g') (b * 16 + b') 1)
  | Some [r; r'; g; g'; b; b'; a; a'] => Some (from_rgba (r * 16 + r') (g * 16 + g') (b * 16 + b') (inject_Z (a * 16 + a') / 255))
  | _ => None
  end.
(** parse_named_color: the named colors of CSS Color 4 *)
Definition named_colors : list (string * (Z * Z * Z)) :=
  [
   ("aliceblue", (240, 248, 255)); ("antiquewhite", (250, 235, 215)); ("aqua", (0, 255, 255)); ("aquamarine", (127, 255, 212)); ("azure", (240, 255, 255));
   ("beige", (245, 245, 220)); ("bisque", (255, 228, 196)); ("black", (0, 0, 0)); ("blanchedalmond", (255, 235, 205)); ("blue", (0, 0, 255));
   ("blueviolet", (138, 43, 226)); ("brown", (165, 42, 42)); ("burlywood", (222, 184, 135)); ("cadetblue", (95, 158, 160)); ("chartreuse", (127, 255, 0));
   ("chocolate", (210, 105, 30)); ("coral", (255, 127, 80)); ("cornflowerblue", (100, 149, 237)); ("cornsilk", (255, 248, 220)); ("crimson", (220, 20, 60));
   ("cyan", (0, 255, 255)); ("darkblue", (0, 0, 139)); ("darkcyan", (0, 139, 139)); ("darkgoldenrod", (184, 134, 11)); ("darkgray", (169, 169, 169));
   ("darkgreen", (0, 100, 0)); ("darkgrey", (169, 169, 169)); ("darkkhaki", (189, 183, 107)); ("darkmagenta", (139, 0, 139)); ("darkolivegreen", (85, 107, 47));
   ("darkorange", (255, 140, 0)); ("darkorchid", (153, 50, 204)); ("darkred", (139, 0, 0)); ("darksalmon", (233, 150, 122)); ("darkseagreen", (143, 188, 143));
   ("darkslateblue", (72, 61, 139)); ("darkslategray", (47, 79, 79)); ("darkslategrey", (47, 79, 79)); ("darkturquoise", (0, 206, 209)); ("darkviolet", (148, 0, 211));
   ("deeppink", (255, 20, 147)); ("deepskyblue", (0, 191, 255)); ("dimgray", (105, 105, 105)); ("dimgrey", (105, 105, 105)); ("dodgerblue", (30, 144, 255));
   ("firebrick", (178, 34, 34)); ("floralwhite", (255, 250, 240)); ("forestgreen", (34, 139, 34)); ("fuchsia", (255, 0, 255)); ("gainsboro", (220, 220, 220));
   ("ghostwhite", (248, 248, 255)); ("gold", (255, 215, 0)); ("goldenrod", (218, 165, 32)); ("gray", (128, 128, 128)); ("green", (0, 128, 0));
   ("greenyellow", (173, 255, 47)); ("grey", (128, 128, 128)); ("honeydew", (240, 255, 240)); ("hotpink", (255, 105, 180)); ("indianred", (205, 92, 92));
   ("indigo", (75, 0, 130)); ("ivory", (255, 255, 240)); ("khaki", (240, 230, 140)); ("lavender", (230, 230, 250)); ("lavenderblush", (255, 240, 245));
   ("lawngreen", (124, 252, 0)); ("lemonchiffon", (255, 250, 205)); ("lightblue", (173, 216, 230)); ("lightcoral", (240, 128, 128)); ("lightcyan", (224, 255, 255));
   ("lightgoldenrodyellow", (250, 250, 210)); ("lightgray", (211, 211, 211)); ("lightgreen", (144, 238, 144)); ("lightgrey", (211, 211, 211)); ("lightpink", (255, 182, 193));
   ("lightsalmon", (255, 160, 122)); ("lightseagreen", (32, 178, 170)); ("lightskyblue", (135, 206, 250)); ("lightslategray", (119, 136, 153)); ("lightslategrey", (119, 136, 153));
   ("lightsteelblue", (176, 196, 222)); ("lightyellow", (255, 255, 224)); ("lime", (0, 255, 0)); ("limegreen", (50, 205, 50)); ("linen", (250, 240, 230));
   ("magenta", (255, 0, 255)); ("maroon", (128, 0, 0)); ("mediumaquamarine", (102, 205, 170)); ("mediumblue", (0, 0, 205)); ("mediumorchid", (186, 85, 211));
   ("mediumpurple", (147, 112, 219)); ("mediumseagreen", (60, 179, 113)); ("mediumslateblue", (123, 104, 238)); ("mediumspringgreen", (0, 250, 154)); ("mediumturquoise", (72, 209, 204));
   ("mediumvioletred", (199, 21, 133)); ("midnightblue", (25, 25, 112)); ("mintcream", (245, 255, 250)); ("mistyrose", (255, 228, 225)); ("moccasin", (255, 228, 181));
   ("navajowhite", (255, 222, 173)); ("navy", (0, 0, 128)); ("oldlace", (253, 245, 230)); ("olive", (128, 128, 0)); ("olivedrab", (107, 142, 35));
   ("orange", (255, 165, 0)); ("orangered", (255, 69, 0)); ("orchid", (218, 112, 214)); ("palegoldenrod", (238, 232, 170)); ("palegreen", (152, 251, 152));
   ("paleturquoise", (175, 238, 238)); ("palevioletred", (219, 112, 147)); ("papayawhip", (255, 239, 213)); ("peachpuff", (255, 218, 185)); ("peru", (205, 133, 63));
   ("pink", (255, 192, 203)); ("plum", (221, 160, 221)); ("powderblue", (176, 224, 230)); ("purple", (128, 0, 128)); ("rebeccapurple", (102, 51, 153));
   ("red", (255, 0, 0)); ("rosybrown", (188, 143, 143)); ("royalblue", (65, 105, 225)); ("saddlebrown", (139, 69, 19)); ("salmon", (250, 128, 114));
   ("sandybrown", (244, 164, 96)); ("seagreen", (46, 139, 87)); ("seashell", (255, 245, 238)); ("sienna", (160, 82, 45)); ("silver", (192, 192, 192));
   ("skyblue", (135, 206, 235)); ("slateblue", (106, 90, 205)); ("slategray", (112, 128, 144)); ("slategrey", (112, 128, 144)); ("snow", (255, 250, 250));
   ("springgreen", (0, 255, 127)); ("steelblue", (70, 130, 180)); ("tan", (210, 180, 140)); ("teal", (0, 128, 128)); ("thistle", (216, 191, 216));
   ("tomato", (255, 99, 71)); ("turquoise", (64, 224, 208)); ("violet", (238, 130, 238)); ("wheat", (245, 222, 179)); ("white", (255, 255, 255));
   ("whitesmoke", (245, 245, 245)); ("yellow", (255, 255, 0)); ("yellowgreen", (154, 205, 50))]%string%Z.
(** parse_color_keyword *)
Definition parse_color_keyword (s : text) : option color :=
  if same_name s (tx "transparent") then Some (from_rgba 0 0 0 0)
  else if same_name s (tx "currentcolor") then from_current_color
  else option_map (fun p : Z * Z * Z => let '(r, g, b) := p in from_rgba r g b 1) (lookup s named_colors).
(** parse_color_with; color.rs:186-202 parse_color *)
Definition color_of (rho : Q) (x : tree) : option color :=
  match x with
  | Leaf (THash s) | Leaf (TIdHash s) => parse_hash_color s
  | Leaf (TIdent s) => parse_color_keyword s
  | Fun s l => bind (lookup s color_functions) (fun f => parse_color_function rho f l)
  | _ => None
  end.

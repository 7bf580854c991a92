(** Model of the parsers of keywords, points, rectangles, angles, clip margins, line heights, text shadows, strings, paths and image modes:
    crates/bevy_flair_css_parser/src/reflect/enums.rs:14-99, reflect/ui.rs:36-55, 121-178, 202-225, reflect/text.rs:18-79, reflect/image.rs:13-125,
    reflect/assets.rs:31-43, utils.rs:71-87.
    As in ValueParse.v values are trees of tokens without white space, numbers are exact, and colors and the inside of calc() are arbitrary functions. *)
From Coq Require Import Ascii String NArith ZArith QArith.
From Verif Require Import Base Vars VarText SheetText ValueParse.
From Verif Require Calc.
Open Scope nat_scope.

(** ** enums.rs: the variants of an enumeration, in the order of its declaration *)
Record variant := mk_variant { v_name : text; v_unit : bool }.
(** 14-19 *)
Definition enum_variants (vs : list variant) : list text := map v_name (filter v_unit vs).
(** 21-37; [char::is_uppercase] for ASCII *)
Definition is_upper (c : ascii) : bool := between 65 90 c.
Definition css_case_from (i : nat) (s : text) : text :=
  concat (map (fun p : nat * ascii => let (j, c) := p in if is_upper c then (if Nat.eqb j 0 then [] else ["-"%char]) ++ [lower c] else [c]) (combine (seq i (length s)) s)).
Definition enum_variant_to_css_case (s : text) : text := css_case_from 0 s.
(** 47-51 [enum_variant.replace('-', "")] *)
Definition without_hyphens (s : text) : text := filter (fun c => negb (Ascii.eqb c "-"%char)) s.
(** 57-72 the first variant with that name decides; a variant with fields is an error *)
Fixpoint find_variant (s : text) (vs : list variant) : option variant :=
  match vs with
  | [] => None
  | v :: r => if same_name (v_name v) s then (if v_unit v then Some v else None) else find_variant s r
  end.
(** 92-97 parse_enum_value *)
Definition parse_enum (vs : list variant) (x : tree) : option variant :=
  match x with Leaf (TIdent s) => find_variant (without_hyphens s) vs | _ => None end.
(** 74-77 the spellings that the message of a refused value lists *)
Definition suggestions (vs : list variant) : list text := map enum_variant_to_css_case (enum_variants vs).

(** ** utils.rs:71-87 try_parse_none, try_parse_none_with_value *)
Definition none_or {X} (d : X) (parse : list tree -> option (X * list tree)) (l : list tree) : option (X * list tree) :=
  if starts_none l then Some (d, skipn 1 l) else parse l.
(** try_parse_with(..).unwrap_or(..) of one value *)
Definition opt {X} (parse : tree -> option X) (d : X) (l : list tree) : X * list tree :=
  match l with x :: r => match parse x with Some v => (v, r) | None => (d, l) end | [] => (d, l) end.

Section Calc.
  Context (calc : list tree -> option Q) (calc_val : list tree -> option val) (calc_angle : list tree -> option Q) (rho : Q).
  Notation f32 := (parse_calc calc parse_f32).
  (** ui.rs:36-44 *)
  Definition parse_vec2 : list tree -> option ((Q * Q) * list tree) :=
    none_or (0, 0)%Q (fun l => bind (one f32 l) (fun p : Q * list tree => let (x, r) := p in let (y, r') := opt f32 x r in Some ((x, y), r'))).
  (** 121-129 *)
  Definition parse_val2 : list tree -> option ((val * val) * list tree) :=
    none_or (VLen UPx 0, VLen UPx 0) (fun l => bind (one (parse_calc calc_val parse_val) l) (fun p : val * list tree => let (x, r) := p in let (y, r') := opt (parse_calc calc_val parse_val) x r in Some ((x, y), r'))).
  (** 46-55; bevy_math's Rect::new orders the corners *)
  Record rect := mk_rect { min_x : Q; min_y : Q; max_x : Q; max_y : Q }.
  Definition qmin (a b : Q) : Q := if Qle_bool a b then a else b.
  Definition qmax (a b : Q) : Q := if Qle_bool a b then b else a.
  Definition rect_new (x0 y0 x1 y1 : Q) : rect := mk_rect (qmin x0 x1) (qmin y0 y1) (qmax x0 x1) (qmax y0 y1).
  Definition parse_rect : list tree -> option (rect * list tree) :=
    none_or (mk_rect 0 0 0 0) (fun l =>
      bind (one f32 l) (fun p0 : Q * list tree => bind (one f32 (snd p0)) (fun p1 : Q * list tree => bind (one f32 (snd p1)) (fun p2 : Q * list tree => bind (one f32 (snd p2)) (fun p3 : Q * list tree =>
        Some (rect_new (fst p0) (fst p1) (fst p2) (fst p3), snd p3)))))).
  (** 131-168 parse_angle, parse_calc_angle: a rotation, in turns between -1/2 and 1/2 (Calc.v); [rho] turns are one radian *)
  Inductive angle_unit := ADeg | AGrad | ARad | ATurn.
  Definition angle_units : list (string * angle_unit) := [("deg", ADeg); ("grad", AGrad); ("rad", ARad); ("turn", ATurn)]%string.
  Definition turns (u : angle_unit) (q : Q) : Q := match u with ADeg => q / 360 | AGrad => q / 400 | ARad => q * rho | ATurn => q end.
  Definition parse_angle (x : tree) : option Q :=
    if starts_none [x] then Some 0%Q else
    match x with
    | Leaf (TNumber d _) => if Qeq_bool (dec_Q d) 0 then Some 0%Q else None
    | Leaf (TDim d _ u) => option_map (fun k => Calc.wrap (turns k (dec_Q d))) (lookup u angle_units)
    | _ => None
    end.
  Definition parse_rotation : tree -> option Q := parse_calc calc_angle parse_angle.
  (** 170-180; [boxes]: the variants of OverflowClipBox *)
  Definition parse_overflow_clip_margin (boxes : list variant) (default_box : variant) (l : list tree) : option ((variant * Q) * list tree) :=
    match one f32 l with
    | Some (m, r) => Some ((default_box, m), r)
    | None => bind (one (parse_enum boxes) l) (fun p : variant * list tree => bind (one f32 (snd p)) (fun m : Q * list tree => Some ((fst p, fst m), snd m)))
    end.
  (** 202-221 parse_four_values *)
  Fixpoint upto {X} (parse : tree -> option X) (n : nat) (l : list tree) : list X * list tree :=
    match n, l with
    | S n, x :: r => match parse x with Some v => let (vs, rest) := upto parse n r in (v :: vs, rest) | None => ([], l) end
    | _, _ => ([], l)
    end.
  Definition four {X} (vs : list X) : option (X * X * X * X) :=
    match vs with
    | [a] => Some (a, a, a, a) | [a; b] => Some (a, b, a, b) | [a; b; c] => Some (a, b, c, b) | [a; b; c; d] => Some (a, b, c, d)
    | _ => None
    end.
  Definition parse_four_values {X} (parse : tree -> option X) (l : list tree) : option ((X * X * X * X) * list tree) :=
    bind (one parse l) (fun p : X * list tree => let (vs, rest) := upto parse 3 (snd p) in option_map (fun q => (q, rest)) (four (fst p :: vs))).
  (** 223-225 *)
  Definition parse_z_index : tree -> option Z := int_of.

  (** ** text.rs *)
  (** 18-21 *)
  Definition parse_string (x : tree) : option text := match x with Leaf (TString s) => Some s | _ => None end.
  (** 23-51; LineHeight::default() is 1.2 times the size of the font *)
  Inductive line_height := LPx (q : Q) | LRelative (q : Q).
  Definition parse_line_height (x : tree) : option line_height :=
    match x with
    | Leaf (TIdent s) => if list_eq_dec ascii_dec s (tx "normal") then Some (LRelative (12 # 10)) else None
    | Leaf (TNumber d _) => Some (LRelative (dec_Q d))
    | Leaf (TPercent d) => Some (LRelative (dec_Q d))
    | Leaf (TDim d _ u) => option_map (fun px : bool => if px then LPx (dec_Q d) else LRelative (dec_Q d)) (lookup u [("px", true); ("em", false)]%string)
    | _ => None
    end.
  (** 53-79 *)
  Section Shadow.
    Context {color : Type} (color_of : tree -> option color) (transparent default_color : color).
    Definition offsets (l : list tree) : option ((Q * Q) * list tree) :=
      bind (one f32 l) (fun x : Q * list tree => bind (one f32 (snd x)) (fun y : Q * list tree => Some ((fst x, fst y), snd y))).
    Definition parse_text_shadow : list tree -> option (((Q * Q) * color) * list tree) :=
      none_or ((0, 0)%Q, transparent) (fun l =>
        match one color_of l with
        | Some (c, r) => bind (offsets r) (fun p : (Q * Q) * list tree => Some ((fst p, c), snd p))
        | None => bind (offsets l) (fun p : (Q * Q) * list tree => let (c, r) := opt color_of default_color (snd p) in Some ((fst p, c), r))
        end).
  End Shadow.

  (** ** assets.rs:31-43; cssparser reads url("x") as a function, url(x) as one token; [url_of] is what it finds between the brackets of the latter, None for a BadUrl *)
  Context (url_of : text -> option text).
  Definition parse_asset_path (x : tree) : option text :=
    match x with
    | Leaf (TUrl s) => url_of s
    | Leaf (TString s) => Some s
    | Fun f l => if same_name f (tx "url") then match l with [Leaf (TString s)] => Some s | _ => None end else None
    | _ => None
    end.
  Definition parse_font (x : tree) : option text := match x with Leaf (TIdent s) | Leaf (TString s) => Some s | _ => None end.

  (** ** image.rs *)
  (** 13-54 *)
  Record tiled := mk_tiled { tile_x : bool; tile_y : bool; stretch_value : Q }.
  Fixpoint tiled_params (acc : tiled) (l : list tree) : option tiled :=
    match l with
    | [] => Some acc
    | Leaf (TIdent s) :: r =>
        if list_eq_dec ascii_dec s (tx "tile_x") then tiled_params (mk_tiled true (tile_y acc) (stretch_value acc)) r
        else if list_eq_dec ascii_dec s (tx "tile_y") then tiled_params (mk_tiled (tile_x acc) true (stretch_value acc)) r
        else None
    | Leaf (TNumber d _) :: r => tiled_params (mk_tiled (tile_x acc) (tile_y acc) (dec_Q d)) r
    | _ => None
    end.
  Definition parse_tiled_params : list tree -> option tiled := tiled_params (mk_tiled false false 1).
  (** 56-71; SliceScaleMode::default() is Stretch *)
  Inductive scale_mode := Stretch | Tile (q : Q).
  Definition parse_scale_mode (x : tree) : option scale_mode :=
    match x with
    | Leaf (TIdent s) => if list_eq_dec ascii_dec s (tx "auto") then Some Stretch else if list_eq_dec ascii_dec s (tx "stretch") then Some Stretch else None
    | Fun s l => if same_name s (tx "tile") then match one f32 l with Some (q, []) => Some (Tile q) | _ => None end else None
    | _ => None
    end.
  (** 73-93 *)
  Record slicer := mk_slicer { min_inset : Q * Q; max_inset : Q * Q; center_mode : scale_mode; sides_mode : scale_mode; corner_scale : Q }.
  Definition parse_sliced_params (l : list tree) : option (slicer * list tree) :=
    bind (parse_four_values f32 l) (fun p : (Q * Q * Q * Q) * list tree =>
      let '(a, b, c, d) := fst p in
      let (center, r1) := opt parse_scale_mode Stretch (snd p) in
      let (sides, r2) := opt parse_scale_mode Stretch r1 in
      let (m, r3) := opt f32 1%Q r2 in
      Some (mk_slicer (d, a) (b, c) center sides m, r3)).
  (** 95-125 *)
  Inductive image_mode := IAuto | IStretch | ITiled (t : tiled) | ISliced (s : slicer).
  Definition parse_image_mode (x : tree) : option image_mode :=
    match x with
    | Leaf (TIdent s) => if list_eq_dec ascii_dec s (tx "auto") then Some IAuto else if list_eq_dec ascii_dec s (tx "stretch") then Some IStretch else None
    | Fun s l =>
        if same_name s (tx "tiled") then option_map ITiled (parse_tiled_params l)
        else if same_name s (tx "sliced") then match parse_sliced_params l with Some (v, []) => Some (ISliced v) | _ => None end
        else None
    | _ => None
    end.
End Calc.

(** Model of the parsers of lengths, grid tracks, grid placements, aspect ratios and box shadows:
    crates/bevy_flair_css_parser/src/reflect/ui.rs:16-30, 82-121, 180-200, 227-303, reflect/grid.rs:122-357, utils.rs:6-20, 47-93, and
    parser.rs:88-96 (the value has to be consumed entirely).
    Values come as trees of tokens without white space (VarText.v).  A parser of one value takes exactly one tree (a token, or a function with its
    block, which has to be consumed entirely).  Numbers are exact (f32 in the code), integers are those of cssparser: clamped to i32.
    The parser of colors (cssparser_color) and of the inside of calc() (Calc.v) are arbitrary functions.  `!important` is cut off before. *)
From Coq Require Import Ascii String NArith ZArith QArith.
From Verif Require Import Base Vars VarText SheetText.
Open Scope nat_scope.

(** ** Pieces *)
Fixpoint lookup {X} (s : text) (l : list (string * X)) : option X :=
  match l with [] => None | (k, v) :: r => if same_name s (tx k) then Some v else lookup s r end.
(** Token::Number { int_value: Some(_) } *)
Definition int_of (x : tree) : option Z :=
  match x with Leaf (TNumber d true) => Some (Z.max (- 2147483648) (Z.min (mant d) 2147483647)) | _ => None end.
Definition bind {A B} (o : option A) (f : A -> option B) : option B := match o with Some a => f a | None => None end.

(** ** ui.rs:82-121 parse_val, 117-119 parse_calc_val *)
Inductive unit_of_length := UPx | UVw | UVh | UVMin | UVMax.
Inductive val := VAuto | VLen (u : unit_of_length) (q : Q) | VPercentage (q : Q).
Definition length_units : list (string * unit_of_length) := [("px", UPx); ("vw", UVw); ("vh", UVh); ("vmin", UVMin); ("vmax", UVMax)]%string.
Definition parse_val (x : tree) : option val :=
  match x with
  | Leaf (TIdent s) => if list_eq_dec ascii_dec s (tx "auto") then Some VAuto else None
  | Leaf (TNumber d _) => if Qeq_bool (dec_Q d) 0 then Some (VLen UPx 0) else Some (VLen UPx (dec_Q d))
  | Leaf (TPercent d) => Some (VPercentage (dec_Q d * 100))
  | Leaf (TDim d _ u) => option_map (fun k => VLen k (dec_Q d)) (lookup u length_units)
  | _ => None
  end.
(** ui.rs:16-30 *)
Definition parse_f32 (x : tree) : option Q :=
  match x with
  | Leaf (TNumber d _) => Some (dec_Q d)
  | Leaf (TDim d _ u) => if same_name u (tx "px") then Some (dec_Q d) else None
  | _ => None
  end.
Definition parse_calc {X} (calc : list tree -> option X) (parse : tree -> option X) (x : tree) : option X :=
  match x with Fun s l => if same_name s (tx "calc") then calc l else parse x | _ => parse x end.

(** ** ui.rs:180-200 parse_aspect_ratio: [None] is auto; a ratio is kept as dividend and divisor *)
Definition parse_aspect_ratio (calc : list tree -> option Q) (l : list tree) : option (option (Q * Q) * list tree) :=
  match l with
  | [] => None
  | x :: r =>
      if match x with Leaf (TIdent s) => same_name s (tx "auto") | _ => false end then Some (None, r)
      else bind (parse_calc calc parse_f32 x) (fun a =>
        match r with
        | Leaf (TDelim c) :: y :: r' =>
            if Ascii.eqb c "/"%char then match parse_calc calc parse_f32 y with Some b => Some (Some (a, b), r') | None => Some (Some (a, 1%Q), r) end
            else Some (Some (a, 1%Q), r)
        | _ => Some (Some (a, 1%Q), r)
        end)
  end.

(** ** Grids *)
(** what GridTrack, MinTrackSizingFunction and MaxTrackSizingFunction are made from (grid.rs:14-119) *)
Inductive grid_unit := GPx | GFr | GVMin | GVMax | GVh | GVw.
Inductive size := GAuto | GMinContent | GMaxContent | GPercent (q : Q) | GLen (u : grid_unit) (q : Q).
Inductive track := Size (s : size) | FitPercent (q : Q) | FitPx (q : Q) | MinMax (min max : size).
Definition grid_units : list (string * grid_unit) := [("px", GPx); ("fr", GFr); ("vmin", GVMin); ("vmax", GVMax); ("vh", GVh); ("vw", GVw)]%string.
Definition grid_words : list (string * size) := [("auto", GAuto); ("min-content", GMinContent); ("max-content", GMaxContent)]%string.
(** 122-182 parse_grid_track_type; [fr]: whether the type has fractions (minima have none) *)
Definition parse_size (fr : bool) (x : tree) : option size :=
  match x with
  | Leaf (TIdent s) => lookup s grid_words
  | Leaf (TPercent d) => Some (GPercent (dec_Q d * 100))
  | Leaf (TDim d _ u) => bind (lookup u grid_units) (fun k => match k with GFr => if fr then Some (GLen GFr (dec_Q d)) else None | _ => Some (GLen k (dec_Q d)) end)
  | _ => None
  end.
(** 187-208 the argument of fit-content *)
Definition parse_fit (l : list tree) : option track :=
  match l with
  | [Leaf (TPercent d)] => Some (FitPercent (dec_Q d * 100))
  | [Leaf (TNumber d _)] => Some (FitPx (dec_Q d))
  | [Leaf (TDim d _ u)] => if same_name u (tx "px") then Some (FitPx (dec_Q d)) else None
  | _ => None
  end.
(** 209-217 *)
Definition parse_minmax (l : list tree) : option track :=
  match l with
  | [a; Leaf TComma; b] => bind (parse_size false a) (fun x => option_map (MinMax x) (parse_size true b))
  | _ => None
  end.
(** 184-220 *)
Definition parse_track (x : tree) : option track :=
  match x with
  | Fun s l => if same_name s (tx "fit-content") then parse_fit l else if same_name s (tx "minmax") then parse_minmax l else None
  | _ => option_map Size (parse_size true x)
  end.
(** utils.rs:60-69 parse_many *)
Fixpoint while_ok {X} (parse : tree -> option X) (l : list tree) : list X * list tree :=
  match l with
  | [] => ([], [])
  | x :: r => match parse x with Some v => let (vs, rest) := while_ok parse r in (v :: vs, rest) | None => ([], l) end
  end.
Definition parse_many {X} (parse : tree -> option X) (l : list tree) : option (list X * list tree) :=
  match l with [] => None | x :: r => option_map (fun v => let (vs, rest) := while_ok parse r in (v :: vs, rest)) (parse x) end.
(** 71-78 try_parse_none *)
Definition starts_none (l : list tree) : bool := match l with Leaf (TIdent s) :: _ => same_name s (tx "none") | _ => false end.
Definition or_none {X} (parse : list tree -> option (list X * list tree)) (l : list tree) : option (list X * list tree) :=
  if starts_none l then Some ([], skipn 1 l) else parse l.
(** grid.rs:222-232 *)
Definition parse_grid_track_vec : list tree -> option (list track * list tree) := or_none (parse_many parse_track).
(** 234-276; [as u16] keeps the lowest sixteen bits *)
Inductive repetition := Once | RCount (n : Z) | AutoFill | AutoFit.
Definition repeated := (repetition * list track)%type.
Definition as_u16 (z : Z) : Z := (z mod 65536)%Z.
Definition parse_repetition (x : tree) : option repetition :=
  match x with
  | Leaf (TNumber _ _) => option_map (fun v => RCount (as_u16 v)) (int_of x)
  | Leaf (TIdent s) => lookup s [("auto-fill", AutoFill); ("auto-fit", AutoFit)]%string
  | _ => None
  end.
Definition parse_repeat_args (l : list tree) : option repeated :=
  match l with
  | a :: Leaf TComma :: r => bind (parse_repetition a) (fun n => match parse_many parse_track r with Some (ts, []) => Some (n, ts) | _ => None end)
  | _ => None
  end.
(** 278-294 *)
Definition parse_repeated (x : tree) : option repeated :=
  match x with
  | Fun s l => if same_name s (tx "repeat") then parse_repeat_args l else option_map (fun k => (Once, [k])) (parse_track x)
  | _ => option_map (fun k => (Once, [k])) (parse_track x)
  end.
Definition parse_repeated_grid_track_vec : list tree -> option (list repeated * list tree) := or_none (parse_many parse_repeated).
(** 296-357; GridPlacement panics on 0 *)
Inductive placement := Start (a : Z) | StartEnd (a b : Z) | StartSpan (a n : Z).
Definition non_zero (lo hi : Z) (z : Z) : option Z := if (Z.eqb z 0 || Z.ltb z lo || Z.ltb hi z)%bool then None else Some z.
Definition line (x : tree) : option Z := bind (int_of x) (non_zero (-32768) 32767).
Definition span (x : tree) : option Z := bind (int_of x) (non_zero 0 65535).
Definition parse_grid_placement (l : list tree) : option (placement * list tree) :=
  match l with
  | [] => None
  | x :: r =>
      bind (line x) (fun a =>
        match r with
        | Leaf (TDelim c) :: r1 =>
            if Ascii.eqb c "/"%char then
              match r1 with
              | Leaf (TIdent s) :: y :: r2 => if same_name s (tx "span") then match span y with Some n => Some (StartSpan a n, r2) | None => Some (Start a, r) end else Some (Start a, r)
              | y :: r2 => match line y with Some b => Some (StartEnd a b, r2) | None => Some (Start a, r) end
              | [] => Some (Start a, r)
              end
            else Some (Start a, r)
        | _ => Some (Start a, r)
        end)
  end.

(** ** ui.rs:227-303 box shadows *)
Section Shadows.
  Context {color : Type} (color_of : tree -> option color) (calc : list tree -> option val) (default_color : color) (default_val : val).
  Record shadow := mk_shadow { sh_color : color; sh_x : val; sh_y : val; sh_blur : val; sh_spread : val }.
  Definition opt_color (l : list tree) : option color * list tree := match l with x :: r => match color_of x with Some c => (Some c, r) | None => (None, l) end | [] => (None, l) end.
  Fixpoint vals_upto (n : nat) (l : list tree) : list val * list tree :=
    match n, l with
    | S n, x :: r => match parse_calc calc parse_val x with Some v => let (vs, rest) := vals_upto n r in (v :: vs, rest) | None => ([], l) end
    | _, _ => ([], l)
    end.
  (** 231-285 parse_single_box_shadow_style *)
  Definition parse_shadow (l : list tree) : option (shadow * list tree) :=
    let (c1, l1) := opt_color l in
    match l1 with
    | a :: b :: l2 =>
        bind (parse_calc calc parse_val a) (fun x => bind (parse_calc calc parse_val b) (fun y =>
          let (more, l3) := vals_upto 2 l2 in
          let (c2, l4) := opt_color l3 in
          let c := match c2 with Some c => c | None => match c1 with Some c => c | None => default_color end end in
          match more with
          | [] => Some (mk_shadow c x y default_val default_val, l4)
          | [blur] => Some (mk_shadow c x y blur default_val, l4)
          | [blur; spread] => Some (mk_shadow c x y blur spread, l4)
          | _ => None
          end))
    | _ => None
    end.
  (** 287-301 parse_box_shadow *)
  Fixpoint more_shadows (fuel : nat) (l : list tree) : list shadow * list tree :=
    match fuel, l with
    | S fuel, Leaf TComma :: r => match parse_shadow r with Some (s, rest) => let (ss, rest') := more_shadows fuel rest in (s :: ss, rest') | None => ([], l) end
    | _, _ => ([], l)
    end.
  Definition parse_box_shadow (l : list tree) : option (list shadow * list tree) :=
    option_map (fun p : shadow * list tree => let (ss, rest) := more_shadows (length l) (snd p) in (fst p :: ss, rest)) (parse_shadow l).
End Shadows.

(** ** A whole declaration value: utils.rs:6-20, 47-58 and parser.rs:88-96 *)
Inductive prop_value (X : Type) := Unset | Inherit | Initial | Value (x : X).
Arguments Unset {X}. Arguments Inherit {X}. Arguments Initial {X}. Arguments Value {X}.
Definition global_keyword {X} (l : list tree) : option (prop_value X * list tree) :=
  match l with
  | Leaf (TIdent s) :: r => option_map (fun v => (v, r)) (lookup s [("unset", Unset); ("inherit", Inherit); ("initial", Initial)]%string)
  | _ => None
  end.
Definition parse_property_value {X} (parse : list tree -> option (X * list tree)) (l : list tree) : option (prop_value X * list tree) :=
  match global_keyword l with Some r => Some r | None => option_map (fun p : X * list tree => (Value (fst p), snd p)) (parse l) end.
Definition declared_value {X} (parse : list tree -> option (X * list tree)) (l : list tree) : option (prop_value X) :=
  match parse_property_value parse l with Some (v, []) => Some v | _ => None end.
Definition one {X} (parse : tree -> option X) (l : list tree) : option (X * list tree) := match l with x :: r => option_map (fun v => (v, r)) (parse x) | [] => None end.

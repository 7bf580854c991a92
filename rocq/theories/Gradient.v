(** Model of the parser of gradients: crates/bevy_flair_css_parser/src/reflect/gradient.rs:20-585, utils.rs:105-131 (CombinedParse), lib.rs:215-225 (parse_comma_separated_with).
    As in ValueParse.v values are trees of tokens without white space, numbers are exact, colors and the inside of calc() are arbitrary functions.
    Rotations are turns between -1/2 and 1/2, as Rot2::as_radians gives them back (Calc.v).  [None] is an error; [Some (None, l)]: not there. *)
From Coq Require Import Ascii String NArith ZArith QArith.
From Verif Require Import Base Vars VarText SheetText ValueParse MoreValues.
From Verif Require Calc.
Open Scope nat_scope.

(** what bevy_ui has *)
Inductive shape := Circle (v : val) | Ellipse (v w : val) | ClosestSide | FarthestSide | ClosestCorner | FarthestCorner.
(** the anchor is -1, 0 or 1 halves of the size away from the center, the offset is measured from there *)
Record position := mk_position { anchor_x : Z; anchor_y : Z; pos_x : val; pos_y : val }.
Inductive color_space := Oklab | Oklch | OklchLong | Srgb | LinearRgb | Hsl | HslLong | Hsv | HsvLong.
Definition zero_val : val := VLen UPx 0.
Definition p_left := mk_position (-1) 0 zero_val zero_val.
Definition p_right := mk_position 1 0 zero_val zero_val.
Definition p_top := mk_position 0 (-1) zero_val zero_val.
Definition p_bottom := mk_position 0 1 zero_val zero_val.
Definition p_center := mk_position 0 0 zero_val zero_val.
Definition at_x (v : val) (p : position) := mk_position (anchor_x p) (anchor_y p) v (pos_y p).
Definition at_y (v : val) (p : position) := mk_position (anchor_x p) (anchor_y p) (pos_x p) v.

Definition maybe (X : Type) := option (option X * list tree).
(** expect_ident_matching *)
Definition eat (k : string) (l : list tree) : option (list tree) := match l with Leaf (TIdent s) :: r => if same_name s (tx k) then Some r else None | _ => None end.
(** expect_located_ident and match_ignore_ascii_case *)
Definition eat_one {X} (ks : list (string * X)) (l : list tree) : option (X * list tree) :=
  match l with Leaf (TIdent s) :: r => option_map (fun v => (v, r)) (lookup s ks) | _ => None end.
(** try, and otherwise *)
Definition orelse {X} (a : option X) (b : option X) : option X := match a with Some _ => a | None => b end.

Section Gradient.
  Context {color : Type} (color_of : tree -> option color) (calc_val : list tree -> option val) (calc_angle : list tree -> option Q) (rho : Q) (opposite : Q -> Q -> Q).
  Notation pval := (parse_calc calc_val parse_val).
  Notation pangle := (parse_rotation calc_angle rho).

  (** 20-81 *)
  Definition circle_or_ellipse (l : list tree) : option (shape * list tree) :=
    bind (one pval l) (fun p : val * list tree => match one pval (snd p) with Some (w, r) => Some (Ellipse (fst p) w, r) | None => Some (Circle (fst p), snd p) end).
  Definition shape_keywords : list (string * shape) :=
    [("closest-side", ClosestSide); ("farthest-side", FarthestSide); ("closest-corner", ClosestCorner); ("farthest-corner", FarthestCorner)]%string.
  Definition parse_shape (l : list tree) : maybe shape :=
    match eat_one [("circle", tt); ("ellipse", tt)]%string l with
    | Some (_, r) => option_map (fun p : shape * list tree => (Some (fst p), snd p)) (orelse (circle_or_ellipse r) (eat_one shape_keywords r))
    | None => match orelse (circle_or_ellipse l) (eat_one shape_keywords l) with Some (s, r) => Some (Some s, r) | None => Some (None, l) end
    end.
  (** 83-191 *)
  Definition case_1 (l : list tree) : option (position * list tree) :=
    match one pval l with
    | Some (v, r) => Some (at_x v p_left, r)
    | None => eat_one [("left", p_left); ("center", p_center); ("right", p_right); ("top", p_top); ("bottom", p_bottom)]%string l
    end.
  Definition case_2 (l : list tree) : option (position * list tree) :=
    bind (match one pval l with Some (v, r) => Some (at_x v p_left, r) | None => eat_one [("left", p_left); ("center", p_center); ("right", p_right)]%string l end)
      (fun h : position * list tree =>
        bind (match one pval (snd h) with Some (v, r) => Some (at_y v p_top, r) | None => eat_one [("top", p_top); ("center", p_center); ("bottom", p_bottom)]%string (snd h) end)
          (fun v : position * list tree => Some (mk_position (anchor_x (fst h)) (anchor_y (fst v)) (pos_x (fst h)) (pos_y (fst v)), snd v))).
  Definition case_3 (l : list tree) : option (position * list tree) :=
    bind (eat_one [("left", p_left); ("right", p_right)]%string l) (fun h : position * list tree =>
      bind (one pval (snd h)) (fun x : val * list tree =>
        bind (eat_one [("top", (-1)%Z); ("bottom", 1%Z)]%string (snd x)) (fun v : Z * list tree =>
          bind (one pval (snd v)) (fun y : val * list tree => Some (mk_position (anchor_x (fst h)) (fst v) (fst x) (fst y), snd y))))).
  Definition parse_position (l : list tree) : maybe position :=
    match eat "at" l with
    | None => Some (None, l)
    | Some r => option_map (fun p : position * list tree => (Some (fst p), snd p)) (orelse (case_3 r) (orelse (case_2 r) (case_1 r)))
    end.
  (** 228-299 *)
  Definition parse_hue (l : list tree) : option (bool * list tree) :=
    match eat "longer" l with
    | Some r => option_map (fun r => (true, r)) (eat "hue" r)
    | None => match eat "shorter" l with Some r => option_map (fun r => (false, r)) (eat "hue" r) | None => Some (false, l) end
    end.
  Definition spaces : list (string * (color_space * option color_space)) :=
    [("oklab", (Oklab, None)); ("oklch", (Oklch, Some OklchLong)); ("srgb", (Srgb, None)); ("linear-rgb", (LinearRgb, None)); ("hsl", (Hsl, Some HslLong)); ("hsv", (Hsv, Some HsvLong))]%string.
  Definition parse_color_space (l : list tree) : maybe color_space :=
    match eat "in" l with
    | None => Some (None, l)
    | Some r => bind (eat_one spaces r) (fun p : (color_space * option color_space) * list tree =>
        match snd (fst p) with
        | None => Some (Some (fst (fst p)), snd p)
        | Some long => option_map (fun h : bool * list tree => (Some (if fst h then long else fst (fst p)), snd h)) (parse_hue (snd p))
        end)
    end.
  (** 302-338; bevy_math's nlerp with 1/2 is the middle of the shorter way, undefined for opposite rotations *)
  Definition directions : list (string * Q) := [("right", 1 # 4); ("left", - 1 # 4); ("top", 0); ("bottom", 1 # 2)]%string%Q.
  Definition middle (a b : Q) : Q := if Qeq_bool (Calc.wrap (b - a)) (1 # 2) then opposite a b else Qred (Calc.wrap (a + Calc.wrap (b - a) / 2)).
  Definition parse_linear_angle (l : list tree) : maybe Q :=
    match one pangle l with
    | Some (a, r) => Some (Some a, r)
    | None =>
        match eat "to" l with
        | None => Some (None, l)
        | Some r => bind (eat_one directions r) (fun p : Q * list tree => match eat_one directions (snd p) with Some (b, r') => Some (Some (middle (fst p) b), r') | None => Some (Some (fst p), snd p) end)
        end
    end.
  (** 341-350 *)
  Definition parse_conic_angle (l : list tree) : maybe Q :=
    match eat "from" l with None => Some (None, l) | Some r => option_map (fun p : Q * list tree => (Some (fst p), snd p)) (one pangle r) end.

  (** ** Stops; [P] is what a place is: a length, or an angle in turns *)
  Record stop (P : Type) := mk_stop { st_color : color; st_at : option P; st_hint : Q }.
  Arguments mk_stop {P}. Arguments st_color {P}. Arguments st_at {P}. Arguments st_hint {P}.
  (** 193-221; ColorStop::new has the hint 1/2 *)
  Definition parse_stops {P} (place : tree -> option P) (l : list tree) : option (list (stop P) * list tree) :=
    bind (one color_of l) (fun c : color * list tree =>
      let (ps, r) := while_ok place (snd c) in
      Some (match ps with [] => [mk_stop (fst c) None (1 # 2)] | _ => map (fun p => mk_stop (fst c) (Some p) (1 # 2)) ps end, r)).
  (** Val::Auto as a point is the same as no place *)
  Definition as_place (v : val) : option val := match v with VAuto => None | _ => Some v end.
  Definition linear_place (x : tree) : option (option val) := option_map as_place (pval x).
  Definition parse_linear_stops (l : list tree) : option (list (stop val) * list tree) :=
    option_map (fun p : list (stop (option val)) * list tree => (map (fun s => mk_stop (st_color s) (match st_at s with Some o => o | None => None end) (st_hint s)) (fst p), snd p)) (parse_stops linear_place l).
  Definition parse_angular_stops : list tree -> option (list (stop Q) * list tree) := parse_stops pangle.
  (** stops.last_mut().hint = hint *)
  Fixpoint set_hint {P} (h : Q) (ss : list (stop P)) : list (stop P) :=
    match ss with [] => [] | [s] => [mk_stop (st_color s) (st_at s) h] | s :: r => s :: set_hint h r end.
  (** one argument after the first (408-416 and alike) *)
  Definition parse_item {P} (stops : list tree -> option (list (stop P) * list tree)) (ss : list (stop P)) (l : list tree) : option (list (stop P) * list tree) :=
    match ss, l with
    | _ :: _, Leaf (TPercent d) :: r => Some (set_hint (dec_Q d) ss, r)
    | _, _ => option_map (fun p : list (stop P) * list tree => (ss ++ fst p, snd p)) (stops l)
    end.
  Fixpoint more_items {P} (stops : list tree -> option (list (stop P) * list tree)) (fuel : nat) (ss : list (stop P)) (l : list tree) : option (list (stop P) * list tree) :=
    match fuel, l with
    | S fuel, Leaf TComma :: r => bind (parse_item stops ss r) (fun p : list (stop P) * list tree => more_items stops fuel (fst p) (snd p))
    | _, _ => Some (ss, l)
    end.
  (** 368-378 *)
  Definition insert_zero {P} (is_zero : P -> bool) (zero : P) (ss : list (stop P)) : list (stop P) :=
    match ss with s :: _ => if match st_at s with None => true | Some p => is_zero p end then ss else mk_stop (st_color s) (Some zero) (st_hint s) :: ss | [] => [] end.
  (** 391-532: the first argument is the header if there is one *)
  Definition parse_body {P H} (header : list tree -> option (option H * list tree)) (stops : list tree -> option (list (stop P) * list tree)) (l : list tree) : option (option H * list (stop P) * list tree) :=
    bind (header l) (fun p : option H * list tree =>
      let fuel := length l in
      match fst p with
      | Some h => bind (more_items stops fuel [] (snd p)) (fun q : list (stop P) * list tree => match fst q with [] => None | _ => Some (Some h, fst q, snd q) end)
      | None => bind (parse_item stops [] (snd p)) (fun i : list (stop P) * list tree => bind (more_items stops fuel (fst i) (snd i)) (fun q : list (stop P) * list tree => match fst q with [] => None | _ => Some (None, fst q, snd q) end))
      end).
  (** CombinedParse *)
  Definition combine2 {A B} (f : list tree -> maybe A) (g : list tree -> maybe B) (l : list tree) : maybe (option A * option B) :=
    bind (f l) (fun a : option A * list tree => bind (g (snd a)) (fun b : option B * list tree =>
      Some (match fst a, fst b with None, None => None | x, y => Some (x, y) end, snd b))).
  Definition combine3 {A B C} (f : list tree -> maybe A) (g : list tree -> maybe B) (h : list tree -> maybe C) (l : list tree) : maybe (option A * option B * option C) :=
    bind (f l) (fun a : option A * list tree => bind (g (snd a)) (fun b : option B * list tree => bind (h (snd b)) (fun c : option C * list tree =>
      Some (match fst a, fst b, fst c with None, None, None => None | x, y, z => Some (x, y, z) end, snd c)))).
  Definition or_default {A} (o : option A) (d : A) : A := match o with Some a => a | None => d end.

  Inductive gradient :=
  | Linear (s : color_space) (angle : Q) (stops : list (stop val))
  | Radial (s : color_space) (p : position) (sh : shape) (stops : list (stop val))
  | Conic (s : color_space) (start : Q) (p : position) (stops : list (stop Q)).
  Definition is_zero_val (v : val) : bool := match v with VLen UPx q => Qeq_bool q 0 | _ => false end.
  (** 391-431 *)
  Definition parse_linear (l : list tree) : option (gradient * list tree) :=
    option_map (fun p : option (option Q * option color_space) * list (stop val) * list tree =>
      let '(h, ss, r) := p in
      let (a, s) := or_default h (None, None) in
      (Linear (or_default s Oklab) (or_default a (1 # 2)%Q) (insert_zero is_zero_val zero_val ss), r))
      (parse_body (combine2 parse_linear_angle parse_color_space) parse_linear_stops l).
  (** 433-484 *)
  Definition parse_radial (l : list tree) : option (gradient * list tree) :=
    option_map (fun p : option (option shape * option position * option color_space) * list (stop val) * list tree =>
      let '(h, ss, r) := p in
      let '(sh, po, s) := or_default h (None, None, None) in
      (Radial (or_default s Oklab) (or_default po p_center) (or_default sh FarthestCorner) (insert_zero is_zero_val zero_val ss), r))
      (parse_body (combine3 parse_shape parse_position parse_color_space) parse_linear_stops l).
  (** 486-536 *)
  Definition parse_conic (l : list tree) : option (gradient * list tree) :=
    option_map (fun p : option (option Q * option position * option color_space) * list (stop Q) * list tree =>
      let '(h, ss, r) := p in
      let '(a, po, s) := or_default h (None, None, None) in
      (Conic (or_default s Oklab) (or_default a 0%Q) (or_default po p_center) (insert_zero (fun q => Qeq_bool q 0) 0%Q ss), r))
      (parse_body (combine3 parse_conic_angle parse_position parse_color_space) parse_angular_stops l).
  Definition entirely {X} (o : option (X * list tree)) : option X := match o with Some (v, []) => Some v | _ => None end.
  (** 538-570 *)
  Definition parse_gradient (x : tree) : option gradient :=
    match x with
    | Fun s l =>
        if same_name s (tx "linear-gradient") then entirely (parse_linear l)
        else if same_name s (tx "radial-gradient") then entirely (parse_radial l)
        else if same_name s (tx "conic-gradient") then entirely (parse_conic l)
        else None
    | _ => None
    end.
  (** 572-582 *)
  Fixpoint more_gradients (fuel : nat) (l : list tree) : option (list gradient * list tree) :=
    match fuel, l with
    | S fuel, Leaf TComma :: r => bind (one parse_gradient r) (fun p : gradient * list tree => option_map (fun q : list gradient * list tree => (fst p :: fst q, snd q)) (more_gradients fuel (snd p)))
    | _, _ => Some ([], l)
    end.
  Definition parse_gradients (l : list tree) : option (list gradient * list tree) :=
    bind (one parse_gradient l) (fun p : gradient * list tree => option_map (fun q : list gradient * list tree => (fst p :: fst q, snd q)) (more_gradients (length l) (snd p))).
End Gradient.
Arguments mk_stop {color P}. Arguments st_color {color P}. Arguments st_at {color P}. Arguments st_hint {color P}. Arguments gradient : clear implicits. Arguments Linear {color}. Arguments Radial {color}. Arguments Conic {color}.

(** The grammar of gradients and the colors along their line: C91, C92. *)
From Coq Require Import Ascii String NArith ZArith QArith Lqa.
From Verif Require Import Base Vars VarText SheetText ValueParse ValueParseSpec MoreValues MoreValuesSpec Gradient.
Open Scope nat_scope.

Section Grammar.
  Context {color : Type} (color_of : tree -> option color) (calc_val : list tree -> option val) (calc_angle : list tree -> option Q) (rho : Q) (opposite : Q -> Q -> Q).
  Definition a_val : tree -> val -> Prop := with_calc calc_val is_val.
  Definition an_angle : tree -> Q -> Prop := with_calc calc_angle (is_angle rho).
  (** one of the words, and what it stands for *)
  Definition a_word {X} (ks : list (string * X)) (x : tree) (v : X) : Prop := exists k, In (k, v) ks /\ word x k.

  (** ** [ circle | ellipse ]? [ <length> <length>? | <extent> ] *)
  Definition extents : list (string * shape) := [("closest-side", ClosestSide); ("farthest-side", FarthestSide); ("closest-corner", ClosestCorner); ("farthest-corner", FarthestCorner)]%string.
  Inductive is_extent : list tree -> shape -> Prop :=
  | ie_circle x v : a_val x v -> is_extent [x] (Circle v)
  | ie_ellipse x y v w : a_val x v -> a_val y w -> is_extent [x; y] (Ellipse v w)
  | ie_word x s : a_word extents x s -> is_extent [x] s.
  Inductive is_shape : list tree -> shape -> Prop :=
  | ish_plain l s : is_extent l s -> is_shape l s
  | ish_named x l s : word x "circle" \/ word x "ellipse" -> is_extent l s -> is_shape (x :: l) s.

  (** ** at <position>.  A length is measured from the left or the top, or from the edge named before it *)
  Definition z : val := VLen UPx 0.
  Definition sideways : list (string * Z) := [("left", (-1)%Z); ("center", 0%Z); ("right", 1%Z)]%string.
  Definition upright : list (string * Z) := [("top", (-1)%Z); ("center", 0%Z); ("bottom", 1%Z)]%string.
  (** one coordinate: the anchor and the offset from it *)
  Inductive coordinate (names : list (string * Z)) : tree -> Z * val -> Prop :=
  | co_val x v : a_val x v -> coordinate names x ((-1)%Z, v)
  | co_word x a : a_word names x a -> coordinate names x (a, z).
  Definition edge (a : Z) : Prop := a <> 0%Z.
  Inductive is_place : list tree -> position -> Prop :=
  | ip_x x a v : coordinate sideways x (a, v) -> is_place [x] (mk_position a 0 v z)
  | ip_y x a : a_word upright x a -> is_place [x] (mk_position 0 a z z)
  | ip_xy x y a b v w : coordinate sideways x (a, v) -> coordinate upright y (b, w) -> is_place [x; y] (mk_position a b v w)
  | ip_edges e x f y a b v w : a_word sideways e a -> edge a -> a_val x v -> a_word upright f b -> edge b -> a_val y w -> is_place [e; x; f; y] (mk_position a b v w).
  Inductive is_at : list tree -> position -> Prop := iat x l p : word x "at" -> is_place l p -> is_at (x :: l) p.

  (** ** in <color space> [ shorter hue | longer hue ]? *)
  Inductive is_space : list tree -> color_space -> Prop :=
  | isp_plain w x s : word w "in" -> a_word [("oklab", Oklab); ("oklch", Oklch); ("srgb", Srgb); ("linear-rgb", LinearRgb); ("hsl", Hsl); ("hsv", Hsv)]%string x s -> is_space [w; x] s
  | isp_shorter w x h u s : word w "in" -> a_word [("oklch", Oklch); ("hsl", Hsl); ("hsv", Hsv)]%string x s -> word h "shorter" -> word u "hue" -> is_space [w; x; h; u] s
  | isp_longer w x h u s : word w "in" -> a_word [("oklch", OklchLong); ("hsl", HslLong); ("hsv", HsvLong)]%string x s -> word h "longer" -> word u "hue" -> is_space [w; x; h; u] s.

  (** ** <angle> | to <side> <side>?; an angle is in turns, clockwise from the top *)
  Definition sides : list (string * Q) := [("top", 0); ("right", 1 # 4); ("bottom", 1 # 2); ("left", - 1 # 4)]%string%Q.
  (** two sides: their corner is halfway between them; nothing is said about opposite ones *)
  Definition corners : list (Q * Q * Q) := [(0, 1 # 4, 1 # 8); (1 # 2, 1 # 4, 3 # 8); (1 # 2, - 1 # 4, - 3 # 8); (0, - 1 # 4, - 1 # 8)]%Q.
  Definition opposite_sides : list (Q * Q) := [(0, 1 # 2); (1 # 2, 0); (1 # 4, - 1 # 4); (- 1 # 4, 1 # 4)]%Q.
  Definition between (a b c : Q) : Prop := (a = b /\ c = a) \/ In (a, b, c) corners \/ In (b, a, c) corners \/ (In (a, b) opposite_sides /\ c = opposite a b).
  Inductive is_direction : list tree -> Q -> Prop :=
  | id_angle x a : an_angle x a -> is_direction [x] a
  | id_side x y a : word x "to" -> a_word sides y a -> is_direction [x; y] a
  | id_corner x y y' a b c : word x "to" -> a_word sides y a -> a_word sides y' b -> between a b c -> is_direction [x; y; y'] c.
  Inductive is_from : list tree -> Q -> Prop := ifr x y a : word x "from" -> an_angle y a -> is_from [x; y] a.

  (** ** Stops: a color and where it is; colors without a place have one stop *)
  Inductive is_stops {P} (strict : bool) (place : tree -> option P -> Prop) : list tree -> list (@stop color P) -> Prop :=
  | iso_plain x c : color_of x = Some c -> is_stops strict place [x] [mk_stop c None (1 # 2)]
  | iso_at x c xs ps : color_of x = Some c -> ps <> [] -> Forall2 place xs ps -> (strict = true -> length ps <= 2) -> is_stops strict place (x :: xs) (map (fun p => mk_stop c p (1 # 2)) ps).
  (** Stops between commas; a percentage alone says where the middle of the stop before and the next one is.
      The last flag: the list ends with such a hint, which CSS does not allow, nor two of them in a row. *)
  Inductive items {P} (strict : bool) (place : tree -> option P -> Prop) : list tree -> list (@stop color P) -> bool -> Prop :=
  | im_first l ss : is_stops strict place l ss -> items strict place l ss false
  | im_more l ss b r ss' : items strict place l ss b -> is_stops strict place r ss' -> items strict place (l ++ comma :: r) (ss ++ ss') false
  | im_hint l ss s b d : items strict place l (ss ++ [s]) b -> (strict = true -> b = false) ->
      items strict place (l ++ [comma; Leaf (TPercent d)]) (ss ++ [mk_stop (st_color s) (st_at s) (dec_Q d)]) true.
  Definition all_items {P} (strict : bool) (place : tree -> option P -> Prop) (l : list tree) (ss : list (@stop color P)) : Prop :=
    exists b, items strict place l ss b /\ (strict = true -> b = false).
  (** pieces of the header, each may be missing, but not all of them, in this order *)
  Definition piece {X} (is_it : list tree -> X -> Prop) (l : list tree) (o : option X) : Prop := match o with None => l = [] | Some v => is_it l v end.
  Inductive body {P H} (strict : bool) (header : list tree -> H -> Prop) (absent : H) (place : tree -> option P -> Prop) : list tree -> H -> list (@stop color P) -> Prop :=
  | bo_plain l ss : all_items strict place l ss -> body strict header absent place l absent ss
  | bo_header h v l ss : h <> [] -> header h v -> all_items strict place l ss -> body strict header absent place (h ++ comma :: l) v ss.
  Definition linear_header (l : list tree) (v : option Q * option color_space) : Prop :=
    exists a s, l = a ++ s /\ piece is_direction a (fst v) /\ piece is_space s (snd v).
  Definition radial_header (l : list tree) (v : option shape * option position * option color_space) : Prop :=
    exists a p s, l = a ++ p ++ s /\ piece is_shape a (fst (fst v)) /\ piece is_at p (snd (fst v)) /\ piece is_space s (snd v).
  Definition conic_header (l : list tree) (v : option Q * option position * option color_space) : Prop :=
    exists a p s, l = a ++ p ++ s /\ piece is_from a (fst (fst v)) /\ piece is_at p (snd (fst v)) /\ piece is_space s (snd v).
  (** the first stop is at zero, or nowhere; otherwise another one of the same color is put there *)
  Inductive from_zero {P} (zero : P) (is_zero : P -> Prop) : list (@stop color P) -> list (@stop color P) -> Prop :=
  | fz_nowhere s ss : st_at s = None -> from_zero zero is_zero (s :: ss) (s :: ss)
  | fz_zero s ss p : st_at s = Some p -> is_zero p -> from_zero zero is_zero (s :: ss) (s :: ss)
  | fz_put s ss p : st_at s = Some p -> ~ is_zero p -> from_zero zero is_zero (s :: ss) (mk_stop (st_color s) (Some zero) (st_hint s) :: s :: ss).
  Definition zero_length (v : val) : Prop := exists q, v = VLen UPx q /\ (q == 0)%Q.
  (** auto says nothing about the place *)
  Definition length_place (x : tree) (o : option val) : Prop := (a_val x VAuto /\ o = None) \/ (exists v, a_val x v /\ v <> VAuto /\ o = Some v).
  Definition angle_place (x : tree) (o : option Q) : Prop := exists q, an_angle x q /\ o = Some q.
  Definition given {X} (o : option X) (d v : X) : Prop := o = Some v \/ o = None /\ v = d.
  (** [angles]: where a stop of a conic gradient is *)
  Inductive is_gradient (strict : bool) (angles : tree -> option Q -> Prop) : tree -> gradient color -> Prop :=
  | ig_linear x l o s a sp ss ss' : call x "linear-gradient" l -> body strict linear_header (None, None) length_place l (o, s) ss ->
      given o (1 # 2)%Q a -> given s Oklab sp -> from_zero z zero_length ss ss' -> is_gradient strict angles x (Linear sp a ss')
  | ig_radial x l o p s sh po sp ss ss' : call x "radial-gradient" l -> body strict radial_header (None, None, None) length_place l (o, p, s) ss ->
      given o FarthestCorner sh -> given p (mk_position 0 0 z z) po -> given s Oklab sp -> from_zero z zero_length ss ss' -> is_gradient strict angles x (Radial sp po sh ss')
  | ig_conic x l o p s a po sp ss ss' : call x "conic-gradient" l -> body strict conic_header (None, None, None) angles l (o, p, s) ss ->
      given o 0%Q a -> given p (mk_position 0 0 z z) po -> given s Oklab sp -> from_zero 0%Q (fun q => q == 0)%Q ss ss' -> is_gradient strict angles x (Conic sp a po ss').
  Inductive is_gradients (strict : bool) (angles : tree -> option Q -> Prop) : list tree -> list (gradient color) -> Prop :=
  | igs_one x g : is_gradient strict angles x g -> is_gradients strict angles [x] [g]
  | igs_more x g l gs : is_gradient strict angles x g -> is_gradients strict angles l gs -> is_gradients strict angles (x :: comma :: l) (g :: gs).

  (** in CSS a stop of a conic gradient may be anywhere: no angle is brought back between minus half a turn and half a turn *)
  Definition css_angle_place (x : tree) (o : option Q) : Prop := exists q, turns_of rho x q /\ o = Some q.
  (** no color is a length, an angle, or a word that gradients use *)
  Definition colors_apart : Prop := forall x c, color_of x = Some c ->
    x <> comma /\ (forall v, ~ a_val x v) /\ (forall a, ~ an_angle x a) /\
    (forall k, In k ["to"; "in"; "from"; "at"; "circle"; "ellipse"; "closest-side"; "farthest-side"; "closest-corner"; "farthest-corner"]%string -> ~ word x k).
End Grammar.

(** ** The colors of the line, as CSS Images 4 says (3.5.1 and 3.5.3) *)
Section Line.
  Context {color : Type} (mix : color -> color -> Q -> color).
  (** stops with their place on a line from 0 to [len]: how much of the way the middle is, is left to [bend] *)
  Record point := mk_point { pt_color : color; pt_at : option Q; pt_hint : Q }.
  Definition max_of (a b : Q) : Q := if Qle_bool a b then b else a.
  (** the first and the last stop have a place *)
  Fixpoint last_at (len : Q) (ps : list point) : list point :=
    match ps with
    | [] => []
    | [p] => [mk_point (pt_color p) (match pt_at p with None => Some len | o => o end) (pt_hint p)]
    | p :: r => p :: last_at len r
    end.
  Definition first_at (ps : list point) : list point := match ps with [] => [] | p :: r => mk_point (pt_color p) (match pt_at p with None => Some 0%Q | o => o end) (pt_hint p) :: r end.
  (** no stop is before an earlier one *)
  Fixpoint ascending (m : option Q) (ps : list point) : list point :=
    match ps with
    | [] => []
    | p :: r =>
        let a := match pt_at p, m with Some q, Some m => Some (max_of m q) | o, _ => o end in
        mk_point (pt_color p) a (pt_hint p) :: ascending (match a with Some q => Some q | None => m end) r
    end.
  (** stops without a place are spread between their neighbours: [gap] steps until the next place *)
  Fixpoint next_place (ps : list point) : option (nat * Q) :=
    match ps with
    | [] => None
    | p :: r => match pt_at p with Some q => Some (1, q) | None => match next_place r with Some (n, q) => Some (S n, q) | None => None end end
    end.
  Fixpoint spread (m : Q) (ps : list point) : list (color * Q * Q) :=
    match ps with
    | [] => []
    | p :: r =>
        let a := match pt_at p with
                 | Some q => q
                 | None => match next_place ps with Some (n, q) => (m + (q - m) / inject_Z (Z.of_nat n))%Q | None => m end
                 end in
        (pt_color p, a, pt_hint p) :: spread a r
    end.
  Definition placed (len : Q) (ps : list point) : list (color * Q * Q) := spread 0 (ascending None (last_at len (first_at ps))).
  (** the color at [x]: between two stops they are mixed; [bend h s]: how far the mix is after the part [s] of the way if it is halfway after the part [h] *)
  Context (bend : Q -> Q -> Q).
  Fixpoint color_from (cs : list (color * Q * Q)) (x : Q) : option color :=
    match cs with
    | [] => None
    | [(c, a, _)] => Some c
    | (c, a, h) :: (((c', b, _) :: _) as r) =>
        if Qle_bool b x then color_from r x else if Qle_bool a x then Some (mix c c' (bend h ((x - a) / (b - a)))) else Some c
    end.
  Definition color_at (len : Q) (ps : list point) (x : Q) : option color := color_from (placed len ps) x.
End Line.
Arguments point : clear implicits. Arguments mk_point {color}. Arguments pt_color {color}. Arguments pt_at {color}. Arguments pt_hint {color}.
(** where a stop of a gradient is, [to_px] says how long lengths are *)
Definition point_of {color P} (to_px : P -> Q) (s : @stop color P) : point color := mk_point (st_color s) (option_map to_px (st_at s)) (st_hint s).

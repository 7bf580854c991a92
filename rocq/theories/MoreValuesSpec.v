(** The grammar of keywords, points, rectangles, angles, clip margins, line heights, text shadows, strings, paths and image modes: C89, C90. *)
From Coq Require Import Ascii String NArith ZArith QArith.
From Verif Require Import Base Vars VarText SheetText ValueParse ValueParseSpec MoreValues.
Open Scope nat_scope.

(** ** Keywords of an enumeration *)
Definition capital (c : ascii) : Prop := (65 <= N_of_ascii c <= 90)%N.
Definition hyphen : ascii := "-"%char.
(** NoWrap is made of the words No and Wrap *)
Definition starts_capital (w : text) : Prop := exists c r, w = c :: r /\ capital c.
Definition one_word (w : text) : Prop := exists c r, w = c :: r /\ Forall (fun x => ~ capital x) r.
Definition words_of (name : text) (ws : list text) : Prop := name = concat ws /\ Forall one_word ws /\ Forall starts_capital (skipn 1 ws).
Fixpoint hyphenated (ws : list text) : text := match ws with [] => [] | [w] => w | w :: r => w ++ hyphen :: hyphenated r end.
(** the same letters, in capitals or not *)
Definition same_letters (a b : text) : Prop := map lower a = map lower b.
Definition no_hyphen (s : text) : Prop := ~ In hyphen s.
(** [s] with some hyphens put in is [t] *)
Inductive hyphens_added : text -> text -> Prop :=
| ha_nil : hyphens_added [] []
| ha_keep c s r : hyphens_added s r -> hyphens_added (c :: s) (c :: r)
| ha_add s r : hyphens_added s r -> hyphens_added s (hyphen :: r).
(** an enumeration whose variants can be told apart without capitals, and from the keywords of CSS *)
Definition good_enum (vs : list variant) : Prop :=
  NoDup (map (fun v => map lower (v_name v)) vs) /\ (forall v, In v vs -> no_hyphen (v_name v)) /\
  (forall v k, In v vs -> In k ["unset"; "inherit"; "initial"]%string -> ~ spells (v_name v) k).
(** what is accepted: the name of a variant, with hyphens anywhere *)
Definition names_variant (vs : list variant) (x : tree) (v : variant) : Prop :=
  In v vs /\ v_unit v = true /\ exists s n, x = Leaf (TIdent s) /\ hyphens_added n s /\ same_letters n (v_name v).
(** what CSS means: the words of the name with hyphens between them *)
Definition css_keyword (vs : list variant) (x : tree) (v : variant) : Prop :=
  In v vs /\ v_unit v = true /\ exists s ws, x = Leaf (TIdent s) /\ words_of (v_name v) ws /\ same_letters s (hyphenated ws).

Definition single {X} (is_it : tree -> X -> Prop) (l : list tree) (v : X) : Prop := exists x, l = [x] /\ is_it x v.

(** ** Points: none | <value> <value>?, the second is the first if it is missing *)
Inductive is_pair {X} (zero : X) (is_it : tree -> X -> Prop) : list tree -> X * X -> Prop :=
| ip_none x : word x "none" -> is_pair zero is_it [x] (zero, zero)
| ip_one x a : is_it x a -> is_pair zero is_it [x] (a, a)
| ip_two x y a b : is_it x a -> is_it y b -> is_pair zero is_it [x; y] (a, b).
(** ** Rectangles: none | two corners *)
Inductive is_rect (is_it : tree -> Q -> Prop) : list tree -> rect -> Prop :=
| irc_none x : word x "none" -> is_rect is_it [x] (mk_rect 0 0 0 0)
| irc_corners w x y z a b c d r : is_it w a -> is_it x b -> is_it y c -> is_it z d ->
    (a <= c /\ min_x r = a /\ max_x r = c \/ c < a /\ min_x r = c /\ max_x r = a)%Q ->
    (b <= d /\ min_y r = b /\ max_y r = d \/ d < b /\ min_y r = d /\ max_y r = b)%Q ->
    is_rect is_it [w; x; y; z] r.
(** ** Angles: none | 0 | <angle>; the rotation is the one between minus half a turn and half a turn *)
Definition turns_of (rho : Q) (x : tree) (q : Q) : Prop :=
  (exists a, dimension x "deg" a /\ q = a / 360)%Q \/ (exists a, dimension x "grad" a /\ q = a / 400)%Q \/ (exists a, dimension x "rad" a /\ q = a * rho)%Q \/ dimension x "turn" q.
Inductive is_angle (rho : Q) : tree -> Q -> Prop :=
| ia_none x : word x "none" -> is_angle rho x 0
| ia_zero x a : number x a -> a == 0%Q -> is_angle rho x 0
| ia_angle x a q : turns_of rho x a -> (exists k : Z, q = a - inject_Z k)%Q -> (- (1 # 2) < q <= 1 # 2)%Q -> is_angle rho x q.
(** ** overflow-clip-margin: <box>? <length> *)
Inductive is_clip_margin (is_it : tree -> Q -> Prop) (boxes : list variant) (default_box : variant) : list tree -> variant * Q -> Prop :=
| icm_one x a : is_it x a -> is_clip_margin is_it boxes default_box [x] (default_box, a)
| icm_two w x b a : names_variant boxes w b -> is_it x a -> is_clip_margin is_it boxes default_box [w; x] (b, a).
(** ** line-height: normal | <number> | <percentage> | px | em *)
Inductive is_line_height : tree -> line_height -> Prop :=
| ilh_normal : is_line_height (Leaf (TIdent (tx "normal"))) (LRelative (12 # 10))
| ilh_number x q : number x q -> is_line_height x (LRelative q)
| ilh_percent d : is_line_height (Leaf (TPercent d)) (LRelative (dec_Q d))
| ilh_em x q : dimension x "em" q -> is_line_height x (LRelative q)
| ilh_px x q : dimension x "px" q -> is_line_height x (LPx q).
(** ** text-shadow: none | [ <color>? && <length>{2} ] *)
Inductive is_text_shadow {color} (is_it : tree -> Q -> Prop) (color_of : tree -> option color) (transparent default_color : color) : list tree -> (Q * Q) * color -> Prop :=
| its_none x : word x "none" -> is_text_shadow is_it color_of transparent default_color [x] ((0, 0)%Q, transparent)
| its_plain x y a b : is_it x a -> is_it y b -> is_text_shadow is_it color_of transparent default_color [x; y] ((a, b), default_color)
| its_first w x y a b c : color_of w = Some c -> is_it x a -> is_it y b -> is_text_shadow is_it color_of transparent default_color [w; x; y] ((a, b), c)
| its_last x y w a b c : color_of w = Some c -> is_it x a -> is_it y b -> is_text_shadow is_it color_of transparent default_color [x; y; w] ((a, b), c).
(** ** Strings, paths, fonts *)
Inductive is_string : tree -> text -> Prop := isg s : is_string (Leaf (TString s)) s.
(** [url_of]: the meaning of what is written in url(...) without quotes *)
Inductive is_path (url_of : text -> option text) : tree -> text -> Prop :=
| iph_string s : is_path url_of (Leaf (TString s)) s
| iph_url s p : url_of s = Some p -> is_path url_of (Leaf (TUrl s)) p
| iph_quoted x s : call x "url" [Leaf (TString s)] -> is_path url_of x s.
Inductive is_font : tree -> text -> Prop :=
| ift_string s : is_font (Leaf (TString s)) s
| ift_ident s : is_font (Leaf (TIdent s)) s.
(** ** Image modes *)
(** the last number among the parameters *)
Inductive last_number : list tree -> Q -> Prop :=
| ln_none l : (forall x q, In x l -> ~ number x q) -> last_number l 1
| ln_last l x q r : number x q -> (forall y p, In y r -> ~ number y p) -> last_number (l ++ x :: r) q.
Inductive is_tiled : list tree -> tiled -> Prop :=
| itd l s : (forall x, In x l -> x = Leaf (TIdent (tx "tile_x")) \/ x = Leaf (TIdent (tx "tile_y")) \/ exists q, number x q) ->
    (tile_x s = true <-> In (Leaf (TIdent (tx "tile_x"))) l) -> (tile_y s = true <-> In (Leaf (TIdent (tx "tile_y"))) l) -> last_number l (stretch_value s) ->
    is_tiled l s.
Inductive is_scale_mode (is_it : tree -> Q -> Prop) : tree -> scale_mode -> Prop :=
| ism_auto : is_scale_mode is_it (Leaf (TIdent (tx "auto"))) Stretch
| ism_stretch : is_scale_mode is_it (Leaf (TIdent (tx "stretch"))) Stretch
| ism_tile x a q : call x "tile" [a] -> is_it a q -> is_scale_mode is_it x (Tile q).
(** one to four sides: top, right, bottom, left; what is missing is as the opposite side, and right as top *)
Definition side (vs : list Q) (i : nat) : Q := nth i vs (nth (i - 2) vs (nth 0 vs 0%Q)).
(** sliced(<side>{1,4} <mode>? <mode>? <scale>?): a scale needs a mode or four sides before it *)
Inductive is_sliced (is_it : tree -> Q -> Prop) : list tree -> slicer -> Prop :=
| isl xs vs ms modes ss scales s : Forall2 is_it xs vs -> 1 <= length vs <= 4 ->
    Forall2 (is_scale_mode is_it) ms modes -> length modes <= 2 ->
    Forall2 is_it ss scales -> length scales <= 1 ->
    (scales = [] \/ modes <> [] \/ length vs = 4) ->
    min_inset s = (side vs 3, side vs 0) -> max_inset s = (side vs 1, side vs 2) ->
    center_mode s = nth 0 modes Stretch -> sides_mode s = nth 1 modes Stretch -> corner_scale s = nth 0 scales 1%Q ->
    is_sliced is_it (xs ++ ms ++ ss) s.
Inductive is_image_mode (is_it : tree -> Q -> Prop) : tree -> image_mode -> Prop :=
| iim_auto : is_image_mode is_it (Leaf (TIdent (tx "auto"))) IAuto
| iim_stretch : is_image_mode is_it (Leaf (TIdent (tx "stretch"))) IStretch
| iim_tiled x l s : call x "tiled" l -> is_tiled l s -> is_image_mode is_it x (ITiled s)
| iim_sliced x l s : call x "sliced" l -> is_sliced is_it l s -> is_image_mode is_it x (ISliced s).

(** The grammar of lengths, grids, aspect ratios and box shadows: C85, C86. *)
From Coq Require Import Ascii String NArith ZArith QArith.
From Verif Require Import Base Vars VarText SheetText ValueParse.
Open Scope nat_scope.

(** the name is spelled [k], in capitals or not *)
Definition spells (s : text) (k : string) : Prop := map lower s = map lower (tx k).
Definition word (x : tree) (k : string) : Prop := exists s, x = Leaf (TIdent s) /\ spells s k.
Definition dimension (x : tree) (k : string) (q : Q) : Prop := exists d i u, x = Leaf (TDim d i u) /\ spells u k /\ q = dec_Q d.
Definition percentage (x : tree) (q : Q) : Prop := exists d, x = Leaf (TPercent d) /\ q = (dec_Q d * 100)%Q.
Definition number (x : tree) (q : Q) : Prop := exists d i, x = Leaf (TNumber d i) /\ q = dec_Q d.
(** an integer as cssparser reads it *)
Definition integer (x : tree) (z : Z) : Prop := exists d, x = Leaf (TNumber d true) /\ z = Z.max (- 2147483648) (Z.min (mant d) 2147483647).
Definition call (x : tree) (k : string) (l : list tree) : Prop := exists s, x = Fun s l /\ spells s k.
Definition slash : tree := Leaf (TDelim "/"%char).
Definition comma : tree := Leaf TComma.

(** ** Lengths: auto (in small letters), numbers of pixels, percentages, px, vw, vh, vmin, vmax *)
Inductive is_val : tree -> val -> Prop :=
| iv_auto : is_val (Leaf (TIdent (tx "auto"))) VAuto
| iv_number x q : number x q -> ~ q == 0%Q -> is_val x (VLen UPx q)
| iv_zero x q : number x q -> q == 0%Q -> is_val x (VLen UPx 0)
| iv_percent x q : percentage x q -> is_val x (VPercentage q)
| iv_len x k u q : In (k, u) [("px", UPx); ("vw", UVw); ("vh", UVh); ("vmin", UVMin); ("vmax", UVMax)]%string -> dimension x k q -> is_val x (VLen u q).
Inductive is_f32 : tree -> Q -> Prop :=
| if_number x q : number x q -> is_f32 x q
| if_px x q : dimension x "px" q -> is_f32 x q.
Definition with_calc {X} (calc : list tree -> option X) (is_it : tree -> X -> Prop) (x : tree) (v : X) : Prop :=
  is_it x v \/ exists l, call x "calc" l /\ calc l = Some v.

(** ** aspect-ratio: auto | <number> [ / <number> ]? *)
Inductive is_ratio (calc : list tree -> option Q) : list tree -> option (Q * Q) -> Prop :=
| ir_auto x : word x "auto" -> is_ratio calc [x] None
| ir_one x a : with_calc calc is_f32 x a -> is_ratio calc [x] (Some (a, 1%Q))
| ir_two x y a b : with_calc calc is_f32 x a -> with_calc calc is_f32 y b -> is_ratio calc [x; slash; y] (Some (a, b)).

(** ** Grids *)
Inductive is_size (fr : bool) : tree -> size -> Prop :=
| is_word x k v : In (k, v) [("auto", GAuto); ("min-content", GMinContent); ("max-content", GMaxContent)]%string -> word x k -> is_size fr x v
| is_percent x q : percentage x q -> is_size fr x (GPercent q)
| is_len x k u q : In (k, u) [("px", GPx); ("vmin", GVMin); ("vmax", GVMax); ("vh", GVh); ("vw", GVw)]%string -> dimension x k q -> is_size fr x (GLen u q)
| is_fr x q : fr = true -> dimension x "fr" q -> is_size fr x (GLen GFr q).
Inductive is_track : tree -> track -> Prop :=
| it_size x v : is_size true x v -> is_track x (Size v)
| it_fit_percent x a q : call x "fit-content" [a] -> percentage a q -> is_track x (FitPercent q)
| it_fit_px x a q : call x "fit-content" [a] -> is_f32 a q -> is_track x (FitPx q)
| it_minmax x a b v w : call x "minmax" [a; comma; b] -> is_size false a v -> is_size true b w -> is_track x (MinMax v w).
Inductive is_track_list : list tree -> list track -> Prop :=
| itl_none x : word x "none" -> is_track_list [x] []
| itl_some l ts : ts <> [] -> Forall2 is_track l ts -> is_track_list l ts.
(** repeat(n, tracks): [counts z n] says which integers are allowed and what they mean *)
Inductive is_repeated (counts : Z -> Z -> Prop) : tree -> repeated -> Prop :=
| irp_once x v : is_track x v -> is_repeated counts x (Once, [v])
| irp_count x a l z n ts : call x "repeat" (a :: comma :: l) -> integer a z -> counts z n -> ts <> [] -> Forall2 is_track l ts -> is_repeated counts x (RCount n, ts)
| irp_fill x a l ts : call x "repeat" (a :: comma :: l) -> word a "auto-fill" -> ts <> [] -> Forall2 is_track l ts -> is_repeated counts x (AutoFill, ts)
| irp_fit x a l ts : call x "repeat" (a :: comma :: l) -> word a "auto-fit" -> ts <> [] -> Forall2 is_track l ts -> is_repeated counts x (AutoFit, ts).
Inductive is_template (counts : Z -> Z -> Prop) : list tree -> list repeated -> Prop :=
| itm_none x : word x "none" -> is_template counts [x] []
| itm_some l ts : ts <> [] -> Forall2 (is_repeated counts) l ts -> is_template counts l ts.
(** what CSS says: a positive number of repetitions; here sixteen bits hold it *)
Definition css_count (z n : Z) : Prop := (1 <= z <= 65535)%Z /\ n = z.
(** what the code does *)
Definition low_bits (z n : Z) : Prop := (0 <= n < 65536)%Z /\ exists k, z = (n + 65536 * k)%Z.

Inductive is_placement : list tree -> placement -> Prop :=
| ipl_start x a : integer x a -> (-32768 <= a <= 32767)%Z -> a <> 0%Z -> is_placement [x] (Start a)
| ipl_end x y a b : integer x a -> integer y b -> (-32768 <= a <= 32767)%Z -> (-32768 <= b <= 32767)%Z -> a <> 0%Z -> b <> 0%Z -> is_placement [x; slash; y] (StartEnd a b)
| ipl_span x w y a n : integer x a -> word w "span" -> integer y n -> (-32768 <= a <= 32767)%Z -> (1 <= n <= 65535)%Z -> a <> 0%Z -> is_placement [x; slash; w; y] (StartSpan a n).

(** ** box-shadow *)
Section Shadows.
  Context {color : Type} (color_of : tree -> option color) (calc : list tree -> option val) (default_color : color) (default_val : val).
  (** [both]: whether a color may be given twice *)
  Inductive is_shadow (both : bool) : list tree -> @shadow color -> Prop :=
  | ish pre vs post c xs : length pre <= 1 -> length post <= 1 -> (both = false -> pre = [] \/ post = []) ->
      Forall2 (with_calc calc is_val) xs vs ->
      match post, pre with [x], _ => color_of x = Some c | _, [x] => color_of x = Some c | _, _ => c = default_color end ->
      Forall (fun x => color_of x <> None) pre ->
      forall s,
      match vs with
      | [x; y] => s = mk_shadow c x y default_val default_val
      | [x; y; b] => s = mk_shadow c x y b default_val
      | [x; y; b; d] => s = mk_shadow c x y b d
      | _ => False
      end ->
      is_shadow both (pre ++ xs ++ post) s.
  Inductive is_shadows (both : bool) : list tree -> list (@shadow color) -> Prop :=
  | iss_one l s : is_shadow both l s -> is_shadows both l [s]
  | iss_more l s r ss : is_shadow both l s -> is_shadows both r ss -> is_shadows both (l ++ comma :: r) (s :: ss).
End Shadows.

(** ** The whole value: a keyword, or the grammar of the property *)
Inductive is_value {X} (is_it : list tree -> X -> Prop) : list tree -> prop_value X -> Prop :=
| isv_unset x : word x "unset" -> is_value is_it [x] Unset
| isv_inherit x : word x "inherit" -> is_value is_it [x] Inherit
| isv_initial x : word x "initial" -> is_value is_it [x] Initial
| isv_value l v : is_it l v -> is_value is_it l (Value v).

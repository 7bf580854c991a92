(** What the text of a sheet should mean: C76-C79. *)
From Coq Require Import Ascii String NArith ZArith QArith Qabs Qround.
From Verif Require Import Base Vars VarText Media Nesting SheetText.
Open Scope nat_scope.

Section S.
  Context {Sl D : Type}.
  Notation body := (body Sl (media_selector fval) D). Notation top := (top Sl (media_selector fval) D). Notation stop := (@stop Sl D).
  (** ** C77: what has an effect *)
  Definition has_effect (x : stop) : bool := match x with STop TError | STop (TRule None _) => false | _ => true end.
  Definition effective (l : list stop) : list stop := filter has_effect l.
  Definition body_effect (x : body) : bool := match x with BError | BRule None _ => false | _ => true end.
  Definition body_effective (l : list body) : list body := filter body_effect l.
  (** ** C79: the rules and layers written in the sheet itself *)
  Definition own (l : list stop) : list top := flat_map (fun x => match x with STop t => [t] | _ => [] end) l.
End S.
(** the at-rules there are *)
Definition known (nm : text) : Prop := exists s, In s ["font-face"; "keyframes"; "import"; "media"; "layer"]%string /\ same_name nm (tx s) = true.
(** what starts a rule that is not an at-rule *)
Definition starts_rule (x : tree) : Prop := match x with Leaf TWhite | Leaf THtml | Leaf (TAt _) => False | _ => True end.
Definition no_curly (l : list tree) : Prop := forall b, ~ In (Blk InCurly b) l.
(** no semicolon and no block in curly brackets, except inside other brackets *)
Definition one_piece (l : list tree) : Prop := forall x, In x l -> x <> Leaf TSemicolon /\ forall b, x <> Blk InCurly b.

(** ** C76: the file [p] imports the file [u] *)
Definition imports (url_value : text -> option text) (files : text -> option text) (u p : text) : Prop :=
  exists s, files p = Some s /\ In u (extract_imports url_value s).

(** ** C78: media queries *)
Inductive comparison := Equals | AtLeast | AtMost.
Inductive condition := CScheme (c : color_scheme) | CWidth (k : comparison) (n : N) | CHeight (k : comparison) (n : N) | CRatio (k : comparison) (a b : Q) | CResolution (k : comparison) (q : Q).
Record window := { w_scheme : color_scheme; w_width : Q; w_height : Q; w_resolution : Q }.
Definition compares (k : comparison) (x y : Q) : Prop := (match k with Equals => x == y | AtLeast => y <= x | AtMost => x <= y end)%Q.
Definition holds (w : window) (c : condition) : Prop :=
  match c with
  | CScheme c => w_scheme w = c
  | CWidth k n => compares k (w_width w) (inject_Z (Z.of_N n))
  | CHeight k n => compares k (w_height w) (inject_Z (Z.of_N n))
  | CRatio k a b => (* width / height against a / b, which is infinite if b is 0 *)
      compares k (w_width w * Qabs b) (w_height w * (if Qneg b then - a else a))
  | CResolution k q => compares k (w_resolution w) q
  end.
(** a name, in any case *)
Definition named (x : tree) (s : string) : Prop := exists n, x = Leaf (TIdent n) /\ same_name n (tx s) = true.
Definition prefixed (x : tree) (k : comparison) (s : string) : Prop :=
  match k with Equals => named x s | AtLeast => named x ("min-" ++ s) | AtMost => named x ("max-" ++ s) end.
(** 300px or 300 *)
Inductive size_text : list tree -> N -> Prop :=
| st_number : forall n, size_text [Leaf (TNumber (mkdec (Z.of_N n) 0) true)] n
| st_px : forall n u, same_name u (tx "px") = true -> size_text [Leaf (TDim (mkdec (Z.of_N n) 0) true u)] n.
(** 16/9 or 1.5 *)
Inductive ratio_text : list tree -> Q -> Q -> Prop :=
| rt_one : forall a i, ratio_text [Leaf (TNumber a i)] (dec_Q a) 1
| rt_two : forall a i b j, ratio_text [Leaf (TNumber a i); Leaf (TDelim "/"%char); Leaf (TNumber b j)] (dec_Q a) (dec_Q b).
(** 2x or 2dppx *)
Inductive resolution_text : list tree -> Q -> Prop :=
| et_x : forall a i u, same_name u (tx "x") = true \/ same_name u (tx "dppx") = true -> resolution_text [Leaf (TDim a i u)] (dec_Q a).
Inductive condition_text : list tree -> condition -> Prop :=
| ct_light : forall p v, named p "prefers-color-scheme" -> named v "light" -> condition_text [p; Leaf TColon; v] (CScheme Light)
| ct_dark : forall p v, named p "prefers-color-scheme" -> named v "dark" -> condition_text [p; Leaf TColon; v] (CScheme Dark)
| ct_width : forall p k v n, prefixed p k "width" -> size_text v n -> condition_text (p :: Leaf TColon :: v) (CWidth k n)
| ct_height : forall p k v n, prefixed p k "height" -> size_text v n -> condition_text (p :: Leaf TColon :: v) (CHeight k n)
| ct_ratio : forall p k v a b, prefixed p k "aspect-ratio" -> ratio_text v a b -> condition_text (p :: Leaf TColon :: v) (CRatio k a b)
| ct_resolution : forall p k v q, prefixed p k "resolution" -> resolution_text v q -> condition_text (p :: Leaf TColon :: v) (CResolution k q).
(** (..) and (..) and (..) *)
Inductive query_text : list tree -> list condition -> Prop :=
| qt_one : forall b c, condition_text b c -> query_text [Blk InParen b] [c]
| qt_and : forall b c a l cs, condition_text b c -> named a "and" -> query_text l cs -> query_text (Blk InParen b :: a :: l) (c :: cs).
(** what the window tells: systems.rs:715-755 (sizes are cut down to whole numbers, but not for the ratio) *)
Definition features (w : window) : provider fval :=
  {| p_color_scheme := Some (w_scheme w); p_resolution := Some (Fin (w_resolution w)); p_width := Some (Z.to_N (Qfloor (w_width w))); p_height := Some (Z.to_N (Qfloor (w_height w))) |}.
Definition applies (ms : list (media_selector fval)) (w : window) : bool :=
  media_matches fval feq fle (fun a b => fle b a) (fun _ _ => fdiv (w_width w) (w_height w)) ms (features w).
(** the size of the window is in whole pixels *)
Definition whole_size (w : window) : Prop := exists n m, (w_width w == inject_Z (Z.of_N n) /\ w_height w == inject_Z (Z.of_N m) /\ 0 < w_height w)%Q.
(** sizes below 2^31, and no 0/0 *)
Definition fits (c : condition) : Prop :=
  match c with
  | CWidth _ n | CHeight _ n => (n < 2 ^ 31)%N
  | CRatio _ a b => ~ (a == 0 /\ b == 0)%Q
  | _ => True
  end.

(** ** C76: `"x"`, `url("x")` or `url(x)`, and then nothing or `layer(name)` *)
Inductive url_text (url_value : text -> option text) : tree -> text -> Prop :=
| ut_string : forall u, url_text url_value (Leaf (TString u)) u
| ut_quoted : forall f u, same_name f (tx "url") = true -> url_text url_value (Fun f [Leaf (TString u)]) u
| ut_plain : forall s u, url_value s = Some u -> url_text url_value (Leaf (TUrl s)) u.
Inductive import_text (url_value : text -> option text) : list tree -> text -> option text -> Prop :=
| it_plain : forall x u, url_text url_value x u -> import_text url_value [x] u None
| it_layer : forall x u f n, url_text url_value x u -> same_name f (tx "layer") = true -> import_text url_value [x; Fun f [Leaf (TIdent n)]] u (Some n).
(** `a, b, c` *)
Inductive names_text : list tree -> list text -> Prop :=
| nt_one : forall n, names_text [Leaf (TIdent n)] [n]
| nt_more : forall n l ns, names_text l ns -> names_text (Leaf (TIdent n) :: Leaf TComma :: l) (n :: ns).

(** ** C79: the grammar of sheets without errors *)
Section G.
  Context {Sl D : Type}.
  Variable selectors : bool -> list tree -> option (option (list Sl)).
  Variable declare : text -> list tree -> @decl_result D.
  Variable url_value : text -> option text.
  Notation body := (body Sl (media_selector fval) D). Notation top := (top Sl (media_selector fval) D). Notation stop := (@stop Sl D).
  (** a nested rule starts neither with an at-keyword nor with what looks like a declaration *)
  Definition starts_nested (x : tree) (p : list tree) : Prop :=
    match x with
    | Leaf (TAt _) | Leaf TWhite | Leaf TSemicolon | Leaf TCloseCurly => False
    | Leaf (TIdent _) => forall r, strip p <> Leaf TColon :: r
    | _ => True
    end.
  (** the trees of a rule body, and what they say *)
  Inductive body_text : list tree -> list body -> Prop :=
  | bt_nil : body_text [] []
  | bt_white : forall l bs, body_text l bs -> body_text (Leaf TWhite :: l) bs
  | bt_semicolon : forall l bs, body_text l bs -> body_text (Leaf TSemicolon :: l) bs
  | bt_last : forall nm v w d, one_piece v -> strip v = Leaf TColon :: w -> declare nm w = DVal d -> body_text (Leaf (TIdent nm) :: v) [BDecl d]
  | bt_declaration : forall nm v w d l bs, one_piece v -> strip v = Leaf TColon :: w -> declare nm w = DVal d -> body_text l bs -> body_text (Leaf (TIdent nm) :: v ++ Leaf TSemicolon :: l) (BDecl d :: bs)
  | bt_rule : forall x p ss b bs l bs', starts_nested x p -> one_piece (x :: p) -> selectors true (x :: p) = Some (Some ss) -> body_text b bs -> body_text l bs' ->
      body_text (x :: p ++ Blk InCurly b :: l) (BRule (Some ss) bs :: bs')
  | bt_media : forall nm p ms b bs l bs', same_name nm (tx "media") = true -> one_piece p -> parse_media (strip p) = Some ms -> body_text b bs -> body_text l bs' ->
      body_text (Leaf (TAt nm) :: p ++ Blk InCurly b :: l) (BMedia ms bs :: bs')
  | bt_layer : forall nm p n b bs l bs', same_name nm (tx "layer") = true -> one_piece p -> strip p = [Leaf (TIdent n)] -> body_text b bs -> body_text l bs' ->
      body_text (Leaf (TAt nm) :: p ++ Blk InCurly b :: l) (BLayer n bs :: bs').
  (** rules, @media and @layer *)
  Inductive rules_text : list tree -> list top -> Prop :=
  | rt_nil : rules_text [] []
  | rt_white : forall l ts, rules_text l ts -> rules_text (Leaf TWhite :: l) ts
  | rt_rule : forall x p ss b bs l ts, starts_rule x -> no_curly (x :: p) -> selectors false (x :: p) = Some (Some ss) -> body_text b bs -> rules_text l ts ->
      rules_text (x :: p ++ Blk InCurly b :: l) (TRule (Some ss) bs :: ts)
  | rt_media : forall nm p ms b bs l ts, same_name nm (tx "media") = true -> one_piece p -> parse_media (strip p) = Some ms -> rules_text b bs -> rules_text l ts ->
      rules_text (Leaf (TAt nm) :: p ++ Blk InCurly b :: l) (TMedia ms bs :: ts)
  | rt_layer : forall nm p n b bs l ts, same_name nm (tx "layer") = true -> one_piece p -> strip p = [Leaf (TIdent n)] -> rules_text b bs -> rules_text l ts ->
      rules_text (Leaf (TAt nm) :: p ++ Blk InCurly b :: l) (TLayer n bs :: ts)
  | rt_layers : forall nm p ns l ts, same_name nm (tx "layer") = true -> one_piece p -> names_text (strip p) ns -> rules_text l ts ->
      rules_text (Leaf (TAt nm) :: p ++ Leaf TSemicolon :: l) (TLayers ns :: ts).
  (** and, outside of all blocks, imports, fonts and keyframes *)
  Inductive sheet_text : list tree -> list stop -> Prop :=
  | xt_nil : sheet_text [] []
  | xt_rules : forall a ts l xs, rules_text a ts -> sheet_text l xs -> sheet_text (a ++ l) (map STop ts ++ xs)
  | xt_import : forall nm p u ly l xs, same_name nm (tx "import") = true -> one_piece p -> import_text url_value (strip p) u ly -> sheet_text l xs ->
      sheet_text (Leaf (TAt nm) :: p ++ Leaf TSemicolon :: l) (SImport u ly :: xs)
  | xt_font : forall nm p b l xs, same_name nm (tx "font-face") = true -> one_piece p -> strip p = [] -> sheet_text l xs ->
      sheet_text (Leaf (TAt nm) :: p ++ Blk InCurly b :: l) (SFont b :: xs)
  | xt_keyframes : forall nm p n b l xs, same_name nm (tx "keyframes") = true -> one_piece p -> strip p = [Leaf (TIdent n)] -> sheet_text l xs ->
      sheet_text (Leaf (TAt nm) :: p ++ Blk InCurly b :: l) (SKeyframes n b :: xs).
End G.

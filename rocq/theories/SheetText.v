(** Model of how the text of a sheet becomes its rules:
    crates/bevy_flair_css_parser/src/parser.rs:286-408 (at-rules and nested rules in a rule), 410-478 (declarations), 480-680 (rules of a sheet), 720-760,
    parser/media_selectors.rs:1-150, imports_parser.rs:8-66, loader.rs:100-160, 214-235.
    The tokeniser is that of VarText.v, with white space kept for selectors. The splitting into rules and declarations is that of cssparser 0.35
    (rules_and_declarations.rs, parser.rs parse_until_before; the crate is not in /repo). What the parser does with the result is Nesting.v.
    Parsers of selectors and of declarations are arbitrary functions of the tokens they are given; the text of an unquoted URL is decoded by an arbitrary function.
    Error messages are not modelled. *)
From Coq Require Import Ascii String NArith ZArith QArith.
From Verif Require Import Base Vars VarText Media Nesting.
Open Scope nat_scope.

(** ** Tokens with white space, without comments *)
Fixpoint tokens_white_f (fuel : nat) (s : text) : list tok :=
  match fuel, s with
  | S f, c :: r =>
      let (o, r') := next_token c r in
      match o with Some x => x :: tokens_white_f f r' | None => if is_white c then TWhite :: tokens_white_f f r' else tokens_white_f f r' end
  | _, _ => []
  end.
Definition parsed_white (s : text) : list tree := build (tokens_white_f (length s) s) [] [].
(** the tokens as Parser::next yields them *)
Fixpoint strip_tree (x : tree) : list tree :=
  match x with Leaf TWhite => [] | Leaf y => [Leaf y] | Fun s l => [Fun s (flat_map strip_tree l)] | Blk b l => [Blk b (flat_map strip_tree l)] end.
Definition strip (l : list tree) : list tree := flat_map strip_tree l.
Fixpoint drop_spaces (l : list tree) : list tree := match l with Leaf TWhite :: r => drop_spaces r | _ => l end.

(** ** parse_until_before: up to the first delimiter *)
Definition semi (x : tree) : bool := match x with Leaf TSemicolon => true | _ => false end.
Definition curly (x : tree) : bool := match x with Blk InCurly _ => true | _ => false end.
Fixpoint until (p : tree -> bool) (l : list tree) : list tree * list tree :=
  match l with [] => ([], []) | x :: r => if p x then ([], l) else let (a, b) := until p r in (x :: a, b) end.
Definition semi_or_curly (x : tree) : bool := (semi x || curly x)%bool.
(** the delimiter itself: a block, or nothing (a semicolon or the end) *)
Definition delimiter (l : list tree) : option (list tree) * list tree :=
  match l with Blk InCurly b :: r => (Some b, r) | _ :: r => (None, r) | [] => (None, []) end.

(** ** Rules of a sheet: StyleSheetParser::next. [any]: there was a rule before *)
Inductive raw := RAt (name : text) (prelude : list tree) (block : option (list tree)) | RQual (prelude : list tree) (block : option (list tree)).
Fixpoint raws_f (fuel : nat) (any : bool) (l : list tree) : list raw :=
  match fuel, l with
  | S f, x :: r =>
      match x with
      | Leaf TWhite | Leaf THtml => raws_f f any r
      | Leaf (TAt name) =>
          let (p, r') := until semi_or_curly r in
          let (b, r'') := delimiter r' in
          if (negb any && same_name name (tx "charset"))%bool then raws_f f true r'' else RAt name p b :: raws_f f true r''
      | _ =>
          let (p, r') := until curly l in
          let (b, r'') := delimiter r' in
          RQual p b :: raws_f f true r''
      end
  | _, _ => []
  end.
Definition raws (l : list tree) : list raw := raws_f (length l) false l.

(** ** Media conditions: media_selectors.rs *)
(** f32 without rounding and without the sign of zero *)
Inductive fval := Fin (q : Q) | Inf (neg : bool) | NaN.
Definition Qneg (a : Q) : bool := negb (Qle_bool 0 a).
Definition fdiv (a b : Q) : fval := if Qeq_bool b 0 then if Qeq_bool a 0 then NaN else Inf (Qneg a) else Fin (a / b)%Q.
Definition fle (x y : fval) : bool :=
  match x, y with NaN, _ | _, NaN => false | Fin a, Fin b => Qle_bool a b | Inf neg, Inf neg' => (neg || negb neg')%bool | Inf neg, Fin _ => neg | Fin _, Inf neg => negb neg end.
Definition feq (x y : fval) : bool := (fle x y && fle y x)%bool.
Definition dec_Q (d : dec) : Q := (inject_Z (mant d) / inject_Z (10 ^ Z.of_nat (scale d)))%Q.
(** a token's int_value, which cssparser clamps to i32; 12-15, 20-25. The tokens of integers have scale 0. *)
Definition size_of (d : dec) : option N := if (Z.ltb (mant d) 0 || negb (Nat.eqb (scale d) 0))%bool then None else Some (N.min (Z.to_N (mant d)) 2147483647).
(** 5-31 parse_size *)
Definition parse_size (l : list tree) : option (N * list tree) :=
  match l with
  | Leaf (TNumber d true) :: r => option_map (fun n => (n, r)) (size_of d)
  | Leaf (TDim d true u) :: r => if same_name u (tx "px") then option_map (fun n => (n, r)) (size_of d) else None
  | _ => None
  end.
(** 33-58 *)
Definition parse_resolution (l : list tree) : option (fval * list tree) :=
  match l with
  | Leaf (TDim d _ u) :: r => if (same_name u (tx "dppx") || same_name u (tx "x"))%bool then Some (Fin (dec_Q d), r) else None
  | _ => None
  end.
(** 60-70 *)
Definition parse_ratio (l : list tree) : option (fval * list tree) :=
  match l with
  | Leaf (TNumber a _) :: r =>
      match r with
      | Leaf (TDelim c) :: Leaf (TNumber b _) :: r' => if is 47 c then Some (fdiv (dec_Q a) (dec_Q b), r') else Some (Fin (dec_Q a), r)
      | _ => Some (Fin (dec_Q a), r)
      end
  | _ => None
  end.
(** 72-85 *)
Definition parse_color_scheme (l : list tree) : option (color_scheme * list tree) :=
  match l with
  | Leaf (TIdent s) :: r => if same_name s (tx "light") then Some (Light, r) else if same_name s (tx "dark") then Some (Dark, r) else None
  | _ => None
  end.
(** 88-103 parse_selector_range; the name has at least three characters where it is called *)
Definition parse_range {T} (name : text) (parse : list tree -> option (T * list tree)) (l : list tree) : option (range_selector T * list tree) :=
  if same_name (firstn 3 name) (tx "min") then option_map (fun x => (GreaterOrEqual (fst x), snd x)) (parse l)
  else if same_name (firstn 3 name) (tx "max") then option_map (fun x => (LessOrEqual (fst x), snd x)) (parse l)
  else option_map (fun x => (Exact (fst x), snd x)) (parse l).
Definition one_of (name : text) (l : list string) : bool := existsb (fun s => same_name name (tx s)) l.
(** 106-134 parse_media_selector_atom, with everything consumed behind it (parse_nested_block) *)
Definition whole {X} (o : option (X * list tree)) : option X := match o with Some (x, []) => Some x | _ => None end.
Definition parse_media_atom (l : list tree) : option (media_selector fval) :=
  match l with
  | Leaf (TIdent name) :: Leaf TColon :: r =>
      if same_name name (tx "prefers-color-scheme") then option_map (MColorScheme fval) (whole (parse_color_scheme r))
      else if one_of name ["width"; "min-width"; "max-width"]%string then option_map (MViewportWidth fval) (whole (parse_range name parse_size r))
      else if one_of name ["height"; "min-height"; "max-height"]%string then option_map (MViewportHeight fval) (whole (parse_range name parse_size r))
      else if one_of name ["aspect-ratio"; "min-aspect-ratio"; "max-aspect-ratio"]%string then option_map (MAspectRatio fval) (whole (parse_range name parse_ratio r))
      else if one_of name ["resolution"; "min-resolution"; "max-resolution"]%string then option_map (MResolution fval) (whole (parse_range name parse_resolution r))
      else None
  | _ => None
  end.
(** 137-154: the first condition, then as many `and (..)` as there are; all has to be consumed (parse_until_before) *)
Fixpoint parse_ands (l : list tree) : option (list (media_selector fval)) :=
  match l with
  | [] => Some []
  | Leaf (TIdent s) :: Blk InParen b :: r =>
      if same_name s (tx "and") then match parse_media_atom b, parse_ands r with Some m, Some ms => Some (m :: ms) | _, _ => None end else None
  | _ => None
  end.
Definition parse_media (l : list tree) : option (list (media_selector fval)) :=
  match l with
  | Blk InParen b :: r => match parse_media_atom b, parse_ands r with Some m, Some ms => Some (m :: ms) | _, _ => None end
  | _ => None
  end.

Section P.
  Context {Sl D : Type}.
  (** CssSelector::parse_comma_separated(_for_nested); [None]: something is left behind the error, and the rule is an error as a whole *)
  Variable selectors : bool -> list tree -> option (option (list Sl)).
  (** DeclarationParser::parse_value, 410-455: a declaration; an error that is final; an error after which the input may be a nested rule *)
  Inductive decl_result := DVal (d : D) | DFinal | DErr.
  Variable declare : text -> list tree -> decl_result.
  Notation body := (body Sl (media_selector fval) D). Notation top := (top Sl (media_selector fval) D).

  (** ** The body of a rule: RuleBodyParser::next, with declarations, at-rules and nested rules *)
  (** 294-312 *)
  Inductive body_at := AMedia (ms : list (media_selector fval)) | ALayer (n : text).
  Definition body_prelude (name : text) (p : list tree) : option body_at :=
    if same_name name (tx "media") then option_map AMedia (parse_media p)
    else if same_name name (tx "layer") then match p with [Leaf (TIdent n)] => Some (ALayer n) | _ => None end
    else None.
  Definition declaration (name : text) (l : list tree) : decl_result := match l with Leaf TColon :: v => declare name v | _ => DErr end.
  Fixpoint body_f (fuel : nat) (l : list tree) : list body :=
    match fuel, l with
    | S f, x :: r =>
        let qualified :=
          let (p, r') := until semi_or_curly l in
          let (b, r'') := delimiter r' in
          (match b with Some b => match selectors true (drop_spaces p) with Some ss => BRule ss (body_f f b) | None => BError end | None => BError end) :: body_f f r'' in
        match x with
        | Leaf TCloseCurly | Leaf TWhite | Leaf TSemicolon => body_f f r
        | Leaf (TAt name) =>
            let (p, r') := until semi_or_curly r in
            let (b, r'') := delimiter r' in
            (match body_prelude name (strip p), b with
             | Some (AMedia ms), Some b => BMedia ms (body_f f b)
             | Some (ALayer n), Some b => BLayer n (body_f f b)
             | _, _ => BError
             end) :: body_f f r''
        | Leaf (TIdent name) =>
            let (v, r') := until semi r in
            match declaration name (strip v) with
            | DVal d => BDecl d :: body_f f (tl r')
            | DFinal => BError :: body_f f (tl r')
            | DErr => qualified
            end
        | _ => qualified
        end
    | _, _ => []
    end.
  Fixpoint tree_size (x : tree) : nat := match x with Leaf _ => 1 | Fun _ l | Blk _ l => S (list_sum (map tree_size l)) end.
  Definition size (l : list tree) : nat := list_sum (map tree_size l).
  Definition body_of (l : list tree) : list body := body_f (size l) l.

  (** ** The rules of a sheet, 534-680 *)
  Definition layer_names (p : list tree) : option (list text) :=
    (fix go p := match p with
                 | [Leaf (TIdent n)] => Some [n]
                 | Leaf (TIdent n) :: Leaf TComma :: r => option_map (cons n) (go r)
                 | _ => None
                 end) p.
  Definition qualified_rule (p : list tree) (b : option (list tree)) : top :=
    match b with Some b => match selectors false p with Some ss => TRule ss (body_of b) | None => TError end | None => TError end.
  (** @media and @layer, at any level *)
  Fixpoint inner_f (fuel : nat) (x : raw) : top :=
    match x with
    | RQual p b => qualified_rule p b
    | RAt name p b =>
        if same_name name (tx "media") then
          match parse_media (strip p), b with
          | Some ms, Some b => TMedia ms (match fuel with 0 => [] | S f => map (inner_f f) (raws b) end)
          | _, _ => TError
          end
        else if same_name name (tx "layer") then
          match layer_names (strip p), b with
          | Some [n], Some b => TLayer n (match fuel with 0 => [] | S f => map (inner_f f) (raws b) end)
          | Some ns, None => TLayers ns
          | _, _ => TError
          end
        else TError
    end.
  (** ** At the top level there are also @font-face, @keyframes and @import *)
  Variable url_value : text -> option text.
  (** expect_url_or_string *)
  Definition url_or_string (l : list tree) : option (text * list tree) :=
    match l with
    | Leaf (TString s) :: r => Some (s, r)
    | Leaf (TUrl s) :: r => option_map (fun u => (u, r)) (url_value s)
    | Fun f [Leaf (TString s)] :: r => if same_name f (tx "url") then Some (s, r) else None
    | _ => None
    end.
  (** 544-558: an URL and an optional layer(name), and nothing else *)
  Definition import_prelude (p : list tree) : option (text * option text) :=
    match url_or_string p with
    | Some (u, []) => Some (u, None)
    | Some (u, [Fun f [Leaf (TIdent n)]]) => if same_name f (tx "layer") then Some (u, Some n) else None
    | _ => None
    end.
  Inductive stop := STop (t : top) | SImport (url : text) (layer : option text) | SFont (b : list tree) | SKeyframes (n : text) (b : list tree).
  Definition sheet_rule (fuel : nat) (x : raw) : stop :=
    match x with
    | RAt name p b =>
        if same_name name (tx "font-face") then match strip p, b with [], Some b => SFont b | _, _ => STop TError end
        else if same_name name (tx "keyframes") then match strip p, b with [Leaf (TIdent n)], Some b => SKeyframes n b | _, _ => STop TError end
        else if same_name name (tx "import") then match import_prelude (strip p), b with Some (u, layer), None => SImport u layer | _, _ => STop TError end
        else STop (inner_f fuel x)
    | RQual _ _ => STop (inner_f fuel x)
    end.
  Definition sheet_of (l : list tree) : list stop := map (sheet_rule (size l)) (raws l).
  Definition sheet (s : text) : list stop := sheet_of (parsed_white s).

  (** ** imports_parser.rs: the URLs of all @import rules; all other rules are errors here *)
  Definition import_url (x : raw) : list text :=
    match x with
    | RAt name p None => if same_name name (tx "import") then match import_prelude (strip p) with Some (u, _) => [u] | None => [] end else []
    | _ => []
    end.
  Definition extract_imports (s : text) : list text := flat_map import_url (raws (parsed_white s)).
  (** parser.rs:572-579: the sheets that are asked for while a sheet is parsed; one that was not loaded is a panic *)
  Definition needed (l : list stop) : list text := flat_map (fun x => match x with SImport u _ => [u] | _ => [] end) l.

  (** ** loader.rs: loading a file: all imports are loaded first, each one anew; [None] = not done within [fuel] nested loads.
      A missing file is an error of all files that import it. *)
  Inductive loaded := LSheet (s : list stop) (imports : list (text * loaded)) | LMissing.
  Section Load.
    Variable files : text -> option text.
    Fixpoint load_file (fuel : nat) (path : text) : option loaded :=
      match fuel with
      | 0 => None
      | S f =>
          match files path with
          | None => Some LMissing
          | Some s =>
              (fix go us acc := match us with
                                | [] => Some (LSheet (sheet s) acc)
                                | u :: us => match load_file f u with
                                             | None => None
                                             | Some LMissing => Some LMissing
                                             | Some x => go us (acc ++ [(u, x)])
                                             end
                                end) (extract_imports s) []
          end
      end.
  End Load.
End P.

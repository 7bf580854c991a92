(** Model of how values reach properties through custom properties:
    crates/bevy_flair_css_parser/src/vars.rs:1-86 (text to tokens), crates/bevy_flair_style/src/vars.rs:14-77 and
    crates/bevy_flair_style/src/to_css.rs:21-31 (tokens to text), crates/bevy_flair_css_parser/src/reflect.rs:52-75, shorthand.rs:141-170 and
    parser/animations.rs:541-552 (the text is tokenised again and handed to the parser of the property), parser.rs:88-96, 428-437.
    The resolution in between is Vars.v.
    The tokeniser is the one of cssparser 0.35 (tokenizer.rs; the crate is not in /repo, it is written down here after css-syntax-3).
    Text is a list of bytes (cssparser also works on the bytes of UTF-8 text). Numbers are exact decimals instead of f32:
    rounding, overflow and the sign of zero are not modelled. *)
From Coq Require Import Ascii String NArith ZArith.
From Verif Require Import Base Vars.
Open Scope nat_scope.

Definition text := list ascii.
Definition tx (s : string) : text := list_ascii_of_string s.
Definition code (c : ascii) : N := N_of_ascii c.
Definition between (lo hi : N) (c : ascii) : bool := (N.leb lo (code c) && N.leb (code c) hi)%bool.
Definition is (k : N) (c : ascii) : bool := N.eqb (code c) k.
Definition is_digit : ascii -> bool := between 48 57.
Definition is_letter (c : ascii) : bool := (between 97 122 c || between 65 90 c)%bool.
Definition is_newline (c : ascii) : bool := (is 10 c || is 12 c || is 13 c)%bool.
Definition is_white (c : ascii) : bool := (is 32 c || is 9 c || is_newline c)%bool.
Definition is_high (c : ascii) : bool := N.leb 128 (code c).
Definition is_hex (c : ascii) : bool := (is_digit c || between 97 102 c || between 65 70 c)%bool.
Definition lower (c : ascii) : ascii := if between 65 90 c then ascii_of_N (code c + 32) else c.
(** [eq_ignore_ascii_case] *)
Definition same_name (a b : text) : bool := if list_eq_dec ascii_dec (map lower a) (map lower b) then true else false.

(** ** Numbers: [mant] / 10^[scale] without trailing zeros *)
Record dec := mkdec { mant : Z; scale : nat }.
Fixpoint norm (m : Z) (k : nat) : dec :=
  match k with 0 => mkdec m 0 | S k' => if Z.eqb (m mod 10) 0 then norm (m / 10) k' else mkdec m k end.
Definition digit (c : ascii) : Z := Z.of_N (code c - 48).
Definition digits_value (ds : text) : Z := fold_left (fun v c => (v * 10 + digit c)%Z) ds 0%Z.
(** css percentages are kept as fractions: value / 100, and printed * 100 (tokenizer.rs, style/vars.rs:63-66) *)
Definition div100 (d : dec) : dec := norm (mant d) (scale d + 2).
Definition mul100 (d : dec) : dec := match scale d with S (S k) => mkdec (mant d) k | 1 => mkdec (mant d * 10) 0 | 0 => mkdec (mant d * 100) 0 end.
(** f32's Display *)
Definition digit_char (v : N) : ascii := ascii_of_N (48 + v).
Fixpoint show_digits (fuel : nat) (v : N) (acc : text) : text :=
  match fuel with
  | 0 => acc
  | S f => if N.ltb v 10 then digit_char v :: acc else show_digits f (v / 10)%N (digit_char (v mod 10)%N :: acc)
  end.
Definition show_N (v : N) : text := show_digits (S (N.size_nat v)) v [].
Definition show_dec (d : dec) : text :=
  let ds := show_N (Z.abs_N (mant d)) in
  let ds := repeat "0"%char (scale d + 1 - length ds) ++ ds in
  let n := length ds - scale d in
  (if Z.ltb (mant d) 0 then tx "-" else []) ++ firstn n ds ++ (if Nat.eqb (scale d) 0 then [] else "."%char :: skipn n ds).

(** ** Tokens. [THtml] stands for <!-- and -->, [TMatch c] for the tokens of two characters ~= |= ^= $= *= with the first one;
    [TUrl] for unquoted URLs, good or bad, with what is written in the brackets; [TWhite] for white space, where it is kept. *)
Inductive tok :=
| TIdent (s : text) | TFunction (s : text) | TAt (s : text) | THash (s : text) | TIdHash (s : text) | TString (s : text) | TBadString | TUrl (s : text)
| TDelim (c : ascii) | TNumber (d : dec) (int : bool) | TPercent (d : dec) | TDim (d : dec) (int : bool) (unit : text)
| TColon | TSemicolon | TComma | THtml | TMatch (c : ascii) | TWhite | TParen | TSquare | TCurly | TClose | TCloseSquare | TCloseCurly.

(** ** The tokeniser *)
(** UTF-8 *)
Definition utf8 (c : N) : text :=
  (if c <? 128 then [ascii_of_N c]
   else if c <? 2048 then [ascii_of_N (192 + c / 64); ascii_of_N (128 + c mod 64)]
   else if c <? 65536 then [ascii_of_N (224 + c / 4096); ascii_of_N (128 + (c / 64) mod 64); ascii_of_N (128 + c mod 64)]
   else [ascii_of_N (240 + c / 262144); ascii_of_N (128 + (c / 4096) mod 64); ascii_of_N (128 + (c / 64) mod 64); ascii_of_N (128 + c mod 64)])%N.
Definition replacement : text := utf8 65533.
Definition hex_value (c : ascii) : N := if is_digit c then code c - 48 else if between 97 102 c then code c - 87 else code c - 55.
Fixpoint hex_digits (n : nat) (v : N) (s : text) : N * text :=
  match n, s with
  | S n', c :: r => if is_hex c then hex_digits n' (v * 16 + hex_value c)%N r else (v, s)
  | _, _ => (v, s)
  end.
(** consume_escape, behind the backslash *)
Definition escape (s : text) : text * text :=
  match s with
  | [] => (replacement, [])
  | c :: r =>
      if is_hex c then
        let (v, r') := hex_digits 6 0 s in
        let r'' := match r' with
                   | a :: b :: q => if (is 13 a && is 10 b)%bool then q else if is_white a then b :: q else r'
                   | [a] => if is_white a then [] else r'
                   | [] => []
                   end in
        (if (N.eqb v 0 || (N.leb 55296 v && N.leb v 57343) || N.ltb 1114111 v)%bool then replacement else utf8 v, r'')
      else if is 0 c then (replacement, r) else ([c], r)
  end.
Definition valid_escape (s : text) : bool := match s with c :: _ => negb (is_newline c) | [] => true end.
(** the bytes of names, without escapes *)
Definition name_byte (c : ascii) : bool := (is_letter c || is_digit c || is 95 c || is 45 c || is_high c || is 0 c)%bool.
Definition name_start (c : ascii) : bool := (is_letter c || is 95 c || is_high c || is 0 c)%bool.
(** is_ident_start *)
Definition ident_start (s : text) : bool :=
  match s with
  | [] => false
  | c :: r =>
      if is 45 c then match r with
                      | [] => false
                      | d :: r' => name_start d || is 45 d || (is 92 d && valid_escape r')
                      end%bool
      else if is 92 c then valid_escape r else name_start c
  end.
(** consume_name *)
Fixpoint name_f (fuel : nat) (s : text) : text * text :=
  match fuel, s with
  | S f, c :: r =>
      if is 0 c then let (v, r') := name_f f r in (replacement ++ v, r')
      else if name_byte c then let (v, r') := name_f f r in (c :: v, r')
      else if (is 92 c && valid_escape r)%bool then let (e, r') := escape r in let (v, r'') := name_f f r' in (e ++ v, r'')
      else ([], s)
  | _, _ => ([], s)
  end.
Definition name (s : text) : text * text := name_f (length s) s.
(** consume_quoted_string, behind the quote; [None] = a bad string *)
Fixpoint quoted_f (fuel : nat) (q : ascii) (s : text) : option text * text :=
  match fuel, s with
  | S f, c :: r =>
      if Ascii.eqb c q then (Some [], r)
      else if is_newline c then (None, s)
      else if is 92 c then
        match r with
        | [] => (Some [], [])
        | d :: r' =>
            if is_newline d then quoted_f f q (match r' with e :: q' => if (is 13 d && is 10 e)%bool then q' else r' | [] => r' end)
            else let (e, r'') := escape r in let (v, r3) := quoted_f f q r'' in (option_map (app e) v, r3)
        end
      else if is 0 c then let (v, r') := quoted_f f q r in (option_map (app replacement) v, r')
      else let (v, r') := quoted_f f q r in (option_map (cons c) v, r')
  | _, _ => (Some [], s)
  end.
Definition quoted (q : ascii) (s : text) : tok * text :=
  match quoted_f (length s) q s with (Some v, r) => (TString v, r) | (None, r) => (TBadString, r) end.
(** consume_unquoted_url: [None] = a quote is next, and the token is a function *)
Fixpoint skip_url (s : text) : text :=
  match s with
  | [] => []
  | c :: r => if is 41 c then r else if is 92 c then match r with _ :: r' => skip_url r' | [] => [] end else skip_url r
  end.
Fixpoint drop_white (s : text) : text := match s with c :: r => if is_white c then drop_white r else s | [] => [] end.
Definition unquoted_url (s : text) : option text :=
  match drop_white s with c :: r => if (is 34 c || is 39 c)%bool then None else Some (skip_url (c :: r)) | [] => Some [] end.
(** consume_ident_like *)
Definition ident_like (s : text) : tok * text :=
  let (v, r) := name s in
  match r with
  | c :: r' =>
      if is 40 c then
        if same_name v (tx "url") then match unquoted_url r' with Some r'' => (TUrl (firstn (length r' - length r'') r'), r'') | None => (TFunction v, r') end
        else (TFunction v, r')
      else (TIdent v, r)
  | [] => (TIdent v, r)
  end.
(** consume_numeric *)
Fixpoint span_digits (s : text) : text * text :=
  match s with c :: r => if is_digit c then let (a, b) := span_digits r in (c :: a, b) else ([], s) | [] => ([], []) end.
Definition digit_next (s : text) : bool := match s with c :: _ => is_digit c | [] => false end.
Definition shift (m : Z) (k : nat) (e : Z) : dec :=
  if Z.leb (Z.of_nat k) e then mkdec (m * 10 ^ (e - Z.of_nat k)) 0 else norm m (Z.to_nat (Z.of_nat k - e)).
Definition exponent (s : text) : option (Z * text) :=
  match s with
  | c :: r => if (is 101 c || is 69 c)%bool then
                if digit_next r then let (ds, r') := span_digits r in Some (digits_value ds, r')
                else match r with
                     | g :: r' => if ((is 43 g || is 45 g) && digit_next r')%bool
                                  then let (ds, r'') := span_digits r' in Some (if is 45 g then (- digits_value ds)%Z else digits_value ds, r'')
                                  else None
                     | [] => None
                     end
              else None
  | [] => None
  end.
Definition split_sign (s : text) : bool * text :=
  match s with c :: r => if is 45 c then (true, r) else if is 43 c then (false, r) else (false, s) | [] => (false, s) end.
Definition numeric (s : text) : tok * text :=
  let (neg, s1) := split_sign s in
  let (ds1, s2) := span_digits s1 in
  let '(ds2, s3, frac) := match s2 with
                          | c :: r => if (is 46 c && digit_next r)%bool then let (d, r') := span_digits r in (d, r', true) else ([], s2, false)
                          | [] => ([], s2, false)
                          end in
  let m := let v := digits_value (ds1 ++ ds2) in if neg : bool then (- v)%Z else v in
  let '(d, s4, int) := match exponent s3 with
                       | Some (e, r) => (shift m (length ds2) e, r, false)
                       | None => (norm m (length ds2), s3, negb frac)
                       end in
  match s4 with
  | c :: r => if is 37 c then (TPercent (div100 d), r)
              else if ident_start s4 then let (u, r') := name s4 in (TDim d int u, r') else (TNumber d int, s4)
  | [] => (TNumber d int, s4)
  end.
Fixpoint skip_comment (s : text) : text :=
  match s with
  | c :: r => match r with d :: r' => if (is 42 c && is 47 d)%bool then r' else skip_comment r | [] => [] end
  | [] => []
  end.
Definition starts (p : string) (s : text) : bool := if list_eq_dec ascii_dec (firstn (String.length p) s) (tx p) then true else false.
(** a number follows a sign *)
Definition number_next (r : text) : bool := (digit_next r || match r with c :: r' => is 46 c && digit_next r' | [] => false end)%bool.
(** next_token at the bytes [c :: r]; [None] = white space or a comment *)
Definition two (r : text) (c : ascii) : option tok * text := match r with d :: r' => if is 61 d then (Some (TMatch c), r') else (Some (TDelim c), r) | [] => (Some (TDelim c), r) end.
Definition some (x : tok * text) : option tok * text := (Some (fst x), snd x).
Definition next_token (c : ascii) (r : text) : option tok * text :=
  if is_white c then (None, drop_white r)
  else if is 34 c then some (quoted c r)
  else if is 35 c then
    if ident_start r then let (v, r') := name r in (Some (TIdHash v), r')
    else if match r with d :: _ => is_digit d || is 45 d | [] => false end%bool then let (v, r') := name r in (Some (THash v), r')
    else (Some (TDelim c), r)
  else if is 36 c then two r c
  else if is 39 c then some (quoted c r)
  else if is 40 c then (Some TParen, r)
  else if is 41 c then (Some TClose, r)
  else if is 42 c then two r c
  else if is 43 c then if number_next r then some (numeric (c :: r)) else (Some (TDelim c), r)
  else if is 44 c then (Some TComma, r)
  else if is 45 c then
    if number_next r then some (numeric (c :: r))
    else if starts "->" r then (Some THtml, skipn 2 r)
    else if ident_start (c :: r) then some (ident_like (c :: r))
    else (Some (TDelim c), r)
  else if is 46 c then if digit_next r then some (numeric (c :: r)) else (Some (TDelim c), r)
  else if is 47 c then if starts "*" r then (None, skip_comment (skipn 1 r)) else (Some (TDelim c), r)
  else if is_digit c then some (numeric (c :: r))
  else if is 58 c then (Some TColon, r)
  else if is 59 c then (Some TSemicolon, r)
  else if is 60 c then if starts "!--" r then (Some THtml, skipn 3 r) else (Some (TDelim c), r)
  else if is 64 c then if ident_start r then let (v, r') := name r in (Some (TAt v), r') else (Some (TDelim c), r)
  else if is 91 c then (Some TSquare, r)
  else if is 92 c then if valid_escape r then some (ident_like (c :: r)) else (Some (TDelim c), r)
  else if is 93 c then (Some TCloseSquare, r)
  else if is 94 c then two r c
  else if is 123 c then (Some TCurly, r)
  else if is 124 c then two r c
  else if is 125 c then (Some TCloseCurly, r)
  else if is 126 c then two r c
  else if name_start c then some (ident_like (c :: r))
  else (Some (TDelim c), r).
(** The tokens of a text as Parser::next yields them, without white space and comments. Every token is at least one byte long. *)
Fixpoint tokens_f (fuel : nat) (s : text) : list tok :=
  match fuel, s with
  | S f, c :: r => let (o, r') := next_token c r in match o with Some x => x :: tokens_f f r' | None => tokens_f f r' end
  | _, _ => []
  end.
Definition tokens (s : text) : list tok := tokens_f (length s) s.

(** ** Blocks: what the parser of a value is given. A closing token that does not fit is a token of its own; the end of the text closes all. *)
Inductive block := InParen | InSquare | InCurly.
Inductive tree := Leaf (x : tok) | Fun (s : text) (l : list tree) | Blk (b : block) (l : list tree).
Inductive opener := OFun (s : text) | OBlk (b : block).
Definition opens (x : tok) : option opener :=
  match x with TFunction s => Some (OFun s) | TParen => Some (OBlk InParen) | TSquare => Some (OBlk InSquare) | TCurly => Some (OBlk InCurly) | _ => None end.
Definition closes (x : tok) (o : opener) : bool :=
  match x, o with
  | TClose, OFun _ => true | TClose, OBlk InParen => true | TCloseSquare, OBlk InSquare => true | TCloseCurly, OBlk InCurly => true
  | _, _ => false
  end.
Definition node (o : opener) (l : list tree) : tree := match o with OFun s => Fun s l | OBlk b => Blk b l end.
Fixpoint close_all (st : list (opener * list tree)) (cur : list tree) : list tree :=
  match st with [] => cur | (o, outer) :: st' => close_all st' (outer ++ [node o cur]) end.
Fixpoint build (l : list tok) (st : list (opener * list tree)) (cur : list tree) : list tree :=
  match l with
  | [] => close_all st cur
  | x :: r =>
      match opens x with
      | Some o => build r ((o, cur) :: st) []
      | None => match st with
                | (o, outer) :: st' => if closes x o then build r st' (outer ++ [node o cur]) else build r st (cur ++ [Leaf x])
                | [] => build r st (cur ++ [Leaf x])
                end
      end
  end.
Definition parsed (s : text) : list tree := build (tokens s) [] [].

(** ** VarToken (style/vars.rs:14-51), and its text (54-77) *)
Inductive vtok := VIdent (s : text) | VHash (s : text) | VString (s : text) | VDelim (c : ascii) | VNumber (d : dec) | VPercent (d : dec)
| VDim (d : dec) (unit : text) | VFunction (s : text) | VEnd.
Definition show (v : vtok) : text :=
  match v with
  | VIdent s => s
  | VHash s => "#"%char :: s
  | VString s => """"%char :: s ++ tx """"
  | VDelim c => [c]
  | VNumber d => show_dec d
  | VPercent d => show_dec (mul100 d) ++ tx "%"
  | VDim d u => show_dec d ++ u
  | VFunction s => s ++ tx "("
  | VEnd => tx ")"
  end.
(** to_css.rs:21-31 *)
Fixpoint to_css (l : list vtok) : text :=
  match l with [] => [] | [v] => show v | v :: r => show v ++ " "%char :: to_css r end.

(** vars.rs:24-50 parse_var_token, without functions *)
Definition var_token (x : tok) : option vtok :=
  match x with
  | TIdent s => Some (VIdent s) | THash s | TIdHash s => Some (VHash s) | TString s => Some (VString s) | TDelim c => Some (VDelim c)
  | TNumber d _ => Some (VNumber d) | TPercent d => Some (VPercent d) | TDim d _ u => Some (VDim d u)
  | TColon => Some (VDelim ":"%char) | TSemicolon => Some (VDelim ";"%char) | TComma => Some (VDelim ","%char)
  | _ => None
  end.
(** vars.rs:6-22 parse_var_fn: nothing but a name may be inside *)
Definition var_name (l : list tree) : option text :=
  match l with
  | [Leaf (TIdent ("-"%char :: "-"%char :: ((_ :: _) as v)))] => Some v
  | _ => None
  end.
(** cssparser's parse_important at the front *)
Definition important (l : list tree) : bool :=
  match l with Leaf (TDelim c) :: Leaf (TIdent s) :: _ => (is 33 c && same_name s (tx "important"))%bool | _ => false end.
(** vars.rs:64-85 parse_next, and parse_var_tokens with everything consumed behind it (parser.rs:91, 431; blocks have to be consumed too) *)
Definition vots := list (var_or_token text vtok).
Fixpoint var_tree (x : tree) : option vots :=
  match x with
  | Leaf y => option_map (fun v => [Tok v]) (var_token y)
  | Fun s l =>
      if same_name s (tx "var") then option_map (fun v => [Var v]) (var_name l)
      else option_map (fun vs => Tok (VFunction s) :: vs ++ [Tok VEnd])
             ((fix go l := match l with
                           | [] => Some []
                           | x :: r => if important l then None else match var_tree x, go r with Some a, Some b => Some (a ++ b) | _, _ => None end
                           end) l)
  | Blk _ _ => None
  end.
Fixpoint var_trees (l : list tree) : option vots :=
  match l with
  | [] => Some []
  | x :: r => if important l then None else match var_tree x, var_trees r with Some a, Some b => Some (a ++ b) | _, _ => None end
  end.
(** The declaration `--x: s`; [None] = it is reported as an error and has no effect *)
Definition custom_property (s : text) : option vots := var_trees (parsed s).
(** Variables by the texts they are declared with *)
Definition env_of (defs : text -> option text) : env text vtok := fun v => match defs v with Some s => custom_property s | None => None end.
(** What the parser of a property is given for the value [s] with variables in it (`!important` taken off); [None] = no value *)
Definition given (defs : text -> option text) (s : text) : option (list tree) :=
  match custom_property s with
  | Some vs => match resolve_recursively (env_of defs) vs with Ok out => Some (parsed (to_css out)) | Err _ => None end
  | None => None
  end.

(** Values given through custom properties: what should reach the parser of a property. *)
From Coq Require Import Ascii String NArith ZArith.
From Verif Require Import Base Vars VarText.
Open Scope nat_scope.

Section S.
  (** the variables, by the texts they are declared with *)
  Variable defs : text -> option text.
  (** every var(--v), at any depth, is replaced by the value of v with its own variables replaced *)
  Inductive substituted : list tree -> list tree -> Prop :=
  | sub_nil : substituted [] []
  | sub_leaf : forall x l l', substituted l l' -> substituted (Leaf x :: l) (Leaf x :: l')
  | sub_fun : forall s a a' l l', same_name s (tx "var") = false -> substituted a a' -> substituted l l' -> substituted (Fun s a :: l) (Fun s a' :: l')
  | sub_blk : forall b a a' l l', substituted a a' -> substituted l l' -> substituted (Blk b a :: l) (Blk b a' :: l')
  | sub_var : forall s v w a l l', same_name s (tx "var") = true -> defs v = Some w -> substituted (parsed w) a -> substituted l l' ->
      substituted (Fun s [Leaf (TIdent (tx "--" ++ v))] :: l) (a ++ l').
End S.

(** The texts that survive being printed and read again: no backslash; no double quote inside a string; no number with an integer value
    written with a point or an exponent; no unit that looks like an exponent behind a number *)
Definition exponent_like (u : text) : bool :=
  match u with
  | c :: d :: r => ((is 101 c || is 69 c) && (is_digit d || (is 45 d && digit_next r)))%bool
  | _ => false
  end.
Definition plain_token (x : tok) : Prop :=
  match x with
  | TString s => ~ In """"%char s
  | TNumber d int => int = Nat.eqb (scale d) 0
  | TDim d int u => int = Nat.eqb (scale d) 0 /\ exponent_like u = false
  | _ => True
  end.
Definition plain (s : text) : Prop := ~ In "\"%char s /\ Forall plain_token (tokens s).

(** The values that custom properties may have here: no blocks but functions, no unquoted URLs, no at-keywords, no operators of several
    characters, var() with nothing but a name, no `!important` *)
Inductive supported : list tree -> Prop :=
| sup_nil : supported []
| sup_leaf : forall x l, ~ In x [TBadString; THtml; TWhite; TClose; TCloseSquare; TCloseCurly] -> (forall s, x <> TAt s /\ x <> TUrl s) -> (forall c, x <> TMatch c) ->
    opens x = None -> important (Leaf x :: l) = false -> supported l -> supported (Leaf x :: l)
| sup_fun : forall s a l, same_name s (tx "var") = false -> supported a -> supported l -> supported (Fun s a :: l)
| sup_var : forall s v l, same_name s (tx "var") = true -> v <> [] -> supported l -> supported (Fun s [Leaf (TIdent (tx "--" ++ v))] :: l).

(** no var() at any depth *)
Inductive no_var : list tree -> Prop :=
| nv_nil : no_var []
| nv_leaf : forall x l, no_var l -> no_var (Leaf x :: l)
| nv_fun : forall s a l, same_name s (tx "var") = false -> no_var a -> no_var l -> no_var (Fun s a :: l)
| nv_blk : forall b a l, no_var a -> no_var l -> no_var (Blk b a :: l).

(** every variable needed is declared, with a supported value, and at most [n] declarations are nested *)
Inductive reaches (defs : text -> option text) : nat -> list tree -> Prop :=
| re_nil : forall n, reaches defs n []
| re_leaf : forall n x l, reaches defs n l -> reaches defs n (Leaf x :: l)
| re_fun : forall n s a l, same_name s (tx "var") = false -> reaches defs n a -> reaches defs n l -> reaches defs n (Fun s a :: l)
| re_var : forall n s v w l, same_name s (tx "var") = true -> defs v = Some w -> supported (parsed w) -> reaches defs n (parsed w) -> reaches defs (S n) l ->
    reaches defs (S n) (Fun s [Leaf (TIdent (tx "--" ++ v))] :: l).

(** How selectors are written, after CSS Selectors 4 and CSS Nesting: C109. The meaning of the selectors themselves is in MatchingSpec.v,
    their specificity in SpecificitySpec.v. *)
From Coq Require Import Ascii String NArith ZArith.
From Verif Require Import Base VarText SheetText Siblings Matching.
Open Scope string_scope.
Open Scope list_scope.
Open Scope nat_scope.

Definition string_of (s : text) : string := string_of_list_ascii s.
Definition delim (c : ascii) : tree := Leaf (TDelim c).
Definition ident (s : text) : tree := Leaf (TIdent s).
(** the word [w], given in lower case, in any case *)
Definition word (s : text) (w : string) : Prop := map lower s = list_ascii_of_string w.
Definition blanks (l : list tree) : Prop := Forall (eq (Leaf TWhite)) l.
(** there is an `&`, at any depth *)
Inductive has_amp : list tree -> Prop :=
| amp_here l : has_amp (delim "&" :: l)
| amp_fun s b l : has_amp b -> has_amp (Fun s b :: l)
| amp_blk k b l : has_amp b -> has_amp (Blk k b :: l)
| amp_later x l : has_amp l -> has_amp (x :: l).

(** ** Types and attributes. There are no namespaces: *|a and |a are a. *)
Inductive reads_type : list tree -> list simple -> Prop :=
| type_none : reads_type [] []
| type_name s : reads_type [ident s] [LocalName (string_of s)]
| type_star : reads_type [delim "*"] [Universal]
| type_any_name s : reads_type [delim "*"; delim "|"; ident s] [LocalName (string_of s)]
| type_any_star : reads_type [delim "*"; delim "|"; delim "*"] [Universal]
| type_no_name s : reads_type [delim "|"; ident s] [Universal; LocalName (string_of s)]
| type_no_star : reads_type [delim "|"; delim "*"] [Universal; Universal].

Definition attr_prefix (l : list tree) : Prop := In l [[]; [delim "|"]; [delim "*"; delim "|"]].
Inductive operator : tree -> ascii -> Prop := op_equal : operator (delim "=") "="%char | op_match c : operator (Leaf (TMatch c)) c.
Inductive attr_value : tree -> text -> Prop := value_ident s : attr_value (ident s) s | value_string s : attr_value (Leaf (TString s)) s.
(** [true]: the case of letters does not count *)
Inductive attr_flag : list tree -> bool -> Prop :=
| flag_none b : blanks b -> attr_flag b false
| flag_i b s b' : blanks b -> blanks b' -> word s "i" -> attr_flag (b ++ [ident s] ++ b') true
| flag_s b s b' : blanks b -> blanks b' -> word s "s" -> attr_flag (b ++ [ident s] ++ b') false.
(** what an operator means *)
Definition same_text (ci : bool) (a b : text) : Prop := if ci then map lower a = map lower b else a = b.
Definition attr_means (op : ascii) (ci : bool) (v x : text) : Prop :=
  if Ascii.eqb op "~" then v <> [] /\ Forall (fun c => is_white c = false) v /\
    exists a p b, x = a ++ p ++ b /\ same_text ci p v /\ (a = [] \/ exists a' c, a = a' ++ [c] /\ is_white c = true) /\ (b = [] \/ exists c b', b = c :: b' /\ is_white c = true)
  else if Ascii.eqb op "|" then same_text ci x v \/ exists p b, x = p ++ "-"%char :: b /\ same_text ci p v
  else if Ascii.eqb op "^" then v <> [] /\ exists p b, x = p ++ b /\ same_text ci p v
  else if Ascii.eqb op "$" then v <> [] /\ exists a p, x = a ++ p /\ same_text ci p v
  else if Ascii.eqb op "*" then v <> [] /\ exists a p b, x = a ++ p ++ b /\ same_text ci p v
  else same_text ci x v.
(** [test op ci v]: the test of the attribute by an operator *)
Inductive reads_attr (test : ascii -> bool -> string -> string -> bool) : list tree -> simple -> Prop :=
| attr_exists b pre k b' : blanks b -> attr_prefix pre -> blanks b' -> reads_attr test (b ++ pre ++ ident k :: b') (AttrExists (string_of k))
| attr_test b pre k b1 o op b2 y v l ci : blanks b -> attr_prefix pre -> blanks b1 -> operator o op -> blanks b2 -> attr_value y v -> attr_flag l ci ->
    reads_attr test (b ++ pre ++ ident k :: b1 ++ o :: b2 ++ y :: l) (Attr (string_of k) (test op ci (string_of v))).

(** ** Combinators and pseudo-classes *)
Inductive sign_of : ascii -> combinator -> Prop := sign_child : sign_of ">" Child | sign_next : sign_of "+" NextSibling | sign_later : sign_of "~" LaterSibling.
Inductive reads_combinator : list tree -> combinator -> Prop :=
| comb_space b : blanks b -> b <> [] -> reads_combinator b Descendant
| comb_sign b c k b' : blanks b -> sign_of c k -> blanks b' -> reads_combinator (b ++ [delim c] ++ b') k.

(** [:only-child] is the first and the last: not (not the first, or not the last) *)
Definition only (of_type : bool) : simple := Not [One [Not [One [Nth false of_type 0 1]]]; One [Not [One [Nth true of_type 0 1]]]].
Inductive plain_class : string -> simple -> Prop :=
| p_first : plain_class "first-child" (Nth false false 0 1) | p_last : plain_class "last-child" (Nth true false 0 1)
| p_first_type : plain_class "first-of-type" (Nth false true 0 1) | p_last_type : plain_class "last-of-type" (Nth true true 0 1)
| p_only : plain_class "only-child" (only false) | p_only_type : plain_class "only-of-type" (only true)
| p_root : plain_class "root" Root | p_scope : plain_class "scope" Root | p_empty : plain_class "empty" Empty
| p_hover : plain_class "hover" (State Hover) | p_active : plain_class "active" (State Active) | p_focus : plain_class "focus" (State Focus)
| p_visible : plain_class "focus-visible" (State FocusVisible) | p_disabled : plain_class "disabled" (State Disabled) | p_checked : plain_class "checked" (State Checked).
Inductive nth_class : string -> bool -> bool -> Prop :=
| n_child : nth_class "nth-child" false false | n_last : nth_class "nth-last-child" true false
| n_type : nth_class "nth-of-type" false true | n_last_type : nth_class "nth-last-of-type" true true.
(** CSS 2 wrote pseudo-elements with one colon *)
Inductive pseudo_element : list tree -> pseudo -> Prop :=
| pe_two s w k : In (w, k) [("before", Before); ("after", After)] -> word s w -> pseudo_element [Leaf TColon; Leaf TColon; ident s] k
| pe_one s w k : In (w, k) [("before", Before); ("after", After)] -> word s w -> pseudo_element [Leaf TColon; ident s] k.

(** Where a selector stands: behind a pseudo-element (only pseudo-classes with brackets may follow), in the brackets of a pseudo-class
    (no pseudo-elements there), in those of `:has` (no other `:has` there) *)
Record place := { p_behind : bool; p_inside : bool; p_has : bool }.
Definition top : place := {| p_behind := false; p_inside := false; p_has := false |}.
Definition within (p : place) : place := {| p_behind := p_behind p; p_inside := true; p_has := p_has p |}.
Definition within_has (p : place) : place := {| p_behind := p_behind p; p_inside := true; p_has := true |}.
Definition past_pseudo (p : place) : place := {| p_behind := true; p_inside := p_inside p; p_has := p_has p |}.
(** a selector on its own, in `:has`, or of a nested rule *)
Inductive kind := Alone | Relative | Nested.

Section G.
  (** `&` may be written; what it stands for; how An+B is read at the start of a list; attribute tests *)
  Variables (nested : bool) (parents : list complex) (nth : list tree -> option (Z * Z * list tree)) (test : ascii -> bool -> string -> string -> bool).
  Section Inner.
    (** [inner p forgiving k l ss]: the list of selectors in brackets *)
    Variable inner : place -> bool -> kind -> list tree -> list complex -> Prop.
    Inductive reads_simple (p : place) : list tree -> simple -> Prop :=
    | s_id s : p_behind p = false -> reads_simple p [Leaf (TIdHash s)] (Id (string_of s))
    | s_class s : p_behind p = false -> reads_simple p [delim "."; ident s] (Class (string_of s))
    | s_amp : p_behind p = false -> nested = true -> reads_simple p [delim "&"] (Is false parents)
    | s_attr l x : p_behind p = false -> reads_attr test l x -> reads_simple p [Blk InSquare l] x
    | s_plain s w x : p_behind p = false -> plain_class w x -> word s w -> reads_simple p [Leaf TColon; ident s] x
    | s_nth s w e o l a b r : p_behind p = false -> nth_class w e o -> word s w -> nth l = Some (a, b, r) -> blanks r -> reads_simple p [Leaf TColon; Fun s l] (Nth e o a b)
    | s_nth_of s w e l a b b' z r ss : p_behind p = false -> nth_class w e false -> word s w -> nth l = Some (a, b, b' ++ ident z :: r) -> blanks b' -> word z "of" ->
        inner (within p) false Alone r ss -> reads_simple p [Leaf TColon; Fun s l] (NthOf e a b ss)
    | s_is s l ss : word s "is" -> inner (within p) true Alone l ss -> reads_simple p [Leaf TColon; Fun s l] (Is false ss)
    | s_where s l ss : word s "where" -> inner (within p) true Alone l ss -> reads_simple p [Leaf TColon; Fun s l] (Is true ss)
    | s_not s l ss : word s "not" -> inner (within p) false Alone l ss -> reads_simple p [Leaf TColon; Fun s l] (Not ss)
    | s_has s l ss : p_has p = false -> word s "has" -> inner (within_has p) false Relative l ss -> reads_simple p [Leaf TColon; Fun s l] (Has ss).
    Inductive reads_simples (p : place) : list tree -> list simple -> Prop :=
    | ss_nil : reads_simples p [] []
    | ss_cons l x m xs : reads_simple p l x -> reads_simples p m xs -> reads_simples p (l ++ m) (x :: xs).
    (** a compound: a type, perhaps, and simple selectors; perhaps nothing *)
    Inductive reads_compound (p : place) : list tree -> list simple -> Prop :=
    | compound l xs m ys : reads_type l xs -> (p_behind p = true -> l = []) -> reads_simples p m ys -> reads_compound p (l ++ m) (xs ++ ys).
    (** [left]: what stands left of the text, and the combinator between *)
    Definition joined (left : option (combinator * complex)) (c : list simple) : complex := match left with None => One c | Some (k, r) => Then c k r end.
    Inductive reads_rest (p : place) : option (combinator * complex) -> list tree -> complex -> Prop :=
    | rest_last left l xs : reads_compound p l xs -> l <> [] -> reads_rest p left l (joined left xs)
    | rest_more left l xs c k m s : reads_compound p l xs -> l <> [] -> p_behind p = false -> reads_combinator c k -> reads_rest p (Some (k, joined left xs)) m s ->
        reads_rest p left (l ++ c ++ m) s
    | rest_pseudo left l xs q k m ys : reads_compound p l xs -> p_behind p = false -> p_inside p = false -> pseudo_element q k -> reads_simples (past_pseudo p) m ys ->
        reads_rest p left (l ++ q ++ m) (Then (PseudoEl k :: ys) PseudoOf (joined left xs)).
    (** how a selector may begin, with [l] the whole of it *)
    Inductive begins (l : list tree) : kind -> list tree -> option (combinator * complex) -> Prop :=
    | b_alone : begins l Alone [] None
    | b_has : begins l Relative [] (Some (Descendant, One [Anchor]))
    | b_has_sign c k b : sign_of c k -> blanks b -> begins l Relative (delim c :: b) (Some (k, One [Anchor]))
    | b_nested_sign c k b : sign_of c k -> blanks b -> begins l Nested (delim c :: b) (Some (k, One [Is false parents]))
    | b_nested_amp : has_amp l -> begins l Nested [] None
    | b_nested : ~ has_amp l -> begins l Nested [] (Some (Descendant, One [Is false parents])).
    Inductive reads_selector (p : place) (k : kind) : list tree -> complex -> Prop :=
    | selector b c left m b' s : blanks b -> blanks b' -> begins (b ++ c ++ m ++ b') k c left -> reads_rest p left m s -> reads_selector p k (b ++ c ++ m ++ b') s.
  End Inner.
  (** lists with commas *)
  Inductive reads_members (R : list tree -> complex -> Prop) : list tree -> list complex -> Prop :=
  | m_one l s : ~ In (Leaf TComma) l -> R l s -> reads_members R l [s]
  | m_more l s m ss : ~ In (Leaf TComma) l -> R l s -> reads_members R m ss -> reads_members R (l ++ Leaf TComma :: m) (s :: ss).
  (** [n]: brackets may be nested less than [n] deep. In a forgiving list a member that is no selector stands for nothing. *)
  Fixpoint reads (n : nat) (p : place) (forgiving : bool) (k : kind) (l : list tree) (ss : list complex) : Prop :=
    match n with
    | 0 => False
    | S n => reads_members (fun l s => reads_selector (reads n) p k l s \/
               forgiving = true /\ (forall s', ~ reads_selector (reads n) p k l s') /\ s = One [Is true []]) l ss
    end.
  (** the list of selectors of a rule *)
  Definition stands_for (l : list tree) (ss : list complex) : Prop := exists enough, forall n, enough <= n -> reads n top false (if nested then Nested else Alone) l ss.
  (** one selector *)
  Definition stands_for_one (l : list tree) (s : complex) : Prop := exists enough, forall n, enough <= n -> reads_selector (reads n) top (if nested then Nested else Alone) l s.
End G.

(** [nth] takes tokens from the start of the list, none of them an `&` *)
Definition reads_front (nth : list tree -> option (Z * Z * list tree)) : Prop := forall l a b r, nth l = Some (a, b, r) -> exists u, l = u ++ r /\ ~ has_amp u.
(** there is a `|`, at any depth *)
Inductive has_bar : list tree -> Prop :=
| bar_here l : has_bar (delim "|" :: l)
| bar_fun s b l : has_bar b -> has_bar (Fun s b :: l)
| bar_blk k b l : has_bar b -> has_bar (Blk k b :: l)
| bar_later x l : has_bar l -> has_bar (x :: l).
(** the selectors of the innermost of nested rules, the outermost first *)
Inductive nested_for (nth : list tree -> option (Z * Z * list tree)) (test : ascii -> bool -> string -> string -> bool) : list complex -> list (list tree) -> list complex -> Prop :=
| nested_here ss : nested_for nth test ss [] ss
| nested_in ss l ts ls us : stands_for true ss nth test l ts -> nested_for nth test ts ls us -> nested_for nth test ss (l :: ls) us.

(** Model of how the text of a selector becomes a selector:
    crates/bevy_flair_style/src/css_selector/mod.rs:30-64 (pseudo-classes and -elements), 195-275 (CssSelectorParser: what is allowed), 287-370
    (parse_comma_separated, parse_comma_separated_for_nested), 441-474 (replace_parent_selector), used by parser.rs:382, 647.
    The parser itself is that of the selectors crate 0.32 (parser.rs; not in /repo, written down here from its published source): parse_with_state,
    parse_selector, try_parse_combinator, parse_compound_selector, parse_type_selector, parse_one_simple_selector, parse_attribute_selector,
    parse_simple_pseudo_class, parse_functional_pseudo_class, SelectorBuilder::build, Selector::new_invalid, Selector::replace_parent_selector.
    Tokens are those of VarText.v with white space kept (SheetText.parsed_white); a function or a block is one tree.
    Simplified: how An+B is read is an arbitrary function [nth]; error messages are left out; a bad string, a bad URL or a stray closing bracket in
    `:is()` or `:where()` is an invalid member there like any other (the crate can refuse the whole list for it). *)
From Coq Require Import Ascii String NArith ZArith.
From Verif Require Import Base Vars VarText Nesting SheetText Tree Siblings Matching.
Open Scope string_scope.
Open Scope list_scope.
Open Scope nat_scope.

Definition str (s : text) : string := string_of_list_ascii s.
(** selectors::parser::Component and Selector, the subject first; the names are those of Matching.v with a [P].
    [PParent] is the `&`, [PInvalid] a member of `:is()` that is no selector, [PNoNamespace] the `|` in front of a type. *)
Inductive psimple :=
| PUniversal | PNoNamespace | PLocal (s : string) | PId (s : string) | PClass (s : string)
| PAttrExists (k : string) | PAttr (k : string) (op : ascii) (ci : bool) (v : string)
| PState (p : pseudo_state) | PRoot | PScope | PEmpty | PPseudo (k : pseudo) | PAnchor | PParent | PInvalid (amp : bool)
| PNth (from_end of_type : bool) (a b : Z) | POnly (of_type : bool) | PNthOf (from_end : bool) (a b : Z) (l : list pcomplex)
| PIs (is_where : bool) (l : list pcomplex) | PNot (l : list pcomplex) | PHas (l : list pcomplex)
with pcomplex := POne (c : list psimple) | PThen (c : list psimple) (k : combinator) (rest : pcomplex).

(** SelectorParsingState: [after] a pseudo-element; [inside] the brackets of a pseudo-class (DISALLOW_PSEUDOS), [in_has] those of `:has` *)
Record state := mkstate { after : bool; inside : bool; in_has : bool }.
Definition start : state := mkstate false false false.
Definition enter (st : state) : state := mkstate (after st) true (in_has st).
Definition enter_has (st : state) : state := mkstate (after st) true true.
Definition behind (st : state) : state := mkstate true (inside st) (in_has st).
(** ParseRelative *)
Inductive relative := RNo | RHas | RNesting.

(** the left side of the compound that is being read *)
Definition head := option (combinator * pcomplex).
Definition attach (h : head) (c : list psimple) : pcomplex := match h with None => POne c | Some (k, r) => PThen c k r end.

Definition says (s : text) (w : string) : bool := same_name s (tx w).
(** only white space is left: expect_exhausted *)
Definition blank (l : list tree) : bool := match drop_spaces l with [] => true | _ => false end.

(** try_parse_combinator; without one, what it skips at the end does not matter *)
Definition sign (c : ascii) : option combinator := if is 62 c then Some Child else if is 43 c then Some NextSibling else if is 126 c then Some LaterSibling else None.
Fixpoint combinator_at (any_white : bool) (l : list tree) : option (combinator * list tree) :=
  match l with
  | [] => None
  | Leaf TWhite :: r => combinator_at true r
  | Leaf (TDelim c) :: r => match sign c with Some k => Some (k, r) | None => if any_white then Some (Descendant, l) else None end
  | _ => if any_white then Some (Descendant, l) else None
  end.

(** parse_attribute_selector. The prefix `*|` or `|` of the name changes nothing (element.rs:232-247) *)
Definition op_of (x : tree) : option ascii := match x with Leaf (TDelim c) => if is 61 c then Some c else None | Leaf (TMatch c) => Some c | _ => None end.
Definition value_of (x : tree) : option text := match x with Leaf (TIdent s) | Leaf (TString s) => Some s | _ => None end.
(** parse_attribute_flags; without a flag case counts, as no element is in an HTML document (element.rs:28-30) *)
Definition flag_of (l : list tree) : option bool :=
  match drop_spaces l with
  | [] => Some false
  | Leaf (TIdent s) :: r => if blank r then if says s "i" then Some true else if says s "s" then Some false else None else None
  | _ => None
  end.
Definition attr_name (l : list tree) : option (text * list tree) :=
  match l with
  | Leaf (TIdent s) :: Leaf (TDelim c) :: r => if is 124 c then None else Some (s, Leaf (TDelim c) :: r)
  | Leaf (TIdent s) :: r => Some (s, r)
  | Leaf (TDelim c) :: Leaf (TIdent s) :: r => if is 124 c then Some (s, r) else None
  | Leaf (TDelim c) :: Leaf (TDelim d) :: Leaf (TIdent s) :: r => if (is 42 c && is 124 d)%bool then Some (s, r) else None
  | _ => None
  end.
Definition parse_attribute (l : list tree) : option psimple :=
  match attr_name (drop_spaces l) with
  | None => None
  | Some (k, r) =>
      match drop_spaces r with
      | [] => Some (PAttrExists (str k))
      | x :: r' =>
          match op_of x, drop_spaces r' with
          | Some op, y :: r'' => match value_of y, flag_of r'' with Some v, Some ci => Some (PAttr (str k) op ci (str v)) | _, _ => None end
          | _, _ => None
          end
      end
  end.

(** parse_type_selector: what it pushes and what is left; [None] = an error. No prefix is declared. *)
Definition qualified (pushed : list psimple) (l : list tree) : option (list psimple * list tree) :=
  match l with
  | Leaf (TIdent s) :: r => Some (pushed ++ [PLocal (str s)], r)
  | Leaf (TDelim c) :: r => if is 42 c then Some (pushed ++ [PUniversal], r) else None
  | _ => None
  end.
Definition bar (l : list tree) : option (list tree) := match l with Leaf (TDelim c) :: r => if is 124 c then Some r else None | _ => None end.
Definition parse_type (st : state) (l : list tree) : option (list psimple * list tree) :=
  let guard o := if after st then None else o in
  match l with
  | Leaf (TIdent s) :: r => guard (match bar r with Some _ => None | None => Some ([PLocal (str s)], r) end)
  | Leaf (TDelim c) :: r =>
      if is 42 c then guard (match bar r with Some r' => qualified [] r' | None => Some ([PUniversal], r) end)
      else if is 124 c then guard (qualified [PNoNamespace] r) else Some ([], l)
  | _ => Some ([], l)
  end.

(** parse_simple_pseudo_class and mod.rs:222-250 parse_non_ts_pseudo_class *)
Definition simple_pseudos : list (string * psimple) :=
  [("first-child", PNth false false 0 1); ("last-child", PNth true false 0 1); ("only-child", POnly false); ("root", PRoot); ("empty", PEmpty); ("scope", PScope);
   ("first-of-type", PNth false true 0 1); ("last-of-type", PNth true true 0 1); ("only-of-type", POnly true);
   ("hover", PState Hover); ("active", PState Active); ("focus", PState Focus); ("focus-visible", PState FocusVisible); ("disabled", PState Disabled); ("checked", PState Checked)]%Z.
Fixpoint lookup {X} (s : text) (l : list (string * X)) : option X := match l with [] => None | (w, x) :: l => if says s w then Some x else lookup s l end.
Definition parse_simple_pseudo (st : state) (s : text) : option psimple := if after st then None else lookup s simple_pseudos.
(** mod.rs:252-273 *)
Definition pseudo_elements : list (string * pseudo) := [("before", Before); ("after", After)].
(** is_css2_pseudo_element *)
Definition css2 (s : text) : bool := existsb (says s) ["before"; "after"; "first-line"; "first-letter"].

(** SelectorFlags::HAS_PARENT *)
Fixpoint has_parent (s : pcomplex) : bool :=
  match s with POne c => existsb has_parent_simple c | PThen c _ r => (existsb has_parent_simple c || has_parent r)%bool end
with has_parent_simple (x : psimple) : bool :=
  match x with
  | PParent => true
  | PInvalid amp => amp
  | PNthOf _ _ _ l | PIs _ l | PNot l | PHas l => existsb has_parent l
  | _ => false
  end.
(** SelectorBuilder::build: a nested selector without `&` is one below it *)
Fixpoint below_parent (s : pcomplex) : pcomplex := match s with POne c => PThen c Descendant (POne [PParent]) | PThen c k r => PThen c k (below_parent r) end.
Definition finish (rel : relative) (s : pcomplex) : pcomplex := match rel with RNesting => if has_parent s then s else below_parent s | _ => s end.
(** Selector::new_invalid: is there an `&`, at any depth? *)
Fixpoint mentions_tree (x : tree) : bool := match x with Leaf (TDelim c) => is 38 c | Leaf _ => false | Fun _ l | Blk _ l => existsb mentions_tree l end.
Definition mentions (l : list tree) : bool := existsb mentions_tree l.

Fixpoint split_commas (l : list tree) : list tree * list (list tree) :=
  match l with
  | [] => ([], [])
  | Leaf TComma :: r => let (a, b) := split_commas r in ([], a :: b)
  | x :: r => let (a, b) := split_commas r in (x :: a, b)
  end.
Fixpoint all_some {X} (l : list (option X)) : option (list X) :=
  match l with [] => Some [] | Some x :: l => option_map (cons x) (all_some l) | None :: _ => None end.

Section P.
  (** mod.rs:216-218 parse_parent_selector *)
  Variable nested : bool.
  (** parse_nth: A, B and what is left *)
  Variable nth : list tree -> option (Z * Z * list tree).

  Section Inner.
    (** the list in the brackets: state, forgiving, relative *)
    Variable inner : state -> bool -> relative -> list tree -> option (list pcomplex).
    (** parse_nth_pseudo_class; mod.rs:204-206 *)
    Definition parse_nth_pseudo (st : state) (from_end of_type : bool) (l : list tree) : option psimple :=
      if after st then None else
      match nth l with
      | None => None
      | Some (a, b, r) =>
          match drop_spaces r with
          | [] => Some (PNth from_end of_type a b)
          | Leaf (TIdent s) :: r' => if (negb of_type && says s "of")%bool then option_map (PNthOf from_end a b) (inner (enter st) false RNo r') else None
          | _ => None
          end
      end.
    (** parse_functional_pseudo_class; mod.rs:208-214 *)
    Definition parse_functional (st : state) (s : text) (l : list tree) : option psimple :=
      if says s "nth-child" then parse_nth_pseudo st false false l
      else if says s "nth-of-type" then parse_nth_pseudo st false true l
      else if says s "nth-last-child" then parse_nth_pseudo st true false l
      else if says s "nth-last-of-type" then parse_nth_pseudo st true true l
      else if says s "is" then option_map (PIs false) (inner (enter st) true RNo l)
      else if says s "where" then option_map (PIs true) (inner (enter st) true RNo l)
      else if says s "has" then if in_has st then None else option_map PHas (inner (enter_has st) false RHas l)
      else if says s "not" then option_map PNot (inner (enter st) false RNo l)
      else None.

    (** parse_one_simple_selector *)
    Inductive step := Stop | Fail | Simple (x : psimple) (r : list tree) | Pseudo (k : pseudo) (r : list tree).
    Definition simple_step (o : option psimple) (r : list tree) : step := match o with Some x => Simple x r | None => Fail end.
    Definition pseudo_step (st : state) (s : text) (r : list tree) : step :=
      if (after st || inside st)%bool then Fail else match lookup s pseudo_elements with Some k => Pseudo k r | None => Fail end.
    Definition parse_one (st : state) (l : list tree) : step :=
      match l with
      | Leaf (TIdHash s) :: r => if after st then Fail else Simple (PId (str s)) r
      | Leaf (TDelim c) :: r =>
          if is 46 c then if after st then Fail else match r with Leaf (TIdent s) :: r' => Simple (PClass (str s)) r' | _ => Fail end
          else if (is 38 c && nested)%bool then if after st then Fail else Simple PParent r
          else Stop
      | Blk InSquare b :: r => if after st then Fail else simple_step (parse_attribute b) r
      | Leaf TColon :: Leaf TColon :: Leaf (TIdent s) :: r => pseudo_step st s r
      | Leaf TColon :: Leaf (TIdent s) :: r => if css2 s then pseudo_step st s r else simple_step (parse_simple_pseudo st s) r
      | Leaf TColon :: Fun s b :: r => if css2 s then Fail else simple_step (parse_functional st s b) r
      | Leaf TColon :: _ => Fail
      | _ => Stop
      end.
    (** the loop of parse_compound_selector; a pseudo-element starts a compound of its own *)
    Fixpoint parse_simples (fuel : nat) (st : state) (h : head) (cur : list psimple) (l : list tree) : option (state * head * list psimple * list tree) :=
      match fuel with
      | 0 => None
      | S f =>
          match parse_one st l with
          | Fail => None
          | Stop => Some (st, h, cur, l)
          | Simple x r => parse_simples f st h (cur ++ [x]) r
          | Pseudo k r => parse_simples f (behind st) (Some (PseudoOf, attach h cur)) [PPseudo k] r
          end
      end.
    (** parse_compound_selector; an empty one is an error in parse_selector *)
    Definition parse_compound (st : state) (h : head) (l : list tree) : option (state * head * list psimple * list tree) :=
      let l := drop_spaces l in
      match parse_type st l with
      | None => None
      | Some (cur, r) =>
          match parse_simples (S (List.length r)) st h cur r with
          | Some (_, _, [], _) => None
          | o => o
          end
      end.
    (** the loop of parse_selector *)
    Fixpoint parse_rest (fuel : nat) (st : state) (h : head) (l : list tree) : option (pcomplex * list tree) :=
      match fuel with
      | 0 => None
      | S f =>
          match parse_compound st h l with
          | None => None
          | Some (st', h', cur, r) =>
              if after st' then Some (attach h' cur, r)
              else match combinator_at false r with
                   | Some (k, r') => parse_rest f st' (Some (k, attach h' cur)) r'
                   | None => Some (attach h' cur, r)
                   end
          end
      end.
    Definition parse_head (rel : relative) (l : list tree) : head * list tree :=
      match rel, combinator_at false l with
      | RNo, _ => (None, l)
      | RHas, Some (k, r) => (Some (k, POne [PAnchor]), r)
      | RHas, None => (Some (Descendant, POne [PAnchor]), l)
      | RNesting, Some (k, r) => (Some (k, POne [PParent]), r)
      | RNesting, None => (None, l)
      end.
    Definition parse_selector (st : state) (rel : relative) (l : list tree) : option (pcomplex * list tree) :=
      let (h, r) := parse_head rel (drop_spaces l) in
      option_map (fun x => (finish rel (fst x), snd x)) (parse_rest (S (List.length r)) st h r).
    (** the body of the loop of parse_with_state *)
    Definition parse_member (st : state) (forgiving : bool) (rel : relative) (l : list tree) : option pcomplex :=
      match parse_selector st rel l with
      | Some (s, r) => if blank r then Some s else if forgiving then Some (POne [PInvalid (mentions l)]) else None
      | None => if forgiving then Some (POne [PInvalid (mentions l)]) else None
      end.
    Definition parse_members (st : state) (forgiving : bool) (rel : relative) (l : list tree) : option (list pcomplex) :=
      let (a, b) := split_commas l in all_some (map (parse_member st forgiving rel) (a :: b)).
  End Inner.
  (** SelectorList::parse_with_state; [d]: more than the depth of the brackets *)
  Fixpoint parse_list (d : nat) : state -> bool -> relative -> list tree -> option (list pcomplex) :=
    match d with 0 => fun _ _ _ _ => None | S d => parse_members (parse_list d) end.
End P.
Fixpoint depth_tree (x : tree) : nat := match x with Leaf _ => 0 | Fun _ l | Blk _ l => S (fold_right Nat.max 0 (map depth_tree l)) end.
Definition depth (l : list tree) : nat := fold_right Nat.max 0 (map depth_tree l).
(** mod.rs:287-318: [nested = false] is parse_comma_separated, [nested = true] parse_comma_separated_for_nested *)
Definition parse_comma_separated (nested : bool) (nth : list tree -> option (Z * Z * list tree)) (l : list tree) : option (list pcomplex) :=
  parse_list nested nth (S (depth l)) start false (if nested then RNesting else RNo) l.

(** ** What is matched *)
(** selectors::attr::AttrSelectorOperator::eval_str; element.rs:246 *)
Definition eq_case (ci : bool) (a b : text) : bool := if list_eq_dec ascii_dec (if ci then map lower a else a) (if ci then map lower b else b) then true else false.
Fixpoint split_white (cur : text) (l : text) : list text :=
  match l with [] => [cur] | c :: r => if is_white c then cur :: split_white [] r else split_white (cur ++ [c]) r end.
Definition non_empty (v : text) : bool := match v with [] => false | _ => true end.
Fixpoint contains (ci : bool) (v x : text) : bool := (eq_case ci (firstn (List.length v) x) v || match x with [] => false | _ :: r => contains ci v r end)%bool.
Definition eval_text (op : ascii) (ci : bool) (v x : text) : bool :=
  if is 126 op then (non_empty v && existsb (fun p => eq_case ci p v) (split_white [] x))%bool
  else if is 124 op then (eq_case ci x v || (eq_case ci (firstn (List.length v) x) v && match skipn (List.length v) x with c :: _ => is 45 c | [] => false end))%bool
  else if is 94 op then (non_empty v && eq_case ci (firstn (List.length v) x) v)%bool
  else if is 36 op then (non_empty v && eq_case ci (skipn (List.length x - List.length v) x) v)%bool
  else if is 42 op then (non_empty v && contains ci v x)%bool
  else eq_case ci x v.
Definition eval_str (op : ascii) (ci : bool) (v x : string) : bool := eval_text op ci (list_ascii_of_string v) (list_ascii_of_string x).

(** Selector::replace_parent_selector with the parents of mod.rs:441-474, into the selectors of Matching.v. `:scope` is `:root` (there is no scope
    element, mod.rs:480-501); [:only-child] is first and last; an invalid member matches nothing and counts nothing, like [:where()];
    a type without namespace is any type: but matching it panics, see [no_bar]. *)
Section R.
  Variable parents : list complex.
  Fixpoint resolve (s : pcomplex) : complex :=
    match s with POne c => One (map resolve_simple c) | PThen c k r => Then (map resolve_simple c) k (resolve r) end
  with resolve_simple (x : psimple) : simple :=
    match x with
    | PUniversal | PNoNamespace => Universal
    | PLocal s => LocalName s | PId s => Id s | PClass s => Class s
    | PAttrExists k => AttrExists k | PAttr k op ci v => Attr k (eval_str op ci v)
    | PState p => State p | PRoot | PScope => Root | PEmpty => Empty | PPseudo k => PseudoEl k | PAnchor => Anchor
    | PParent => Is false parents
    | PInvalid _ => Is true []
    | PNth e o a b => Nth e o a b
    | POnly o => Not [One [Not [One [Nth false o 0 1]]]; One [Not [One [Nth true o 0 1]]]]
    | PNthOf e a b l => NthOf e a b (map resolve l)
    | PIs w l => Is w (map resolve l)
    | PNot l => Not (map resolve l)
    | PHas l => Has (map resolve l)
    end.
End R.
(** element.rs:32-37: matching a [PNoNamespace] panics *)
Fixpoint no_bar (s : pcomplex) : bool :=
  match s with POne c => forallb no_bar_simple c | PThen c _ r => (forallb no_bar_simple c && no_bar r)%bool end
with no_bar_simple (x : psimple) : bool :=
  match x with
  | PNoNamespace => false
  | PNthOf _ _ _ l | PIs _ l | PNot l | PHas l => forallb no_bar l
  | _ => true
  end.

(** ** mod.rs:320-332 parse_single: [Selector::parse] does not ask whether anything is left *)
Definition parse_single (nth : list tree -> option (Z * Z * list tree)) (l : list tree) : option pcomplex :=
  option_map fst (parse_selector false nth (parse_list false nth (S (depth l))) start RNo l).
(** mod.rs:334-352 parse_single_for_nested: [expect] panics if there is not exactly one *)
Inductive single_outcome := SErr | SOk (s : pcomplex) | SPanic.
Definition parse_single_for_nested (nth : list tree -> option (Z * Z * list tree)) (l : list tree) : single_outcome :=
  match parse_comma_separated true nth l with None => SErr | Some [s] => SOk s | Some _ => SPanic end.

(** ** Rules in rules: internal_loader.rs:122-146. The selectors of a nested rule have their `&` replaced by those of the rule around it. *)
Fixpoint nest (nth : list tree -> option (Z * Z * list tree)) (parents : list complex) (ls : list (list tree)) : option (list complex) :=
  match ls with
  | [] => Some parents
  | l :: ls => match parse_comma_separated true nth l with Some ps => nest nth (map (resolve parents) ps) ls | None => None end
  end.
(** [l] is the text of the outermost rule, [ls] those of the rules inside, the innermost last *)
Definition nested_rule (nth : list tree -> option (Z * Z * list tree)) (l : list tree) (ls : list (list tree)) : option (list complex) :=
  match parse_comma_separated false nth l with Some ps => nest nth (map (resolve []) ps) ls | None => None end.

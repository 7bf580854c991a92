(** Model of a sheet with its selectors: SheetText.v (rules of a sheet) and Nesting.v (nested rules), whose selectors are arbitrary, with the
    parser of SelText.v: crates/bevy_flair_css_parser/src/parser.rs:333, 356, 375-385, 643-660; internal_loader.rs:122-146;
    crates/bevy_flair_style/src/css_selector/mod.rs:287-318, 441-474. *)
From Coq Require Import Ascii String NArith ZArith.
From Verif Require Import Base VarText Nesting SheetText Siblings Matching SelText.
Open Scope list_scope.

(** parser.rs:333, 356: CssSelector::parse_single_for_nested of `&` *)
Definition amp_selector : pcomplex := POne [PParent].
(** Selector::replace_parent_selector of the selectors crate: `&` becomes :is() with the selectors of the parent rule *)
Section R.
  Variable parents : list pcomplex.
  Fixpoint substitute (s : pcomplex) : pcomplex :=
    match s with POne c => POne (map substitute_simple c) | PThen c k r => PThen (map substitute_simple c) k (substitute r) end
  with substitute_simple (x : psimple) : psimple :=
    match x with
    | PParent => PIs false parents
    | PNthOf e a b l => PNthOf e a b (map substitute l)
    | PIs w l => PIs w (map substitute l)
    | PNot l => PNot (map substitute l)
    | PHas l => PHas (map substitute l)
    | _ => x
    end.
End R.
(** parser.rs:375-385, 643-660: an error is kept in the rule, unless the parser stopped before the end of the selectors ([stuck], arbitrary):
    then the rule is an error *)
Definition real_selectors (nth : list tree -> option (Z * Z * list tree)) (stuck : bool -> list tree -> bool) (nested : bool) (l : list tree) : option (option (list pcomplex)) :=
  match parse_comma_separated nested nth l with Some ss => Some (Some ss) | None => if stuck nested l then None else Some None end.

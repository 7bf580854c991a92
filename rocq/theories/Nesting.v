(** Model of nested rules, @media and @layer blocks:
    crates/bevy_flair_css_parser/src/parser.rs:286-680 (what the parser builds from the blocks it meets),
    crates/bevy_flair_css_parser/src/internal_loader.rs:111-190, 244-262 (how the result is handed to the builder),
    crates/bevy_flair_style/src/css_selector/mod.rs:373-474 (media, layer and parent selector of a CssSelector),
    crates/bevy_flair_style/src/builder.rs:325-331, 519-545 (rulesets and layers).
    Not modelled: tokenising, error messages, fonts, keyframes and imports. The selectors are those of an arbitrary language with
    a selector `&` and the replacement of the parent selector; an example is the language of terms over simple selectors and
    combinators, in which a nested selector is given with its `&` explicit (the crate inserts the implicit one while parsing). *)
From Coq Require Import Ascii String.
From Verif Require Import Base.
Open Scope list_scope.

(** selectors crate: `&`, a simple selector, a compound, `:is(..)` as a disjunction, left combinator right *)
Section L.
  (** simple selectors, combinators *)
  Context {A C : Type}.
  Inductive sel := Amp | Atom (a : A) | And (s t : sel) | Never | Or (s t : sel) | Comb (c : C) (left right : sel).
  (** selectors::SelectorList::from_iter used as the argument of `:is()` *)
  Definition is_any (l : list sel) : sel := fold_right Or Never l.
  Fixpoint replace_amp (p : sel) (s : sel) : sel :=
    match s with
    | Amp => p
    | Atom a => Atom a
    | And s t => And (replace_amp p s) (replace_amp p t)
    | Never => Never
    | Or s t => Or (replace_amp p s) (replace_amp p t)
    | Comb c s t => Comb c (replace_amp p s) (replace_amp p t)
    end.
  (** Selector::replace_parent_selector of the selectors crate *)
  Definition replace_by (parents : list sel) (s : sel) : sel := replace_amp (is_any parents) s.
End L.
Arguments sel : clear implicits.

Section N.
  (** selectors, media conditions, declarations *)
  Context {Sl M D : Type}.
  (** the selector `&` (parser.rs:333, 356); Selector::replace_parent_selector with the selectors of the parent rule *)
  Variables (amp : Sl) (replace : list Sl -> Sl -> Sl).

  (** css_selector/mod.rs CssSelector *)
  Record csel := { c_layer : list ascii; c_media : list M; c_sel : Sl }.
  Definition plain (s : Sl) : csel := {| c_layer := []; c_media := []; c_sel := s |}.
  (** mod.rs:376-383, 408-414 *)
  Definition with_media (ms : list M) (s : csel) : csel := {| c_layer := c_layer s; c_media := ms; c_sel := c_sel s |}.
  Definition with_layer (n : list ascii) (s : csel) : csel := {| c_layer := n; c_media := c_media s; c_sel := c_sel s |}.
  (** media_selector.rs:141-147 merge_with *)
  Definition merge_with (a b : list M) : list M := match a with [] => b | _ => a ++ b end.
  (** mod.rs:441-474 replace_parent_selector; [parent_selectors[0]] panics on an empty list: None *)
  Definition replace_parent_selector (self : csel) (parents : list csel) : option csel :=
    match parents with
    | [] => None
    | p0 :: _ =>
        Some {| c_layer := match c_layer p0, c_layer self with
                           | [], l => l
                           | pl, [] => pl
                           | pl, l => pl ++ "."%char :: l end;
                c_media := merge_with (c_media p0) (c_media self);
                c_sel := replace (map c_sel parents) (c_sel self) |}
    end.

  (** What is written: the body of a rule and the items of a sheet. A list of selectors that does not parse is None. *)
  Inductive body :=
  | BDecl (d : D)
  | BError
  | BRule (ss : option (list Sl)) (b : list body)
  | BMedia (ms : list M) (b : list body)
  | BLayer (n : list ascii) (b : list body).
  Inductive top :=
  | TRule (ss : option (list Sl)) (b : list body)
  | TMedia (ms : list M) (is : list top)
  | TLayer (n : list ascii) (is : list top)
  | TLayers (ns : list (list ascii))
  | TError.

  (** parser.rs:33-69, 71-80 CssRulesetProperty, CssRuleset and CssStyleSheetItem *)
  Inductive prop := PDecl (d : D) | PError | PNested (ss : option (list csel)) (ps : list prop).
  Inductive item := IRule (ss : option (list csel)) (ps : list prop) | IInner (is : list item) | ILayers (ns : list (list ascii)) | IError.

  (** parser.rs:313-408 *)
  Fixpoint parse_body (b : body) : prop :=
    match b with
    | BDecl d => PDecl d
    | BError => PError
    | BRule ss b => PNested (option_map (map plain) ss) (map parse_body b)
    | BMedia ms b => PNested (Some [with_media ms (plain amp)]) (map parse_body b)
    | BLayer n b => PNested (Some [with_layer n (plain amp)]) (map parse_body b)
    end.
  (** parser.rs:106-113 CssParserContext: the enclosing media conditions and the current layer; 591-606, 617-644, 652-680 *)
  Definition push_layer (cur n : list ascii) : list ascii := match cur with [] => n | _ => cur ++ "."%char :: n end.
  Fixpoint parse_top (ms : list M) (cur : list ascii) (t : top) : item :=
    match t with
    | TRule ss b => IRule (option_map (map (fun s => with_layer cur (with_media ms (plain s)))) ss) (map parse_body b)
    | TMedia ms' is => IInner (map (parse_top (merge_with ms ms') cur) is)
    | TLayer n is => IInner (map (parse_top ms (push_layer cur n)) is)
    | TLayers ns => ILayers (map (push_layer cur) ns)
    | TError => IError
    end.

  (** builder.rs StyleSheetBuilder: the rulesets with their selectors and properties, and the layers defined so far *)
  Record builder := { rulesets : list (list csel * list D); defined : list (list ascii) }.
  (** 534-545 new_ruleset; returns the id *)
  Definition new_ruleset (b : builder) : builder * nat := ({| rulesets := rulesets b ++ [([], [])]; defined := defined b |}, length (rulesets b)).
  Fixpoint update {X} (f : X -> X) (i : nat) (l : list X) : list X :=
    match l, i with [], _ => [] | x :: l, 0 => f x :: l | x :: l, S i => x :: update f i l end.
  (** 325-331 add_css_selector: also defines the selector's layer *)
  Definition add_css_selector (b : builder) (i : nat) (s : csel) : builder :=
    {| rulesets := update (fun r => (fst r ++ [s], snd r)) i (rulesets b); defined := defined b ++ [c_layer s] |}.
  Definition add_property (b : builder) (i : nat) (d : D) : builder :=
    {| rulesets := update (fun r => (fst r, snd r ++ [d])) i (rulesets b); defined := defined b |}.
  Definition define_layers (b : builder) (ns : list (list ascii)) : builder := {| rulesets := rulesets b; defined := defined b ++ ns |}.

  (** [collect] over fallible steps *)
  Fixpoint sequence {X} (l : list (option X)) : option (list X) :=
    match l with [] => Some [] | Some x :: r => option_map (cons x) (sequence r) | None :: _ => None end.
  Definition open_ruleset (b : builder) (ss : list csel) : builder * nat :=
    let '(b, i) := new_ruleset b in (fold_left (fun b s => add_css_selector b i s) ss b, i).

  (** internal_loader.rs:131-190 process_ruleset_recursively (None: the index panic of replace_parent_selector) *)
  Fixpoint process_prop (ss : list csel) (st : builder * nat) (p : prop) {struct p} : option (builder * nat) :=
    let '(b, i) := st in
    match p with
    | PDecl d => Some (add_property b i d, i)
    | PError => Some (b, i)
    | PNested ns ps =>
        match ns with
        | None => Some (open_ruleset b ss)
        | Some ns =>
            match sequence (map (fun n => replace_parent_selector n ss) ns) with
            | None => None
            | Some ns' =>
                match (fix go (st : builder * nat) (ps : list prop) : option (builder * nat) :=
                         match ps with [] => Some st | p :: ps => match process_prop ns' st p with Some st => go st ps | None => None end end)
                      (open_ruleset b ns') ps with
                | Some (b', _) => Some (open_ruleset b' ss)
                | None => None
                end
            end
        end
    end.
  Fixpoint process_props (ss : list csel) (st : builder * nat) (ps : list prop) : option (builder * nat) :=
    match ps with [] => Some st | p :: ps => match process_prop ss st p with Some st => process_props ss st ps | None => None end end.

  (** internal_loader.rs:192-262 processor *)
  Fixpoint process_item (b : builder) (i : item) {struct i} : option builder :=
    match i with
    | IRule None _ => Some b
    | IRule (Some ss) ps => option_map fst (process_props ss (open_ruleset b ss) ps)
    | IInner is => (fix go (b : builder) (is : list item) : option builder :=
                      match is with [] => Some b | i :: is => match process_item b i with Some b => go b is | None => None end end) b is
    | ILayers ns => Some (define_layers b ns)
    | IError => Some b
    end.
  Fixpoint process_items (b : builder) (is : list item) : option builder :=
    match is with [] => Some b | i :: is => match process_item b i with Some b => process_items b is | None => None end end.
  (** 264-276 load_stylesheet: every item of the sheet in turn, starting from an empty builder *)
  Definition load (sheet : list top) : option builder :=
    process_items {| rulesets := []; defined := [] |} (map (parse_top [] []) sheet).
End N.
Arguments csel : clear implicits. Arguments body : clear implicits. Arguments top : clear implicits.
Arguments prop : clear implicits. Arguments item : clear implicits. Arguments builder : clear implicits.

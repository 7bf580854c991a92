(** Model of what happens to the mistakes of a sheet: from the parts cssparser gives to the parsers, through their results, to the report and the builder.
    crates/bevy_flair_css_parser/src/parser.rs:40-63 (into_parse_result), 245-259 (collect_parser), 410-456 (parse_value), 497-516, 530-640, 690-760,
    parser/font_face.rs:21-145, parser/keyframes.rs:64-153, parser/animations.rs:600-768 (names only),
    internal_loader.rs:33-85, 87-325; error.rs:415-510 (ErrorReportGenerator); reflect.rs:52-80, shorthand.rs:144-184 (values from var()).
    Selectors, values, and imports are numbers; what parsing a value gives is arbitrary. A part that cssparser refuses itself is [Junk].
    The second component of a part, [sub], is the slice of the text that cssparser gives with an error of that part.
    What the builder does with the calls is Cascade.v. [None] is a panic. *)
From Coq Require Import Ascii String NArith.
From Verif Require Import Base Report.
Open Scope nat_scope.

Definition tx (s : string) : text := map N_of_ascii (list_ascii_of_string s).
Definition lower (c : char) : char := if ((65 <=? c) && (c <=? 90))%N then (c + 32)%N else c.
(** eq_ignore_ascii_case *)
Definition eq_ci (a b : text) : bool := if list_eq_dec N.eq_dec (map lower a) (map lower b) then true else false.

Record err := mkerr { e_code : nat; e_place : place }.
Definition improved (e : err) (sub : nat * nat) : err := mkerr (e_code e) (improve (e_place e) (fst sub) (snd sub)).

(** ** The parts of a sheet *)
(** what the parser of the value says; an accepted value of a property has the place of its `!important` *)
Inductive value := VGood (important : option (nat * nat)) | VBad (e : err).
Inductive ditem := Decl (id : nat) (name : text) (v : value) (sub : nat * nat) | Junk (e : err) (sub : nat * nat).
Definition selector := (nat + err)%type.
Inductive bitem := D (d : ditem) | N (sel : selector) (body : list bitem).
Inductive fitem := FDecl (name : text) (v : nat + err) (sub : nat * nat) | FJunk (e : err) (sub : nat * nat).
Inductive kitem := KFrame (body : list ditem) | KJunk (e : err) (sub : nat * nat).
(** what may stand in an @media or @layer block of a sheet *)
Inductive inner := IRule (sel : selector) (body : list bitem) | IBlock (l : list inner) | IOther (id : nat) | IJunk (e : err) (sub : nat * nat).
Inductive top := TInner (i : inner) | TFont (l : list fitem) | TKeyframes (name : nat) (l : list kitem).

(** ** Parsing *)
(** parser.rs:25-50 CssRulesetProperty: single, multiple and dynamic properties are [PProp]; [timing]: it is `animation-timing-function` *)
Inductive prop := PProp (id : nat) (important : option (nat * nat)) | PAnim (id : nat) (timing : bool) | PTrans (id : nat) | PVar (id : nat)
                | PNested (sel : selector) (l : list prop) | PError (e : err).

(** parser.rs:411-417; [None]: the slice does not end where a character does *)
Fixpoint cut (n : nat) (s : text) : text := match n with 0 => [] | _ => match s with [] => [] | c :: r => c :: cut (n - len8 c) r end end.
Definition prefix_ci (s p : text) : option bool :=
  if bytes s <? bytes p then Some false else if boundary (bytes p) s then Some (eq_ci (cut (bytes p) s) p) else None.

Definition one_of (name : text) (l : list string) : bool := existsb (fun s => eq_ci name (tx s)) l.
(** animations.rs:617-699, 715-766 *)
Definition animation_names : list string := ["animation"; "animation-name"; "animation-duration"; "animation-delay"; "animation-direction"; "animation-fill-mode";
  "animation-iteration-count"; "animation-play-state"; "animation-timing-function"]%string.
Definition transition_names : list string := ["transition"; "transition-property"; "transition-duration"; "transition-delay"; "transition-timing-function"]%string.

(** parser.rs:271-284: [rule]: of a rule, with all the flags; otherwise of a keyframe *)
Definition starts_custom (name : text) : bool := match name with a :: b :: _ => ((a =? 45) && (b =? 45))%N | _ => false end.
Definition code_unknown_animation := 100.
Definition code_unknown_transition := 101.
Definition code_duplicate_keyframes := 102.
Definition code_incomplete_font := 103.
Definition code_font_property := 104.

(** 419-456. The result of parse_value: inr is Err *)
Definition motion (known : bool) (code : nat) (v : value) (p : prop) : prop :=
  if known then match v with VGood _ => p | VBad e => PError e end else PError (mkerr code Unlocated).
Definition ordinary (id : nat) (v : value) : prop + err := match v with VGood i => inl (PProp id i) | VBad e => inr e end.
Definition parse_value (rule : bool) (id : nat) (name : text) (v : value) : option (prop + err) :=
  if rule then
    if starts_custom name then Some (inl (match v with VGood _ => PVar id | VBad e => PError e end))
    else match prefix_ci name (tx "transition") with
    | None => None
    | Some true => Some (inl (motion (one_of name transition_names) code_unknown_transition v (PTrans id)))
    | Some false =>
        match prefix_ci name (tx "animation") with
        | None => None
        | Some true => Some (inl (motion (one_of name animation_names) code_unknown_animation v (PAnim id (eq_ci name (tx "animation-timing-function")))))
        | Some false => Some (ordinary id v)
        end
    end
  else if eq_ci name (tx "animation-timing-function")
    then Some (inl (motion (one_of name animation_names) code_unknown_animation v (PAnim id (eq_ci name (tx "animation-timing-function")))))
    else Some (ordinary id v).
(** with 245-259 collect_parser *)
Definition parse_ditem (rule : bool) (d : ditem) : option prop :=
  match d with
  | Decl id name v sub => match parse_value rule id name v with None => None | Some (inl p) => Some p | Some (inr e) => Some (PError (improved e sub)) end
  | Junk e sub => Some (PError (improved e sub))
  end.

Fixpoint all {A} (l : list (option A)) : option (list A) :=
  match l with [] => Some [] | None :: _ => None | Some x :: r => option_map (cons x) (all r) end.
(** 370-408 *)
Fixpoint parse_bitem (b : bitem) : option prop :=
  match b with
  | D d => parse_ditem true d
  | N sel l => option_map (PNested sel) (all (map parse_bitem l))
  end.
Definition parse_body (l : list bitem) : option (list prop) := all (map parse_bitem l).

(** 70-80 CssStyleSheetItem *)
Inductive kframe := KValid (l : list prop) | KError (e : err).
Inductive item := ItInner (l : list item) | ItRule (sel : selector) (l : list prop) | ItFont (family source : nat) (errors : list err)
                | ItKeyframes (name : nat) (l : list kframe) | ItOther (id : nat) | ItError (e : err).

(** 497-516, 570-660 *)
Fixpoint parse_inner (i : inner) : option item :=
  match i with
  | IRule sel body => option_map (ItRule sel) (parse_body body)
  | IBlock l => option_map ItInner (all (map parse_inner l))
  | IOther id => Some (ItOther id)
  | IJunk e sub => Some (ItError (improved e sub))
  end.

(** font_face.rs:45-68, with collect_parser *)
Inductive fprop := FFamily (n : nat) | FSource (n : nat) | FError (e : err).
Definition parse_fitem (x : fitem) : fprop :=
  match x with
  | FDecl name v sub =>
      if eq_ci name (tx "font-family") then match v with inl n => FFamily n | inr e => FError (improved e sub) end
      else if eq_ci name (tx "src") then match v with inl n => FSource n | inr e => FError (improved e sub) end
      else FError (improved (mkerr code_font_property Unlocated) sub)
  | FJunk e sub => FError (improved e sub)
  end.
(** font_face.rs:109-145 *)
Fixpoint font_loop (family source : option nat) (errors : list err) (l : list fprop) : option nat * option nat * list err :=
  match l with
  | [] => (family, source, errors)
  | FFamily n :: r => font_loop (Some n) source errors r
  | FSource n :: r => font_loop family (Some n) errors r
  | FError e :: r => font_loop family source (errors ++ [e]) r
  end.
Definition parse_font (l : list fitem) : item :=
  match font_loop None None [] (map parse_fitem l) with
  | (Some family, Some source, errors) => ItFont family source errors
  | _ => ItError (mkerr code_incomplete_font Unlocated)
  end.

(** keyframes.rs:64-153; [seen]: declared_animations *)
Definition parse_kitem (k : kitem) : option kframe :=
  match k with
  | KFrame body => option_map KValid (all (map (parse_ditem false) body))
  | KJunk e sub => Some (KError (improved e sub))
  end.
Definition parse_keyframes (seen : list nat) (name : nat) (l : list kitem) : option (item * list nat) :=
  match all (map parse_kitem l) with
  | None => None
  | Some ks => if existsb (Nat.eqb name) seen then Some (ItError (mkerr code_duplicate_keyframes Unlocated), seen) else Some (ItKeyframes name ks, name :: seen)
  end.
Fixpoint parse_tops (seen : list nat) (l : list top) : option (list item) :=
  match l with
  | [] => Some []
  | TInner i :: r => match parse_inner i with None => None | Some x => option_map (cons x) (parse_tops seen r) end
  | TFont f :: r => option_map (cons (parse_font f)) (parse_tops seen r)
  | TKeyframes name k :: r => match parse_keyframes seen name k with None => None | Some (x, seen') => option_map (cons x) (parse_tops seen' r) end
  end.

(** ** Processing *)
Inductive call := CRuleset (path : list nat) | CDecl (id : nat) | CFont (family source : nat) | CKeyframes (name : nat) (ids : list nat) | COther (id : nat).
(** the report; error.rs:445-505 *)
Inductive rep := RError (code : nat) (range : nat * nat) | RAdvice (range : nat * nat).
Definition out := (list call * list rep)%type.
Definition add_error (c : text) (e : err) : option out := option_map (fun r => ([], [RError (e_code e) r])) (into_range (e_place e) c).
Definition advice (i : option (nat * nat)) : list rep := match i with Some r => [RAdvice r] | None => [] end.
Definition join (a b : out) : out := (fst a ++ fst b, snd a ++ snd b).
Fixpoint seq (l : list (option out)) : option out :=
  match l with [] => Some ([], []) | None :: _ => None | Some a :: r => option_map (join a) (seq r) end.

(** internal_loader.rs:97-115 *)
Fixpoint report_errors (c : text) (p : prop) : option out :=
  match p with
  | PNested sel l => seq (match sel with inr e => add_error c e | inl _ => Some ([], []) end :: map (report_errors c) l)
  | PError e => add_error c e
  | _ => Some ([], [])
  end.
(** 43-85, 117-170: a property of a rule with the selectors [path] *)
Fixpoint process_prop (c : text) (path : list nat) (p : prop) : option out :=
  match p with
  | PProp id i => Some ([CDecl id], advice i)
  | PAnim id _ | PTrans id | PVar id => Some ([CDecl id], [])
  | PError e => add_error c e
  | PNested (inl s) l => seq (Some ([CRuleset (path ++ [s])], []) :: map (process_prop c (path ++ [s])) l ++ [Some ([CRuleset path], [])])
  | PNested (inr e) l => seq (add_error c e :: map (report_errors c) l ++ [Some ([CRuleset path], [])])
  end.
Definition process_rule (c : text) (sel : selector) (l : list prop) : option out :=
  match sel with
  | inl s => seq (Some ([CRuleset [s]], []) :: map (process_prop c [s]) l)
  | inr e => seq (add_error c e :: map (report_errors c) l)
  end.
(** 196-290; other properties are unreachable!() *)
Definition process_kprop (c : text) (p : prop) : option (list nat * list rep) :=
  match p with
  | PProp id _ => Some ([id], [])
  | PAnim id timing => if timing then Some ([id], []) else None
  | PError e => option_map (fun o => ([], snd o)) (add_error c e)
  | _ => None
  end.
Fixpoint seq_k (l : list (option (list nat * list rep))) : option (list nat * list rep) :=
  match l with [] => Some ([], []) | None :: _ => None | Some a :: r => option_map (fun b => (fst a ++ fst b, snd a ++ snd b)) (seq_k r) end.
Definition process_kframe (c : text) (k : kframe) : option (list nat * list rep) :=
  match k with KValid l => seq_k (map (process_kprop c) l) | KError e => option_map (fun o => ([], snd o)) (add_error c e) end.
(** 172-295 *)
Fixpoint process (c : text) (i : item) : option out :=
  match i with
  | ItInner l => seq (map (process c) l)
  | ItRule sel l => process_rule c sel l
  | ItFont family source errors => seq (map (add_error c) errors ++ [Some ([CFont family source], [])])
  | ItKeyframes name l => option_map (fun o => ([CKeyframes name (fst o)], snd o)) (seq_k (map (process_kframe c) l))
  | ItOther id => Some ([COther id], [])
  | ItError e => add_error c e
  end.

(** 297-325; loader.rs:40-58 *)
Inductive mode := PrintWarn | PrintError | ReturnError | Ignore.
Inductive result := Loaded (calls : list call) (printed : list rep) | Failed (reports : list rep).
Definition is_error (r : rep) : bool := match r with RError _ _ => true | RAdvice _ => false end.
Definition finish (m : mode) (o : out) : result :=
  if existsb is_error (snd o) then
    match m with
    | PrintWarn | PrintError => Loaded (fst o) (snd o)
    | ReturnError => Failed (snd o)
    | Ignore => Loaded (fst o) []
    end
  else Loaded (fst o) (snd o).
(** the parser hands each item to the processor as soon as it has it; as a panic is all there is to see, the order does not matter *)
Definition load (m : mode) (c : text) (l : list top) : option result :=
  match parse_tops [] l with
  | None => None
  | Some items => option_map (finish m) (seq (map (process c) items))
  end.

(** ** A value that comes from var(): reflect.rs:61-80, shorthand.rs:158-182, animations.rs:544-558. [printed] is the text of the tokens the variables stand for. *)
Definition dynamic_value (printed : text) (parsed : nat + err) : option (nat + list rep) :=
  match parsed with inl v => Some (inl v) | inr e => option_map (fun o => inr (snd o)) (add_error printed e) end.

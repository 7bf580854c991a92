(** Model of the parsing of `animation` and `transition` values: crates/bevy_flair_css_parser/src/parser/animations.rs:221-540 and
    lib.rs:215-226 (parse_comma_separated_with).  Values come as trees of tokens without white space (VarText.v); every parser of one
    value takes exactly one tree.  A time is a rational number of seconds (the code: f32, then nanoseconds).  Timing functions are
    parsed by Easing.v. *)
From Coq Require Import Ascii String NArith ZArith QArith.
From Verif Require Import Base Vars VarText Media SheetText Easing Animation AnimProps.
Open Scope nat_scope.

(** crates/bevy_flair_style/src/animations/properties.rs:70-87 AnimationSpecificValue, with names as texts *)
Inductive pvalue := PName (s : text) | PTime (q : Q) | PDirection (d : animation_direction) | PFillMode (f : fill_mode)
| PCount (c : iteration_count) | PPlayState (s : play_state) | PTiming (e : easing).

(** animations.rs:240-267 parse_duration; Duration::from_secs_f32 panics from 2^64 seconds on *)
Definition too_long (q : Q) : bool := Qle_bool (inject_Z (2 ^ 64)) q.
Definition parse_duration (x : tree) : eresult pvalue :=
  match x with
  | Leaf (TDim d int u) =>
      if (Qle_bool 0 (dec_Q d) && same_name u (tx "s"))%bool then
        if too_long (dec_Q d) then EPanic else EOk (PTime (dec_Q d))
      else if (int && same_name u (tx "ms"))%bool then
        match size_of d with Some n => EOk (PTime (inject_Z (Z.of_N n) / 1000)%Q) | None => EErr end
      else EErr
  | _ => EErr
  end.
(** 269-280 *)
Definition parse_animation_name (x : tree) : eresult pvalue :=
  match x with Leaf (TIdent s) | Leaf (TString s) => EOk (PName s) | _ => EErr end.
(** 282-293 *)
Definition parse_property_name (x : tree) : eresult pvalue :=
  match x with Leaf (TIdent s) => EOk (PName s) | _ => EErr end.
(** 295-313 *)
Definition parse_iteration_count (x : tree) : eresult pvalue :=
  match x with
  | Leaf (TIdent s) => if same_name s (tx "infinite") then EOk (PCount Infinite) else EErr
  | Leaf (TNumber d true) => match size_of d with Some n => EOk (PCount (Count n)) | None => EErr end
  | _ => EErr
  end.
(** match_ignore_ascii_case! on an identifier *)
Fixpoint keyword {X} (s : text) (l : list (string * X)) : eresult X :=
  match l with [] => EErr | (k, v) :: r => if same_name s (tx k) then EOk v else keyword s r end.
Definition parse_keyword (l : list (string * pvalue)) (x : tree) : eresult pvalue :=
  match x with Leaf (TIdent s) => keyword s l | _ => EErr end.
(** 315-334 *)
Definition parse_animation_direction : tree -> eresult pvalue :=
  parse_keyword [("normal", PDirection DirNormal); ("reverse", PDirection DirReverse); ("alternate", PDirection DirAlternate);
                 ("alternate-reverse", PDirection DirAlternateReverse)]%string.
(** 336-351 *)
Definition parse_animation_fill_mode : tree -> eresult pvalue :=
  parse_keyword [("none", PFillMode FillNone); ("forwards", PFillMode FillForwards); ("backwards", PFillMode FillBackwards);
                 ("both", PFillMode FillBoth)]%string.
(** 353-366 *)
Definition parse_animation_play_state : tree -> eresult pvalue :=
  parse_keyword [("running", PPlayState PlayRunning); ("paused", PPlayState PlayPaused)]%string.
(** Trees as Easing.v takes them *)
Definition lower_string (s : text) : string := string_of_list_ascii (map lower s).
Fixpoint etok_of (x : tree) : etok :=
  match x with
  | Leaf (TIdent s) => EIdent (lower_string s)
  | Leaf (TNumber d int) => ENumber (dec_Q d) (if int then Some (Z.max (- 2147483648) (Z.min (mant d) 2147483647)) else None)
  | Leaf (TPercent d) => EPercent (dec_Q d)
  | Leaf TComma => EComma
  | Fun s l => EFunction (lower_string s) (map etok_of l)
  | _ => EOther
  end.
(** 173-218 parse_easing_function *)
Definition parse_easing_function (x : tree) : eresult pvalue :=
  match parse_easing (etok_of x) with EOk e => EOk (PTiming e) | EErr => EErr | EPanic => EPanic end.

Section Pick.
  Context {P : Type} (pdec : forall a b : P, {a = b} + {a <> b}).
  (** contains_property *)
  Definition contains (r : list (P * pvalue)) (p : P) : bool := if in_dec pdec p (map fst r) then true else false.
  (** `if !contains_property(&result, p) && let Ok(v) = parser.try_parse_with(parse)`; if not, go on with [k] *)
  Definition attempt (r : list (P * pvalue)) (p : P) (parse : tree -> eresult pvalue) (x : tree) (k : eresult (P * pvalue)) : eresult (P * pvalue) :=
    if contains r p then k else match parse x with EOk v => EOk (p, v) | EErr => k | EPanic => EPanic end.
  (** `if !contains(duration) { if let Ok(..) } else if !contains(delay) && let Ok(..)` *)
  Definition attempt_times (r : list (P * pvalue)) (duration delay : P) (x : tree) (k : eresult (P * pvalue)) : eresult (P * pvalue) :=
    if contains r duration then attempt r delay parse_duration x k else attempt r duration parse_duration x k.
End Pick.

(** 368-454 parse_animation_shorthand.  The first five kinds `continue` the loop; *)
Definition animation_early (r : list (animation_property * pvalue)) (x : tree) : eresult (animation_property * pvalue) :=
  attempt_times aprop_dec r ADuration ADelay x
  (attempt aprop_dec r ADirection parse_animation_direction x
  (attempt aprop_dec r AFillMode parse_animation_fill_mode x
  (attempt aprop_dec r AIterationCount parse_iteration_count x EErr))).
(** 435-451: the last two *)
Definition animation_late (r : list (animation_property * pvalue)) (x : tree) : eresult (animation_property * pvalue) :=
  attempt aprop_dec r ATimingFunction parse_easing_function x
  (attempt aprop_dec r AName parse_animation_name x EErr).
(** 426-433: after a play state there is no `continue`: what follows it is only tried as a timing function and as a name.
    The result: what is assigned, and what is left over. *)
Fixpoint animation_shorthand (r : list (animation_property * pvalue)) (l : list tree) : eresult (list (animation_property * pvalue) * list tree) :=
  match l with
  | [] => EOk (r, [])
  | x :: rest =>
      match animation_early r x with
      | EPanic => EPanic
      | EOk a => animation_shorthand (r ++ [a]) rest
      | EErr =>
          match attempt aprop_dec r APlayState parse_animation_play_state x EErr with
          | EOk a =>
              let r := r ++ [a] in
              match rest with
              | [] => EOk (r, [])
              | y :: rest' => match animation_late r y with EPanic => EPanic | EOk b => animation_shorthand (r ++ [b]) rest' | EErr => EOk (r, rest) end
              end
          | _ => match animation_late r x with EPanic => EPanic | EOk b => animation_shorthand (r ++ [b]) rest | EErr => EOk (r, l) end
          end
      end
  end.
(** 456-519 parse_transition_shorthand *)
Definition transition_pick (r : list (transition_property * pvalue)) (x : tree) : eresult (transition_property * pvalue) :=
  attempt_times tprop_dec r TDuration TDelay x
  (attempt tprop_dec r TTimingFunction parse_easing_function x
  (attempt tprop_dec r TName parse_property_name x EErr)).
Fixpoint transition_shorthand (r : list (transition_property * pvalue)) (l : list tree) : eresult (list (transition_property * pvalue) * list tree) :=
  match l with
  | [] => EOk (r, [])
  | x :: rest => match transition_pick r x with EPanic => EPanic | EOk a => transition_shorthand (r ++ [a]) rest | EErr => EOk (r, l) end
  end.

Section Values.
  Context {X : Type} (parse_one : list tree -> eresult (X * list tree)).
  (** lib.rs:215-226 parse_comma_separated_with *)
  Fixpoint comma_separated_f (fuel : nat) (l : list tree) : eresult (list X * list tree) :=
    match fuel with
    | 0 => EErr
    | S fuel =>
        match parse_one l with
        | EOk (v, Leaf TComma :: rest) => match comma_separated_f fuel rest with EOk (vs, rest') => EOk (v :: vs, rest') | EErr => EErr | EPanic => EPanic end
        | EOk (v, rest) => EOk ([v], rest)
        | EErr => EErr | EPanic => EPanic
        end
    end.
  (** 521-532 parse_animation_values; utils.rs:96-102 try_parse_important_level; everything has to be consumed *)
  Definition animation_values (l : list tree) : eresult (list X) :=
    match comma_separated_f (S (length l)) l with
    | EOk (vs, rest) => match rest with
                        | [] => EOk vs
                        | [_; _] => if important rest then EOk vs else EErr
                        | _ => EErr
                        end
    | EErr => EErr | EPanic => EPanic
    end.
End Values.
(** a longhand: one value *)
Definition single (parse : tree -> eresult pvalue) (l : list tree) : eresult (pvalue * list tree) :=
  match l with [] => EErr | x :: rest => match parse x with EOk v => EOk (v, rest) | EErr => EErr | EPanic => EPanic end end.

(** 594-692 parse_animation_property and 694-767 parse_transition_property: a declaration by its value.
    [none] is the name of no animation.  Values with variables in them: see Vars.v and VarText.v. *)
Inductive parsed_declaration (P : Type) := PShorthand (l : list (list (P * pvalue))) | PSingle (p : P) (l : list pvalue).
Arguments PShorthand {P}. Arguments PSingle {P}.
Definition emap {X Y} (f : X -> Y) (e : eresult X) : eresult Y := match e with EOk x => EOk (f x) | EErr => EErr | EPanic => EPanic end.
Definition none_value (l : list tree) : bool :=
  match l with
  | Leaf (TIdent s) :: rest => (same_name s (tx "none") && match rest with [] => true | [_; _] => important rest | _ => false end)%bool
  | _ => false
  end.
Definition starts_none (l : list tree) : bool := match l with Leaf (TIdent s) :: _ => same_name s (tx "none") | _ => false end.
Definition names (parse : tree -> eresult pvalue) (l : list tree) : eresult (list pvalue) :=
  if starts_none l then if none_value l then EOk [] else EErr else animation_values (single parse) l.
Definition animation_declaration (name : text) (l : list tree) : eresult (parsed_declaration animation_property) :=
  let is s := same_name name (tx s) in
  if is "animation"%string then emap PShorthand (animation_values (animation_shorthand []) l)
  else if is "animation-name"%string then emap (PSingle AName) (names parse_animation_name l)
  else if is "animation-duration"%string then emap (PSingle ADuration) (animation_values (single parse_duration) l)
  else if is "animation-delay"%string then emap (PSingle ADelay) (animation_values (single parse_duration) l)
  else if is "animation-direction"%string then emap (PSingle ADirection) (animation_values (single parse_animation_direction) l)
  else if is "animation-fill-mode"%string then emap (PSingle AFillMode) (animation_values (single parse_animation_fill_mode) l)
  else if is "animation-iteration-count"%string then emap (PSingle AIterationCount) (animation_values (single parse_iteration_count) l)
  else if is "animation-play-state"%string then emap (PSingle APlayState) (animation_values (single parse_animation_play_state) l)
  else if is "animation-timing-function"%string then emap (PSingle ATimingFunction) (animation_values (single parse_easing_function) l)
  else EErr.
Definition transition_declaration (name : text) (l : list tree) : eresult (parsed_declaration transition_property) :=
  let is s := same_name name (tx s) in
  if is "transition"%string then emap PShorthand (animation_values (transition_shorthand []) l)
  else if is "transition-property"%string then emap (PSingle TName) (names parse_property_name l)
  else if is "transition-duration"%string then emap (PSingle TDuration) (animation_values (single parse_duration) l)
  else if is "transition-delay"%string then emap (PSingle TDelay) (animation_values (single parse_duration) l)
  else if is "transition-timing-function"%string then emap (PSingle TTimingFunction) (animation_values (single parse_easing_function) l)
  else EErr.

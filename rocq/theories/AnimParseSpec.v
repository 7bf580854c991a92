(** What the values of `animation` and `transition` should mean: C80. *)
From Coq Require Import Ascii String NArith ZArith QArith Permutation.
From Verif Require Import Base Vars VarText Media SheetText Easing Animation AnimProps AnimParse.
Open Scope nat_scope.

(** the identifier [s], in any case *)
Definition is_word (x : tree) (s : string) : Prop := exists w, x = Leaf (TIdent w) /\ same_name w (tx s) = true.
(** a time of [q] seconds: seconds, or whole milliseconds up to the largest integer there is, 2^31 - 1 *)
Inductive is_time : tree -> Q -> Prop :=
| time_s : forall d int u, same_name u (tx "s") = true -> (0 <= dec_Q d)%Q -> is_time (Leaf (TDim d int u)) (dec_Q d)
| time_ms : forall n u, same_name u (tx "ms") = true -> is_time (Leaf (TDim (mkdec (Z.of_N n) 0) true u)) (inject_Z (Z.of_N (N.min n 2147483647)) / 1000).

(** the longhands and the single values each of them has *)
Inductive accepts : animation_property -> tree -> pvalue -> Prop :=
| acc_duration : forall x q, is_time x q -> accepts ADuration x (PTime q)
| acc_delay : forall x q, is_time x q -> accepts ADelay x (PTime q)
| acc_direction : forall x s d, is_word x s ->
    In (s, d) [("normal", DirNormal); ("reverse", DirReverse); ("alternate", DirAlternate); ("alternate-reverse", DirAlternateReverse)]%string ->
    accepts ADirection x (PDirection d)
| acc_fill : forall x s f, is_word x s ->
    In (s, f) [("none", FillNone); ("forwards", FillForwards); ("backwards", FillBackwards); ("both", FillBoth)]%string ->
    accepts AFillMode x (PFillMode f)
| acc_infinite : forall x, is_word x "infinite" -> accepts AIterationCount x (PCount Infinite)
| acc_count : forall n, accepts AIterationCount (Leaf (TNumber (mkdec (Z.of_N n) 0) true)) (PCount (Count (N.min n 2147483647)))
| acc_play : forall x s p, is_word x s -> In (s, p) [("running", PlayRunning); ("paused", PlayPaused)]%string -> accepts APlayState x (PPlayState p)
| acc_timing : forall x e, parse_easing (etok_of x) = EOk e -> accepts ATimingFunction x (PTiming e)
| acc_ident : forall s, accepts AName (Leaf (TIdent s)) (PName s)
| acc_string : forall s, accepts AName (Leaf (TString s)) (PName s).
Inductive taccepts : transition_property -> tree -> pvalue -> Prop :=
| tacc_duration : forall x q, is_time x q -> taccepts TDuration x (PTime q)
| tacc_delay : forall x q, is_time x q -> taccepts TDelay x (PTime q)
| tacc_timing : forall x e, parse_easing (etok_of x) = EOk e -> taccepts TTimingFunction x (PTiming e)
| tacc_ident : forall s, taccepts TName (Leaf (TIdent s)) (PName s).

(** What one item of a shorthand means: every word goes to a longhand that has it as a value and has none yet; the first time is the
    duration, the second one the delay; only what no other longhand can take is the name. *)
Section Means.
  Context {P : Type} (accepts : P -> tree -> pvalue -> Prop) (duration delay name : P).
  Inductive means : list tree -> list (P * pvalue) -> Prop :=
  | means_nil : means [] []
  | means_snoc : forall l r x p v, means l r -> accepts p x v -> ~ In p (map fst r) ->
      (p = delay -> In duration (map fst r)) ->
      (p = name -> forall p' v', p' <> name -> accepts p' x v' -> In p' (map fst r)) ->
      means (l ++ [x]) (r ++ [(p, v)]).
End Means.
Definition animation_means := means accepts ADuration ADelay AName.
Definition transition_means := means taccepts TDuration TDelay TName.

(** parts with commas between them, and maybe `!important` at the end *)
Fixpoint join (parts : list (list tree)) : list tree :=
  match parts with [] => [] | [p] => p | p :: r => p ++ Leaf TComma :: join r end.
Definition bang (l : list tree) : Prop := l = [] \/ exists c s, l = [Leaf (TDelim c); Leaf (TIdent s)] /\ c = "!"%char /\ same_name s (tx "important") = true.
Definition comma_list (parts : list (list tree)) (l : list tree) : Prop := exists b, bang b /\ parts <> [] /\ l = join parts ++ b.

(** no time of 2^64 seconds or more, no timing function whose parsing panics (Easing.v) *)
Definition calm (x : tree) : Prop :=
  (forall q, is_time x q -> (q < inject_Z (2 ^ 64))%Q) /\ parse_easing (etok_of x) <> EPanic.
(** no play state directly in front of a time, a direction, a fill mode or a count *)
Definition well_ordered (l : list tree) : Prop :=
  forall l1 x y l2 s p v, l = l1 ++ x :: y :: l2 -> accepts APlayState x s -> accepts p y v ->
    ~ In p [ADuration; ADelay; ADirection; AFillMode; AIterationCount].
(** no direction, fill mode, count, play state or timing function twice *)
Definition no_repeats {P} (accepts : P -> tree -> pvalue -> Prop) (repeatable : list P) (l : list tree) : Prop :=
  forall l1 x l2 y l3 p v v', l = l1 ++ x :: l2 ++ y :: l3 -> accepts p x v -> accepts p y v' -> In p repeatable.
(** the numbers with units, in their order *)
Definition has_unit (x : tree) : bool := match x with Leaf (TDim _ _ _) => true | _ => false end.
Definition reordered (l l' : list tree) : Prop := Permutation l l' /\ filter has_unit l = filter has_unit l'.
(** the properties for single longhands *)
Definition longhand_name (p : animation_property) : string :=
  match p with AName => "animation-name" | ADuration => "animation-duration" | ADelay => "animation-delay" | ADirection => "animation-direction"
  | AFillMode => "animation-fill-mode" | AIterationCount => "animation-iteration-count" | APlayState => "animation-play-state" | ATimingFunction => "animation-timing-function" end.
Definition tlonghand_name (p : transition_property) : string :=
  match p with TName => "transition-property" | TDuration => "transition-duration" | TDelay => "transition-delay" | TTimingFunction => "transition-timing-function" end.
(** one value between two commas *)
Definition one_value (acc : tree -> pvalue -> Prop) (part : list tree) (v : pvalue) : Prop := exists x, part = [x] /\ acc x v.

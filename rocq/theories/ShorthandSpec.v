(** Specification of the shorthand properties (C63, C64, C65), from the CSS property tables. *)
From Coq Require Import Ascii String QArith Permutation.
From Verif Require Import Base Shorthand.
Open Scope list_scope.

(** The longhands of each shorthand (of boxes clockwise from the top, or from the top left corner); images and gradients are the
    two longhands of this library behind `background-image` *)
Definition table : list (string * list string) :=
  [ ("margin", ["margin-top"; "margin-right"; "margin-bottom"; "margin-left"]);
    ("padding", ["padding-top"; "padding-right"; "padding-bottom"; "padding-left"]);
    ("border-width", ["border-top-width"; "border-right-width"; "border-bottom-width"; "border-left-width"]);
    ("border-color", ["border-top-color"; "border-right-color"; "border-bottom-color"; "border-left-color"]);
    ("border-radius", ["border-top-left-radius"; "border-top-right-radius"; "border-bottom-right-radius"; "border-bottom-left-radius"]);
    ("border", ["border-top-width"; "border-right-width"; "border-bottom-width"; "border-left-width"; "border-top-color"; "border-right-color"; "border-bottom-color"; "border-left-color"]);
    ("border-top", ["border-top-width"; "border-top-color"]);
    ("border-right", ["border-right-width"; "border-right-color"]);
    ("border-bottom", ["border-bottom-width"; "border-bottom-color"]);
    ("border-left", ["border-left-width"; "border-left-color"]);
    ("overflow", ["overflow-x"; "overflow-y"]);
    ("outline", ["outline-width"; "outline-color"]);
    ("flex", ["flex-grow"; "flex-shrink"; "flex-basis"]);
    ("place-items", ["align-items"; "justify-items"]);
    ("gap", ["row-gap"; "column-gap"]);
    ("background-image", ["-bevy-image"; "-bevy-background-gradient"]);
    ("background", ["background-color"; "-bevy-image"; "-bevy-background-gradient"]);
    ("grid-template", ["grid-template-rows"; "grid-template-columns"]);
    ("grid", ["grid-template-rows"; "grid-template-columns"; "grid-auto-rows"; "grid-auto-columns"; "grid-auto-flow"]);
    ("transform", ["translate"; "scale"; "rotate"]) ]%string.
Definition longhands (name : string) : list string := match find (fun e => String.eqb name (fst e)) table with Some e => snd e | None => [] end.
Definition shorthands : list string := map fst table.

Section V.
  Context {V : Type}.
  (** The CSS-wide keywords *)
  Definition keyword (s : string) : option (pv V) :=
    if String.eqb s "inherit" then Some Inherit else if String.eqb s "initial" then Some Initial else if String.eqb s "unset" then Some Unset else None.
  (** One component: a keyword or a value read by [p] *)
  Definition component (p : list tok -> option (V * list tok)) (ts : list tok) : option (pv V * list tok) :=
    match ts with
    | Ident s :: r => match keyword s with Some k => Some (k, r) | None => option_map (fun x => (Value (fst x), snd x)) (p ts) end
    | _ => option_map (fun x => (Value (fst x), snd x)) (p ts)
    end.
  (** The text is a sequence of components *)
  Inductive sequence {X : Type} (p : list tok -> option (X * list tok)) : list tok -> list X -> Prop :=
  | sequence_nil : sequence p [] []
  | sequence_cons ts v r vs : p ts = Some (v, r) -> sequence p r vs -> sequence p ts (v :: vs).
  Definition starts_with_keyword (ts : list tok) : bool := match ts with Ident s :: _ => match keyword s with Some _ => true | None => false end | _ => false end.
  (** The one to four values rule: omitted right is top, omitted bottom is top, omitted left is right *)
  Definition box_sides (v1 : pv V) (more : list (pv V)) : list (pv V) :=
    let right := nth 0 more v1 in [v1; right; nth 1 more v1; nth 2 more right].
End V.
(** The shorthands that follow that rule *)
Definition boxes : list string := ["margin"; "padding"; "border-width"; "border-color"; "border-radius"]%string.
Definition width_keyword (ts : list tok) : bool := match ts with Ident s :: _ => existsb (String.eqb s) ["none"; "thin"; "medium"; "thick"]%string | _ => false end.

Section Meaning.
  Context {V : Type}.
  Notation parser := (list tok -> option (V * list tok)).
  Variables calc_val calc_f32 calc_angle plain_val : parser.
  Variables v_zero v_auto v_percent0 : V.
  Variable v_float : Q -> V.
  Variable v_pair : V -> V -> V.
  Definition starts_with_number (ts : list tok) : Prop := match ts with Number _ :: _ => True | _ => False end.
  (** `flex`: none | <grow> <shrink>? <basis>? | <basis> *)
  Inductive flex_text : list tok -> Q -> Q -> V -> Prop :=
  | flex_none : flex_text [Ident "none"] 0 0 v_auto
  | flex_grow g : flex_text [Number g] g 1 v_percent0
  | flex_grow_shrink g s : flex_text [Number g; Number s] g s v_percent0
  | flex_grow_basis g r b : ~ starts_with_number r -> plain_val r = Some (b, []) -> flex_text (Number g :: r) g 1 b
  | flex_all g s r b : plain_val r = Some (b, []) -> flex_text (Number g :: Number s :: r) g s b
  | flex_basis ts b : ~ starts_with_number ts -> (forall r, ts <> Ident "none" :: r) -> plain_val ts = Some (b, []) -> flex_text ts 1 1 b.
  (** The functions of `transform` *)
  Inductive translation : tok -> V -> Prop :=
  | translation_one args x : calc_val args = Some (x, []) -> translation (Fn "translate" args) (v_pair x v_zero)
  | translation_two args x r y : calc_val args = Some (x, Comma :: r) -> calc_val r = Some (y, []) -> translation (Fn "translate" args) (v_pair x y)
  | translation_x args x : calc_val args = Some (x, []) -> translation (Fn "translatex" args) (v_pair x v_zero)
  | translation_y args y : calc_val args = Some (y, []) -> translation (Fn "translatey" args) (v_pair v_zero y).
  Inductive scaling : tok -> V -> Prop :=
  | scaling_one args x : calc_f32 args = Some (x, []) -> scaling (Fn "scale" args) (v_pair x x)
  | scaling_two args x r y : calc_f32 args = Some (x, Comma :: r) -> calc_f32 r = Some (y, []) -> scaling (Fn "scale" args) (v_pair x y)
  | scaling_x args x : calc_f32 args = Some (x, []) -> scaling (Fn "scalex" args) (v_pair x (v_float 1))
  | scaling_y args y : calc_f32 args = Some (y, []) -> scaling (Fn "scaley" args) (v_pair (v_float 1) y).
  Inductive rotation : tok -> V -> Prop :=
  | rotation_plain args x : calc_angle args = Some (x, []) -> rotation (Fn "rotate" args) x
  | rotation_z args x : calc_angle args = Some (x, []) -> rotation (Fn "rotatez" args) x.
  (** at most one function of a kind *)
  Inductive optional (f : tok -> V -> Prop) : list tok -> option V -> Prop :=
  | optional_none : optional f [] None
  | optional_some t v : f t v -> optional f [t] (Some v).
End Meaning.

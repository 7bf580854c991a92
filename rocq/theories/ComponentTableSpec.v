(** What it means that CSS properties are set on an entity. *)
From Coq Require Import Ascii String.
From Coq Require Import NArith.
From Verif Require Import Base Reflect ReflectSpec ComponentTable.
Open Scope nat_scope.
Open Scope string_scope.
Open Scope list_scope.

(** The registrations [R] are those of the table, whatever the types [T] of the fields are: each component has a type that has
    the listed fields (others are possible), and a default of that type. *)
Record set_up (T : string -> ty) (types : list ty) (R : list registration) : Prop := mkset_up {
  su_length : List.length R = List.length (components T);
  su_types : List.length types = List.length (components T);
  su_distinct : NoDup (map r_type R);
  su_each : forall i c r t, nth_error (components T) i = Some c -> nth_error R i = Some r -> nth_error types i = Some t ->
    r_props r = properties_of (c_decl c) /\ r_auto r = c_auto c /\ proper t /\ declares t (c_decl c) /\ typed t (r_default r) }.
(** The components of the entity have their types. *)
Definition typed_entity (types : list ty) (R : list registration) (e : entity) : Prop :=
  forall i r t c, nth_error R i = Some r -> nth_error types i = Some t -> comps e (r_type r) = Some c -> typed t c.
(** [p] is the property with the CSS name [css], and it is one of the component [c]. *)
Definition named (T : string -> ty) (css : string) (c : component) (p : property) : Prop :=
  exists k, resolve T css = Some (c_name c, k) /\ nth_error (properties_of (c_decl c)) k = Some p.
(** The values [m] of the CSS properties have the types of their properties. *)
Definition typed_values (T : string -> ty) (m : string -> option rv) : Prop :=
  forall css c p v, In c (components T) -> named T css c p -> m css = Some v -> typed (p_type p) v.
(** The CSS name of the property [k] of [c], if it has one. *)
Definition css_at (T : string -> ty) (c : component) (k : nat) : option string :=
  find (fun css => match resolve T css with Some (n, j) => String.eqb n (c_name c) && Nat.eqb j k | None => false end) (map fst css_table).
(** The values as changes of the properties of [c] (systems.rs:1225-1230; the parser has resolved the names). *)
Definition changes_of (T : string -> ty) (m : string -> option rv) (c : component) : list (option rv) :=
  map (fun k => match css_at T c k with Some css => m css | None => None end) (seq 0 (List.length (properties_of (c_decl c)))).
(** [new] is [old] with the CSS properties of [c] set to [m] *)
Definition css_set (T : string -> ty) (m : string -> option rv) (c : component) (old new : rv) : Prop :=
  (forall css p, named T css c p ->
     match m css with
     | Some v => exists o n, get_value p old = Some o /\ set_over o v n /\ get_value p new = Some n /\ (without_lists (p_type p) -> n = v)
     | None => get_value p new = get_value p old
     end) /\
  (forall q, (forall css p v, named T css c p -> m css = Some v -> apart (p_path p) q) -> element q new = element q old).
(** some CSS property of [c] has a value *)
Definition touched (T : string -> ty) (m : string -> option rv) (c : component) : Prop := exists css p v, named T css c p /\ m css = Some v.

(** What a CSS property stands for: the component, and the name of the field with dashes between the words, as CSS writes it (the
    component itself: no name).  Most are the field of Node with the same name. *)
Definition irregular : list (string * (string * string)) :=
  [("position", ("Node", "position-type")); ("-bevy-scrollbar-width", ("Node", "scrollbar-width")); ("border-left-width", ("Node", "border-left"));
   ("border-right-width", ("Node", "border-right")); ("border-top-width", ("Node", "border-top")); ("border-bottom-width", ("Node", "border-bottom"));
   ("border-top-left-radius", ("Node", "border-radius-top-left")); ("border-top-right-radius", ("Node", "border-radius-top-right")); ("border-bottom-left-radius", ("Node", "border-radius-bottom-left"));
   ("border-bottom-right-radius", ("Node", "border-radius-bottom-right")); ("background-color", ("BackgroundColor", "0")); ("border-top-color", ("BorderColor", "top"));
   ("border-right-color", ("BorderColor", "right")); ("border-bottom-color", ("BorderColor", "bottom")); ("border-left-color", ("BorderColor", "left"));
   ("outline-width", ("Outline", "width")); ("outline-offset", ("Outline", "offset")); ("outline-color", ("Outline", "color"));
   ("box-shadow", ("BoxShadow", "")); ("z-index", ("ZIndex", "")); ("translate", ("UiTransform", "translation"));
   ("scale", ("UiTransform", "scale")); ("rotate", ("UiTransform", "rotation")); ("-bevy-background-gradient", ("BackgroundGradient", ""));
   ("border-image", ("BorderGradient", "")); ("-bevy-image", ("ImageNode", "image")); ("-bevy-image-color", ("ImageNode", "color"));
   ("-bevy-image-mode", ("ImageNode", "image-mode")); ("-bevy-image-rect", ("ImageNode", "rect")); ("color", ("TextColor", "0"));
   ("font-family", ("TextFont", "font")); ("font-size", ("TextFont", "font-size")); ("line-height", ("LineHeight", ""));
   ("-bevy-font-smooth", ("TextFont", "font-smoothing")); ("text-align", ("TextLayout", "justify")); ("-bevy-line-break", ("TextLayout", "linebreak"));
   ("content", ("TextSpan", "0")); ("text-shadow", ("TextShadow", ""))].
Definition stands_for (css : string) : string * string := match lookup css irregular with Some x => x | None => ("Node", css) end.
(** Fields without a CSS name. *)
Definition without_css : list (string * string) := [("ImageNode", "texture-atlas"); ("ImageNode", "flip-x"); ("ImageNode", "flip-y")].
(** the path of a field, written with dashes *)
Definition is_sep (a : ascii) : bool := Ascii.eqb a "_" || Ascii.eqb a ".".
Fixpoint dashes (s : string) : string := match s with EmptyString => EmptyString | String a s => String (if is_sep a then "-"%char else a) (dashes s) end.
Definition in_words (p : path) : string := match dashes (show_path p) with EmptyString => EmptyString | String _ s => s end.

(** Model of the shorthand properties: crates/bevy_flair_css_parser/src/shorthand.rs:88-1090 and
    crates/bevy_flair_css_parser/src/parser.rs:139-170, with crates/bevy_flair_css_parser/src/utils.rs:7-20, 45-85, 98-130.
    The parsers of single values (lengths with calc(), colours, keywords, tracks, images, gradients) are arbitrary functions
    from the tokens ahead to a value and the tokens left. Identifiers are given in lower case, as every comparison with
    them ignores case. The optional `!important` behind the value is taken to be stripped. Error messages are not modelled. *)
From Coq Require Import Ascii String QArith.
From Verif Require Import Base.
Open Scope list_scope.

Inductive tok := Ident (s : string) | Number (q : Q) | Slash | Comma | Fn (name : string) (args : list tok) | Other (n : nat).

(** core: PropertyValue, as far as a declaration can produce it *)
Inductive pv (V : Type) := Value (v : V) | Inherit | Initial | Unset.
Arguments Value {V}. Arguments Inherit {V}. Arguments Initial {V}. Arguments Unset {V}.

(** Result of a shorthand: `todo!` is [Panic] *)
Inductive res (X : Type) := Ok (x : X) | Err | Panic.
Arguments Ok {X}. Arguments Err {X}. Arguments Panic {X}.

Section S.
  Context {V : Type}.
  Notation parser X := (list tok -> option (X * list tok)).
  (** calc'ed lengths and numbers, plain lengths, colours, angles; keywords of the three enums; images, gradients, tracks *)
  Variables calc_val calc_f32 calc_angle plain_val color : parser V.
  Variables overflow_axis align_items justify_items : parser (pv V).
  Variables image gradient track_vec repeated_track_vec : parser V.
  (** constants: Val::ZERO, 1px, 2px, 5px, Val::Auto, 0%; a float; Vec2/Val2 of two values; GridTrack::auto(), no tracks; grid auto flow; a list of gradients *)
  Variables v_zero v_thin v_medium v_thick v_auto v_percent0 v_auto_track v_no_tracks : V.
  Variable v_float : Q -> V.
  Variable v_pair : V -> V -> V.
  Variable v_flow : bool -> bool -> V. (* row?, dense? *)
  Variable v_gradients : list V -> V.

  Notation assignment := (string * pv V)%type.
  Notation assignments := (list (string * pv V)).

  (** Result monad over the tokens ahead *)
  Definition pbind {X Y} (p : parser X) (f : X -> parser Y) : parser Y := fun ts => match p ts with Some (x, r) => f x r | None => None end.
  Definition pret {X} (x : X) : parser X := fun ts => Some (x, ts).
  (** try_parse_with(p).ok(): resets on failure *)
  Definition ptry {X} (p : parser X) : parser (option X) := fun ts => match p ts with Some (x, r) => Some (Some x, r) | None => Some (None, ts) end.
  Definition expect_ident (s : string) : parser unit := fun ts => match ts with Ident t :: r => if String.eqb s t then Some (tt, r) else None | _ => None end.
  Definition expect_slash : parser unit := fun ts => match ts with Slash :: r => Some (tt, r) | _ => None end.
  Definition expect_comma : parser unit := fun ts => match ts with Comma :: r => Some (tt, r) | _ => None end.
  Definition expect_number : parser Q := fun ts => match ts with Number q :: r => Some (q, r) | _ => None end.
  (** Parser::parse_entirely / parse_nested_block: nothing may be left *)
  Definition entirely {X} (p : parser X) (ts : list tok) : option X := match p ts with Some (x, []) => Some x | _ => None end.

  (** utils.rs:7-20 parse_property_global_keyword *)
  Definition global_keyword : parser (pv V) := fun ts =>
    match ts with
    | Ident s :: r => if String.eqb s "unset" then Some (Unset, r) else if String.eqb s "inherit" then Some (Inherit, r)
                      else if String.eqb s "initial" then Some (Initial, r) else None
    | _ => None
    end.
  (** utils.rs:45-55 parse_property_value_with, calc.rs:351-365 parse_calc_property_value_with *)
  Definition property_value (p : parser V) : parser (pv V) :=
    pbind (ptry global_keyword) (fun k => match k with Some v => pret v | None => pbind p (fun v => pret (Value v)) end).

  (** shorthand.rs:274-302 parse_four_values: up to three more values, then the expansion *)
  Fixpoint more (n : nat) (p : parser (pv V)) (acc : list (pv V)) : parser (list (pv V)) := fun ts =>
    match n with
    | O => Some (acc, ts)
    | S n => match p ts with Some (v, r) => more n p (acc ++ [v]) r | None => Some (acc, ts) end
    end.
  Definition expand4 (vs : list (pv V)) : option (pv V * pv V * pv V * pv V) :=
    match vs with
    | [a] => Some (a, a, a, a)
    | [a; b] => Some (a, b, a, b)
    | [a; b; c] => Some (a, b, c, b)
    | [a; b; c; d] => Some (a, b, c, d)
    | _ => None (* unreachable!() *)
    end.
  Definition four_values (p : parser (pv V)) : parser (pv V * pv V * pv V * pv V) :=
    pbind p (fun v => pbind (more 3 p [v]) (fun vs ts => match expand4 vs with Some x => Some (x, ts) | None => None end)).
  (** 255-272 *)
  Definition four_lengths := four_values (property_value calc_val).
  Definition four_colors := four_values (property_value color).

  Definition lift (p : parser assignments) (ts : list tok) : res (assignments * list tok) := match p ts with Some x => Ok x | None => Err end.

  (** 350-358 parse_ui_rect *)
  Definition parse_ui_rect (name : string) : parser assignments :=
    pbind four_lengths (fun '(top, rgt, bottom, lft) =>
      pret [(String.append name "-left", lft); (String.append name "-right", rgt); (String.append name "-top", top); (String.append name "-bottom", bottom)]).
  (** 398-406 parse_border_color, 408-417 parse_border_radius *)
  Definition parse_border_color : parser assignments :=
    pbind four_colors (fun '(top, rgt, bottom, lft) =>
      pret [("border-top-color", top); ("border-right-color", rgt); ("border-bottom-color", bottom); ("border-left-color", lft)])%string.
  Definition parse_border_radius : parser assignments :=
    pbind four_lengths (fun '(top_left, top_right, bottom_right, bottom_left) =>
      pret [("border-top-left-radius", top_left); ("border-top-right-radius", top_right); ("border-bottom-left-radius", bottom_left); ("border-bottom-right-radius", bottom_right)])%string.
  (** 537-548 parse_width_ident *)
  Definition width_ident : parser V := fun ts =>
    match ts with
    | Ident s :: r => if String.eqb s "none" then Some (v_zero, r) else if String.eqb s "thin" then Some (v_thin, r)
                      else if String.eqb s "medium" then Some (v_medium, r) else if String.eqb s "thick" then Some (v_thick, r) else None
    | _ => None
    end.
  (** 511-530 parse_border_width *)
  Definition parse_border_width : parser assignments :=
    pbind (ptry width_ident) (fun w =>
      match w with
      | Some w => pret [("border-left-width", Value w); ("border-right-width", Value w); ("border-top-width", Value w); ("border-bottom-width", Value w)]
      | None => pbind four_lengths (fun '(top, rgt, bottom, lft) =>
          pret [("border-left-width", lft); ("border-right-width", rgt); ("border-top-width", top); ("border-bottom-width", bottom)])
      end)%string.

  (** 316-348 parse_simple_shorthand_property with two properties; [use_previous] belongs to the second *)
  Definition simple2 (n1 : string) (p1 : parser (pv V)) (n2 : string) (use_previous : bool) (p2 : parser (pv V)) : parser assignments :=
    pbind p1 (fun v1 => pbind (ptry p2) (fun v2 =>
      match v2 with
      | Some v2 => pret [(n1, v1); (n2, v2)]
      | None => if use_previous then pret [(n1, v1); (n2, v1)] else pret [(n1, v1)]
      end)).
  (** 426-435, 636-652, 664-672 *)
  Definition parse_overflow := simple2 "overflow-x" overflow_axis "overflow-y" true overflow_axis.
  Definition parse_place_items := simple2 "align-items" align_items "justify-items" false justify_items.
  Definition parse_gap := simple2 "column-gap" (property_value calc_val) "row-gap" true (property_value calc_val).

  (** 437-446 parse_border_style *)
  Definition border_style : parser unit := fun ts =>
    match ts with
    | Ident s :: r => if existsb (String.eqb s) ["dotted"; "dashed"; "solid"; "double"; "groove"; "ridge"; "inset"; "outset"]%string then Some (tt, r) else None
    | _ => None
    end.
  (** 448-479 parse_border_inner *)
  Definition border_inner (widths colors : list string) : parser assignments :=
    pbind (ptry (expect_ident "none")) (fun none =>
    pbind (match none with Some _ => pret (Value v_zero) | None => property_value calc_val end) (fun width =>
    pbind (ptry border_style) (fun _ =>
    pbind (ptry (property_value color)) (fun c =>
      pret (map (fun n => (n, width)) widths ++ match c with Some c => map (fun n => (n, c)) colors | None => [] end))))).
  (** 481-509 *)
  Definition parse_border := border_inner ["border-left-width"; "border-right-width"; "border-bottom-width"; "border-top-width"]%string
                                          ["border-top-color"; "border-right-color"; "border-bottom-color"; "border-left-color"]%string.
  Definition parse_border_side (side : string) :=
    border_inner [String.append "border-" (String.append side "-width")] [String.append "border-" (String.append side "-color")].
  (** 550-568 parse_outline; parse_calc_property_value_with over `width keyword or length` (a keyword never starts calc) *)
  Definition parse_outline : parser assignments :=
    pbind (ptry global_keyword) (fun k =>
    pbind (match k with
           | Some v => pret v
           | None => pbind (ptry width_ident) (fun w => match w with Some w => pret (Value w) | None => pbind calc_val (fun v => pret (Value v)) end)
           end) (fun width =>
    pbind (ptry (property_value color)) (fun c =>
      pret (("outline-width", width) :: match c with Some c => [("outline-color", c)] | None => [] end)))) %string.
  (** 576-631 parse_flex *)
  Definition flex_result (grow shrink basis : V) : assignments := [("flex-grow", Value grow); ("flex-shrink", Value shrink); ("flex-basis", Value basis)]%string.
  Definition parse_flex : parser assignments :=
    pbind (ptry (expect_ident "none")) (fun none =>
      match none with
      | Some _ => pret (flex_result (v_float 0) (v_float 0) v_auto)
      | None =>
          pbind (ptry expect_number) (fun grow =>
            match grow with
            | Some grow =>
                pbind (ptry expect_number) (fun shrink =>
                pbind (ptry plain_val) (fun basis =>
                  pret (flex_result (v_float grow) (v_float (match shrink with Some s => s | None => 1 end)) (match basis with Some b => b | None => v_percent0 end))))
            | None => pbind plain_val (fun basis => pret (flex_result (v_float 1) (v_float 1) basis))
            end)
      end).

  (** Parser::parse_comma_separated: every part must be consumed entirely *)
  Fixpoint split_commas (cur : list tok) (ts : list tok) : list (list tok) :=
    match ts with [] => [cur] | Comma :: r => cur :: split_commas [] r | t :: r => split_commas (cur ++ [t]) r end.
  (** 680-707 parse_background_image_inner: the last image and all gradients *)
  Fixpoint images (parts : list (list tok)) (img : option V) (grads : list V) : option (option V * list V) :=
    match parts with
    | [] => Some (img, grads)
    | part :: parts =>
        match image part with
        | Some (v, []) => images parts (Some v) grads
        | Some (_, _ :: _) => None
        | None => match gradient part with
                  | Some (v, []) => images parts img (grads ++ [v])
                  | Some (_, _ :: _) => None
                  | None => match part with [] => images parts img grads | _ => None end
                  end
        end
    end.
  Definition background_images (ts : list tok) : option assignments :=
    option_map (fun '(img, grads) => (match img with Some v => [("-bevy-image"%string, Value v)] | None => [] end
                                      ++ match grads with [] => [] | _ => [("-bevy-background-gradient"%string, Value (v_gradients grads))] end))
               (images (split_commas [] ts) None []).
  (** 709-727 *)
  Definition parse_background_image : parser assignments := fun ts => option_map (fun a => (a, [])) (background_images ts).
  Definition parse_background : parser assignments :=
    pbind (ptry (property_value color)) (fun c ts =>
      option_map (fun a => (match c with Some c => [("background-color"%string, c)] | None => [] end ++ a, [])) (background_images ts)).

  (** 737-757 parse_grid_template *)
  Definition parse_grid_template : parser assignments :=
    pbind (ptry (expect_ident "none")) (fun none =>
      match none with
      | Some _ => pret [("grid-template-rows", Value v_no_tracks); ("grid-template-columns", Value v_no_tracks)]
      | None => pbind (property_value repeated_track_vec) (fun rows => pbind expect_slash (fun _ => pbind (property_value repeated_track_vec) (fun cols =>
                  pret [("grid-template-rows", rows); ("grid-template-columns", cols)])))
      end)%string.
  (** 774-788 parse_auto_flow *)
  Definition auto_flow (row : bool) : parser (pv V) :=
    pbind (expect_ident "auto-flow") (fun _ => pbind (ptry (expect_ident "dense")) (fun d => pret (Value (v_flow row (match d with Some _ => true | None => false end))))).
  Definition or_auto (v : option (pv V)) : pv V := match v with Some v => v | None => Value v_auto_track end.
  (** 758-828 parse_grid: the first alternative that parses, whether or not it leaves something *)
  Definition grid_result (flow rows cols arows acols : pv V) : assignments :=
    [("grid-auto-flow", flow); ("grid-template-rows", rows); ("grid-template-columns", cols); ("grid-auto-rows", arows); ("grid-auto-columns", acols)]%string.
  Definition grid_columns : parser assignments :=
    pbind (property_value repeated_track_vec) (fun rows => pbind expect_slash (fun _ => pbind (auto_flow false) (fun flow =>
    pbind (ptry (property_value track_vec)) (fun acols => pret (grid_result flow rows (Value v_no_tracks) (Value v_auto_track) (or_auto acols)))))).
  Definition grid_rows : parser assignments :=
    pbind (auto_flow true) (fun flow => pbind (ptry (property_value track_vec)) (fun arows => pbind expect_slash (fun _ =>
    pbind (property_value repeated_track_vec) (fun cols => pret (grid_result flow (Value v_no_tracks) cols (or_auto arows) (Value v_auto_track)))))).
  Definition parse_grid : parser assignments := fun ts =>
    match parse_grid_template ts with
    | Some x => Some x
    | None => match grid_columns ts with Some x => Some x | None => grid_rows ts end
    end.

  (** 836-880 parse_ui_transform_translation: Some None is Ok(None) *)
  Definition two_args (p : parser V) (second : V -> V) : parser V :=
    pbind p (fun x => pbind (ptry (pbind expect_comma (fun _ => p))) (fun y => pret (v_pair x (match y with Some y => y | None => second x end)))).
  Definition in_list (s : string) (l : list string) : bool := existsb (String.eqb s) l.
  Definition transform_translation : parser (option V) := fun ts =>
    match ts with
    | Fn f args :: r =>
        if String.eqb f "translate" then option_map (fun v => (Some v, r)) (entirely (two_args calc_val (fun _ => v_zero)) args)
        else if String.eqb f "translatex" then option_map (fun v => (Some (v_pair v v_zero), r)) (entirely calc_val args)
        else if String.eqb f "translatey" then option_map (fun v => (Some (v_pair v_zero v), r)) (entirely calc_val args)
        else if in_list f ["scale"; "scalex"; "scaley"; "rotate"; "rotatez"]%string then Some (None, ts)
        else None
    | _ => None
    end.
  (** 885-934 *)
  Definition transform_scale : parser (option V) := fun ts =>
    match ts with
    | Fn f args :: r =>
        if String.eqb f "scale" then option_map (fun v => (Some v, r)) (entirely (two_args calc_f32 (fun x => x)) args)
        else if String.eqb f "scalex" then option_map (fun v => (Some (v_pair v (v_float 1)), r)) (entirely calc_f32 args)
        else if String.eqb f "scaley" then option_map (fun v => (Some (v_pair (v_float 1) v), r)) (entirely calc_f32 args)
        else if in_list f ["translate"; "translatey"; "translatex"]%string then None
        else Some (None, ts)
    | _ => Some (None, ts)
    end.
  (** 936-964 *)
  Definition transform_rotation : parser (option V) := fun ts =>
    match ts with
    | Fn f args :: r =>
        if in_list f ["rotate"; "rotatez"]%string then option_map (fun v => (Some v, r)) (entirely calc_angle args)
        else if in_list f ["scale"; "scalex"; "scaley"; "translate"; "translatey"; "translatex"]%string then None
        else Some (None, ts)
    | _ => Some (None, ts)
    end.
  Definition opt (name : string) (v : option V) : assignments := match v with Some v => [(name, Value v)] | None => [] end.
  (** 966-1002 parse_transform *)
  Definition parse_transform (ts : list tok) : res (assignments * list tok) :=
    match expect_ident "none" ts with
    | Some _ => Panic
    | None =>
        lift (pbind transform_translation (fun t => pbind transform_scale (fun s => pbind transform_rotation (fun r ts =>
          match t, s, r with
          | None, None, None => None
          | _, _, _ => Some (opt "translate" t ++ opt "scale" s ++ opt "rotate" r, ts)
          end)))) ts
    end.

  (** 1004-1090 register_default_shorthand_properties: the sub-properties and the parse function *)
  Definition shorthand := (list string * (list tok -> res (assignments * list tok)))%type.
  Definition sides (name suffix : string) : list string :=
    map (fun s => String.append name (String.append s suffix)) ["left"; "right"; "top"; "bottom"]%string.
  Definition registered (name : string) : option shorthand :=
    let is := String.eqb name in
    if is "overflow"%string then Some (["overflow-x"; "overflow-y"]%string, lift parse_overflow)
    else if is "outline"%string then Some (["outline-width"; "outline-color"]%string, lift parse_outline)
    else if is "border"%string then Some (sides "border-" "-width" ++ ["border-top-color"; "border-right-color"; "border-bottom-color"; "border-left-color"]%string, lift parse_border)
    else if is "border-top"%string then Some (["border-top-width"; "border-top-color"]%string, lift (parse_border_side "top"))
    else if is "border-right"%string then Some (["border-right-width"; "border-right-color"]%string, lift (parse_border_side "right"))
    else if is "border-bottom"%string then Some (["border-bottom-width"; "border-bottom-color"]%string, lift (parse_border_side "bottom"))
    else if is "border-left"%string then Some (["border-left-width"; "border-left-color"]%string, lift (parse_border_side "left"))
    else if is "border-color"%string then Some (["border-top-color"; "border-right-color"; "border-bottom-color"; "border-left-color"]%string, lift parse_border_color)
    else if is "border-radius"%string then Some (["border-top-left-radius"; "border-top-right-radius"; "border-bottom-left-radius"; "border-bottom-right-radius"]%string, lift parse_border_radius)
    else if is "margin"%string then Some (sides "margin-" "", lift (parse_ui_rect "margin"))
    else if is "padding"%string then Some (sides "padding-" "", lift (parse_ui_rect "padding"))
    else if is "border-width"%string then Some (sides "border-" "-width", lift parse_border_width)
    else if is "flex"%string then Some (["flex-grow"; "flex-shrink"; "flex-basis"]%string, lift parse_flex)
    else if is "place-items"%string then Some (["align-items"; "justify-items"]%string, lift parse_place_items)
    else if is "background-image"%string then Some (["-bevy-image"; "-bevy-background-gradient"]%string, lift parse_background_image)
    else if is "background"%string then Some (["background-color"; "-bevy-image"; "-bevy-background-gradient"]%string, lift parse_background)
    else if is "gap"%string then Some (["column-gap"; "row-gap"]%string, lift parse_gap)
    else if is "grid-template"%string then Some (["grid-template-rows"; "grid-template-columns"]%string, lift parse_grid_template)
    else if is "grid"%string then Some (["grid-template-rows"; "grid-template-columns"; "grid-auto-flow"; "grid-auto-rows"; "grid-auto-columns"]%string, lift parse_grid)
    else if is "transform"%string then Some (["translate"; "scale"; "rotate"]%string, parse_transform)
    else None.

  (** 179-190 ShorthandProperty::parse, inside parser.rs:148-157 parse_entirely *)
  Definition declare (s : shorthand) (ts : list tok) : res assignments :=
    match global_keyword ts with
    | Some (v, r) => match r with [] => Ok (map (fun p => (p, v)) (fst s)) | _ => Err end
    | None => match snd s ts with Ok (a, []) => Ok a | Ok _ => Err | Err => Err | Panic => Panic end
    end.
  (** The assignments a shorthand declaration `name: ts` makes; Err when it is not registered or not accepted *)
  Definition expand (name : string) (ts : list tok) : res assignments := match registered name with Some s => declare s ts | None => Err end.
End S.

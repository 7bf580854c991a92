(** Model of crates/bevy_flair_core/src/impls.rs: the components of bevy_ui and bevy_text, their properties, and the CSS names
    of these; and of the loop that applies the properties of all components (bevy_flair_style/src/systems.rs:1254-1272).
    The lists are taken from the file as they are.  [T]: what the types of the fields are is arbitrary. *)
From Coq Require Import Ascii String.
From Coq Require Import NArith.
From Verif Require Import Base Reflect.
Open Scope nat_scope.
Open Scope string_scope.
Open Scope list_scope.

(** a component given to impl_component_properties!; [auto]: #[component(auto_insert_remove)] *)
Record component := mkcomponent { c_name : string; c_auto : bool; c_decl : declaration }.

(** impls.rs:13-184, in the order in which 234-251 registers them *)
Definition components (T : string -> ty) : list component :=
  [mkcomponent "Node" false
      (Listed [Leaf "display" (T "Display"); Leaf "box_sizing" (T "BoxSizing"); Leaf "position_type" (T "PositionType"); Nested "overflow" [Leaf "x" (T "OverflowAxis"); Leaf "y" (T "OverflowAxis")];
       Leaf "scrollbar_width" (T "f32"); Leaf "overflow_clip_margin" (T "OverflowClipMargin"); Leaf "left" (T "Val"); Leaf "right" (T "Val");
       Leaf "top" (T "Val"); Leaf "bottom" (T "Val"); Leaf "width" (T "Val"); Leaf "height" (T "Val");
       Leaf "min_width" (T "Val"); Leaf "min_height" (T "Val"); Leaf "max_width" (T "Val"); Leaf "max_height" (T "Val");
       Leaf "aspect_ratio" (T "Option<f32>"); Leaf "align_items" (T "AlignItems"); Leaf "justify_items" (T "JustifyItems"); Leaf "align_self" (T "AlignSelf");
       Leaf "justify_self" (T "JustifySelf"); Leaf "align_content" (T "AlignContent"); Leaf "justify_content" (T "JustifyContent"); Nested "margin" [Leaf "left" (T "Val"); Leaf "right" (T "Val"); Leaf "top" (T "Val"); Leaf "bottom" (T "Val")];
       Nested "padding" [Leaf "left" (T "Val"); Leaf "right" (T "Val"); Leaf "top" (T "Val"); Leaf "bottom" (T "Val")]; Nested "border" [Leaf "left" (T "Val"); Leaf "right" (T "Val"); Leaf "top" (T "Val"); Leaf "bottom" (T "Val")]; Nested "border_radius" [Leaf "top_left" (T "Val"); Leaf "top_right" (T "Val"); Leaf "bottom_right" (T "Val"); Leaf "bottom_left" (T "Val")]; Leaf "flex_direction" (T "FlexDirection");
       Leaf "flex_wrap" (T "FlexWrap"); Leaf "flex_grow" (T "f32"); Leaf "flex_shrink" (T "f32"); Leaf "flex_basis" (T "Val");
       Leaf "row_gap" (T "Val"); Leaf "column_gap" (T "Val"); Leaf "grid_auto_flow" (T "GridAutoFlow"); Leaf "grid_template_rows" (T "Vec<RepeatedGridTrack>");
       Leaf "grid_template_columns" (T "Vec<RepeatedGridTrack>"); Leaf "grid_auto_rows" (T "Vec<GridTrack>"); Leaf "grid_auto_columns" (T "Vec<GridTrack>"); Leaf "grid_row" (T "GridPlacement");
       Leaf "grid_column" (T "GridPlacement")]);
    mkcomponent "BackgroundColor" false
      (Listed [Leaf "0" (T "Color")]);
    mkcomponent "Outline" true
      (Listed [Leaf "width" (T "Val"); Leaf "offset" (T "Val"); Leaf "color" (T "Color")]);
    mkcomponent "BorderColor" false
      (Listed [Leaf "top" (T "Color"); Leaf "right" (T "Color"); Leaf "bottom" (T "Color"); Leaf "left" (T "Color")]);
    mkcomponent "BoxShadow" true
      (Itself (T "BoxShadow"));
    mkcomponent "ZIndex" false
      (Itself (T "ZIndex"));
    mkcomponent "UiTransform" false
      (Listed [Leaf "translation" (T "Val2"); Leaf "scale" (T "Vec2"); Leaf "rotation" (T "Rot2")]);
    mkcomponent "BackgroundGradient" true
      (Itself (T "BackgroundGradient"));
    mkcomponent "BorderGradient" true
      (Itself (T "BorderGradient"));
    mkcomponent "ImageNode" true
      (Listed [Leaf "color" (T "Color"); Leaf "image" (T "Handle<bevy_image::Image>"); Leaf "texture_atlas" (T "Option<bevy_image::TextureAtlas>"); Leaf "flip_x" (T "bool");
       Leaf "flip_y" (T "bool"); Leaf "rect" (T "Option<Rect>"); Leaf "image_mode" (T "NodeImageMode")]);
    mkcomponent "TextColor" false
      (Listed [Leaf "0" (T "Color")]);
    mkcomponent "LineHeight" false
      (Itself (T "LineHeight"));
    mkcomponent "TextFont" false
      (Listed [Leaf "font" (T "Handle<Font>"); Leaf "font_size" (T "f32"); Leaf "font_smoothing" (T "FontSmoothing")]);
    mkcomponent "TextLayout" false
      (Listed [Leaf "justify" (T "Justify"); Leaf "linebreak" (T "LineBreak")]);
    mkcomponent "TextShadow" true
      (Itself (T "TextShadow"));
    mkcomponent "TextSpan" false
      (Listed [Leaf "0" (T "String")])].

(** impls.rs:255-359 set_css_properties! *)
Definition css_table : list (string * (string * string)) :=
  [("display", ("Node", ".display")); ("box-sizing", ("Node", ".box_sizing")); ("position", ("Node", ".position_type"));
   ("overflow-x", ("Node", ".overflow.x")); ("overflow-y", ("Node", ".overflow.y")); ("-bevy-scrollbar-width", ("Node", ".scrollbar_width"));
   ("overflow-clip-margin", ("Node", ".overflow_clip_margin")); ("left", ("Node", ".left")); ("right", ("Node", ".right"));
   ("top", ("Node", ".top")); ("bottom", ("Node", ".bottom")); ("width", ("Node", ".width"));
   ("height", ("Node", ".height")); ("min-width", ("Node", ".min_width")); ("min-height", ("Node", ".min_height"));
   ("max-width", ("Node", ".max_width")); ("max-height", ("Node", ".max_height")); ("aspect-ratio", ("Node", ".aspect_ratio"));
   ("align-items", ("Node", ".align_items")); ("justify-items", ("Node", ".justify_items")); ("align-self", ("Node", ".align_self"));
   ("justify-self", ("Node", ".justify_self")); ("align-content", ("Node", ".align_content")); ("justify-content", ("Node", ".justify_content"));
   ("margin-top", ("Node", ".margin.top")); ("margin-right", ("Node", ".margin.right")); ("margin-bottom", ("Node", ".margin.bottom"));
   ("margin-left", ("Node", ".margin.left")); ("padding-top", ("Node", ".padding.top")); ("padding-right", ("Node", ".padding.right"));
   ("padding-bottom", ("Node", ".padding.bottom")); ("padding-left", ("Node", ".padding.left")); ("border-left-width", ("Node", ".border.left"));
   ("border-right-width", ("Node", ".border.right")); ("border-top-width", ("Node", ".border.top")); ("border-bottom-width", ("Node", ".border.bottom"));
   ("flex-direction", ("Node", ".flex_direction")); ("flex-wrap", ("Node", ".flex_wrap")); ("flex-grow", ("Node", ".flex_grow"));
   ("flex-shrink", ("Node", ".flex_shrink")); ("flex-basis", ("Node", ".flex_basis")); ("row-gap", ("Node", ".row_gap"));
   ("column-gap", ("Node", ".column_gap")); ("grid-auto-flow", ("Node", ".grid_auto_flow")); ("grid-template-rows", ("Node", ".grid_template_rows"));
   ("grid-template-columns", ("Node", ".grid_template_columns")); ("grid-auto-rows", ("Node", ".grid_auto_rows")); ("grid-auto-columns", ("Node", ".grid_auto_columns"));
   ("grid-row", ("Node", ".grid_row")); ("grid-column", ("Node", ".grid_column")); ("border-top-left-radius", ("Node", ".border_radius.top_left"));
   ("border-top-right-radius", ("Node", ".border_radius.top_right")); ("border-bottom-left-radius", ("Node", ".border_radius.bottom_left")); ("border-bottom-right-radius", ("Node", ".border_radius.bottom_right"));
   ("background-color", ("BackgroundColor", ".0")); ("border-top-color", ("BorderColor", ".top")); ("border-right-color", ("BorderColor", ".right"));
   ("border-bottom-color", ("BorderColor", ".bottom")); ("border-left-color", ("BorderColor", ".left")); ("outline-width", ("Outline", ".width"));
   ("outline-offset", ("Outline", ".offset")); ("outline-color", ("Outline", ".color")); ("box-shadow", ("BoxShadow", ""));
   ("z-index", ("ZIndex", "")); ("translate", ("UiTransform", ".translation")); ("scale", ("UiTransform", ".scale"));
   ("rotate", ("UiTransform", ".rotation")); ("-bevy-background-gradient", ("BackgroundGradient", "")); ("border-image", ("BorderGradient", ""));
   ("-bevy-image", ("ImageNode", ".image")); ("-bevy-image-color", ("ImageNode", ".color")); ("-bevy-image-mode", ("ImageNode", ".image_mode"));
   ("-bevy-image-rect", ("ImageNode", ".rect")); ("color", ("TextColor", ".0")); ("font-family", ("TextFont", ".font"));
   ("font-size", ("TextFont", ".font_size")); ("line-height", ("LineHeight", "")); ("-bevy-font-smooth", ("TextFont", ".font_smoothing"));
   ("text-align", ("TextLayout", ".justify")); ("-bevy-line-break", ("TextLayout", ".linebreak")); ("content", ("TextSpan", ".0"));
   ("text-shadow", ("TextShadow", ""))].

(** impls.rs:253 set_inherited_properties! *)
Definition inherited_components : list string := ["TextColor"; "TextFont"; "TextLayout"; "LineHeight"].
Definition inherited (css : string) : bool :=
  match lookup css css_table with Some (c, _) => existsb (String.eqb c) inherited_components | None => false end.

(** PropertyRegistry::resolve (registry.rs:200-217) of the canonical name that CssPropertyRegistry (registry.rs:565-660) has for
    the CSS name: the component, and the place of the property among its properties. *)
Fixpoint index_of (f : property -> bool) (ps : list property) : option nat :=
  match ps with [] => None | p :: ps => if f p then Some 0 else option_map S (index_of f ps) end.
Fixpoint find_component (n : string) (cs : list component) : option component :=
  match cs with [] => None | c :: cs => if String.eqb n (c_name c) then Some c else find_component n cs end.
Definition resolve (T : string -> ty) (css : string) : option (string * nat) :=
  match lookup css css_table with
  | Some (c, path) => match find_component c (components T) with
                      | Some k => option_map (pair c) (index_of (fun p => String.eqb (show_path (p_path p)) path) (properties_of (c_decl k)))
                      | None => None
                      end
  | None => None
  end.

(** systems.rs:1254-1272: the properties of every component, then the queue.  [vals]: the changes, one list for each component.
    An error of one component is printed, and the others are applied all the same. *)
Fixpoint apply_all (regs : list registration) (e : entity) (vals : list (list (option rv))) : entity * list command :=
  match regs, vals with
  | r :: regs, v :: vals => let '(e1, _, q, _) := apply_values_mut r e v in let (e2, q2) := apply_all regs e1 vals in (e2, q ++ q2)
  | _, _ => (e, [])
  end.
Definition apply_changes (regs : list registration) (e : entity) (vals : list (list (option rv))) : entity :=
  let (e', q) := apply_all regs e vals in flush q e'.

# Working notes (reading log; not a deliverable)
Read so far (style crate): layers.rs vars.rs media_selector.rs style_sheet.rs custom_iterators.rs builder.rs element.rs css_selector/mod.rs easing.rs curves.rs transition.rs animation.rs; (core) property_map.rs property_value.rs registry.rs component_properties.rs
Suspected findings:
- F1 Animation::iterate_if_necessary (animation.rs:464-484) Infinite + duration 0 -> while loop never terminates (check caller guards)
- F2 zero-iteration anim (state Finished) with fill backwards & delay>0: sample_value returns Some (doc: "never emit"); Canceled ditto ("will not emit any value").
- F3 is_active doc "sample_value returns Some": Pending+Backwards+delay=0 -> t=0.0 and not Running -> None. Running w/ duration 0 -> NaN -> None.
- F4 JustFinished "always emits": f32 rounding of ((delay+dur)-delay)/dur may exceed 1.0 => None w/o forwards fill (Flocq witness?)
- F5 CssPropertyRegistry::register_property second check tests properties, not shorthands (registry.rs ~585) => name can be both; resolve prefers shorthand.
- F6 EasingFunction::LinearPoints single point uses points[0].0 (time or value? check parser)
- F7 compute_internal: Unset unset value -> panic; set_unset_value does not check.
- Transition: sample_value with duration 0 -> t NaN -> easing clamp NaN -> None at Finished (test zero_transition shows None!)
- F8 layers: embed_style_sheet re-adds layers in ruleset order, other's layer order (define_layers) is lost. check.
Read also components.rs (1-1536, non-test).
- F9 (big) NodeProperties::tick_animations components.rs ~1000: `if !animation.can_be_ticked() { return; }` -> `return` not `continue`: one Finished animation starves all later ones in map iteration order. clear_finished_and_canceled only drops Canceled anims, so Finished stay.
- F11 compute_pending_property_values_with_parent fast path (components.rs ~575): only `PropertyValue::Inherit` refreshed on parent change; an explicit `Unset` whose unset value is Inherit stays stale. (check css parser emits Unset for `unset`)
- F14 animations FxHashMap iteration order decides winner when two animations touch the same property (CSS: last in animation-name list wins) components.rs apply_transitions_and_animations ~735.
- Core invariant to prove: apply_computed_properties keeps component value == (anim value).or(computed value) across frames, incl. create_transitions' early write of computed_values.
- set_animations: dup config names? update_options for same name with different options; cancel events for already-canceled animations repeated?
- Siblings::recalculate_with; ClassList add/remove/toggle (set semantics, order, new dedups); AttributeList map; NodeStyleMarker flags; DisplayClassList round trip.
Read systems.rs 1-1331 (all non-test).
- F15 sort_pseudo_elements (systems.rs:53-92): comparator OK on distinct elems -> prove: result = [before?] ++ others in order ++ [after?]
- F16/17 sync_siblings_system (94-130): entity detached from parent (get_parent None) never reset -> stale Siblings. 2nd loop tests contains(&parent) not entity (harmless).
- F18 (big) mark_changed_nodes_for_recalculation (485-540): one-pass marking; RecalculateOnChange flags are set only on the last hop target (element.rs related_new). `.a + .b .c`: c reads s via parent then prev-sibling; s has only SIBLINGS flag; s changes => p marked, c NOT marked => stale. Same for :has via first_child,next_sibling: non-first child x changes -> only siblings marked, not the anchor. Check lib.rs schedule whether run to fixpoint.
- F19 set_property_values: any_property_change always true since pending is empty default (conservative).
- F23 calculate_effective_style_sheet (132-200) only on Changed<NodeStyleSheet>: reparenting leaves stale effective stylesheet (check lib.rs for ChildOf trigger). Positive theorem: given fixed tree & correct before, after run all correct (proof: go up to a changed entity whose effective changed).
- sync_input_focus state machine (systems.rs ~330-375): invariant: only the focused entity has focused=true; sync_marker_component; interaction vs hovered both write `hovered`.
- calculate_is_root writes data through DerefMut on Changed<ChildOf> => marks node changed => style recalculated.
- VarResolverParam.get_var_tokens: nearest self-or-ancestor defining var; but resolve_recursively inner vars resolved at the *using* entity, not definer (CSS differs).
- calculate_style_and_set_vars: vars changed => descendants marked.
- apply flow per frame: set_property_values -> compute_property_values -> resolve_animations -> tick -> set_animation_computed_values -> resolve_placeholders -> apply_computed_properties -> auto_remove (check order in lib.rs)
- mark_as_changed_on_style_sheet_change: reset set properties to initial.
- NodeStyleMarker.needs_style_recalculation = !needs_reset && flag
Read lib.rs. Schedule (PostUpdate chain): Prepare -> SetStyleData -> MarkNodes -> CalculateStyles -> SetPropertyValues -> ComputeProperties -> ResolveAnimations -> SetAnimationValues -> ApplyComputedProperties -> EmitRedraw; TickAnimations before SetPropertyValues. mark_changed runs ONCE per frame => F18 real. No ChildOf trigger => F23 real.
- F25 (big) systems::tick_animations (~1085): clear_finished_and_canceled only called if has_tickable; a Canceled transition (set_transition_options) with nothing else tickable stays in the map forever; apply_transitions pins property at transition.to (components.rs ~728) so later style changes never applied.
- Finished transitions are removed in same tick call => Finished event emitted exactly once.
TODO read: animations/properties.rs keyframes.rs reflect.rs, placeholder.rs, to_css.rs; parser crate (shorthand, calc, vars, parser, media_selectors, keyframes, animations, imports_parser, inline_styles, reflect/*).

PLAN of Rocq files (/verif/rocq/theories): 
 Layers.v(model)+LayersProofs.v, Vars, Media, Cascade (builder+stylesheet), PropMap (Arc cow), PropValue, Registry, Animation, Transition, NodeProps(frames), Siblings/ClassList, SheetInherit (effective stylesheet), Invalidation(mark), Focus, Shorthand/Calc, Properties_*.v with only Theorem/exact/Print Assumptions.

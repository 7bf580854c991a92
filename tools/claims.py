p('C01','proved','C01_layers_well_formed','All finite declaration sequences of legal names, strings modelled byte by byte.')
p('C02','proved','C02_layer_order','Order characterised by first mention; refinement of define_layer on strings.')
p('C03','proved','C03_declaring_keeps_order','Subsequence preservation and idempotence in every reachable hierarchy.')
p('C08','proved','C08_resolution_is_substitution','Success = unique full substitution.')
p('C09','proved','C09_success_iff_shallow C09_cycles_are_errors C09_errors_are_truthful','Fuel is the code\'s own depth counter.')
p('C10','proved','C10_nearest_definition','Includes locality: other nodes cannot influence the result.')
p('C11','proved','C11_conjunction C11_fails_closed C11_merge','f32 comparisons are arbitrary (covers NaN).')
p('C34','proved','C34_descendants C34_ancestors','Bevy hierarchy invariant (wf_forest) is the hypothesis; ghost nodes not modelled.')
p('C04','proved','C04_cascade_order C04_no_panic','Selector/media matching and specificity are oracles; stable sort modelled.')
p('C05','proved','C05_last_declaration_wins C05_inline_wins','Dynamic (var) properties that fail to resolve declare nothing (as the code does).')
p('C06','proved','C06_remove_empty_rulesets','All builders reachable through the API, incl. embedded sheets.')
p('C07','partial','C07_embed_keeps_rules C07_embed_order_partial C07_embed_order_unlayered C07_embed_order_refuted','Nothing is lost and unlayered sheets keep their order (proved in full); the claim that layered sheets keep their cascade order is false of the code: witness refutes it.')
p('C41','proved','C41_duplicate_matches_harmless','')
p('C17','proved','C17_tick_additive C17_tick_additive_position','Fuel-indexed loop; additivity up to the end, and of the position across the end.')
p('C18','proved','C18_timeline','Hypothesis counter_fits: the u32 iteration counter has not saturated.')
p('C19','proved','C19_phases_forward C19_finish_exact C19_infinite_never_finishes','All histories of ticks and option changes.')
p('C20','partial','C20_tick_terminates_partial C20_tick_terminates_refuted','Terminates for all but infinite zero-duration animations; for those the loop diverges (refuted).')
p('C21','partial','C21_update_options_partial C21_zero_iterations_refuted','Complete for at least one iteration; iteration count 0 forgets the elapsed time (refuted).')
p('C22','partial','C22_paused_tick_partial C22_paused_tick_refuted C22_pause_resume','A never-ticked paused animation without delay shows its first frame at the first tick.')
p('C23','partial','C23_emits_when_active_partial C23_canceled_emits_refuted C23_zero_iterations_emits_refuted C23_zero_duration_silent_refuted C23_rounding_loses_last_frame_refuted','Exact arithmetic for the positive part; four refutations, one in IEEE binary32 (stdlib SpecFloat).')
p('C24','proved','C24_timeline C24_new_transition_values C24_pending_shows_start C24_running_value','Phases for any arithmetic; the running value in exact arithmetic.')
p('C25','partial','C25_reversal_bounds C25_toggling_starts_from_displayed C25_starts_from_displayed C25_starts_from_displayed_pending_partial C25_duration_rounding_refuted C25_pending_jump_refuted','Exact arithmetic over all histories; binary32 rounding can lengthen by a nanosecond, and easings not starting at 0 make a pending reversal jump (both refuted with witnesses).')
p('C42','partial','C42_reversal_no_panic_partial C42_reversal_panics_refuted','No panic for positive duration; toggling a delayed transition three times during its delay computes 0/0 and panics (binary32 witness).')
p('C43','partial','C43_active_displays_partial C43_overshoot_shows_nothing_refuted','True for easings with range in [0,1]; overshooting easings show nothing.')
p('C12','proved','C12_value_semantics C12_ptr_eq_sound C12_clone_shares C12_set_if_neq_equal_keeps_sharing C12_write_separates','Heap of reference-counted cells refines independent values for every operation sequence.')
p('C44','partial','C44_iter_mut_reference_dangles_refuted C44_reference_valid_when_unshared_partial C44_reference_valid_without_sibling_writes_partial','Refuted: safe code can free the cell under a live reference. Holds when the map is unshared or no sibling item is written.')
p('C13','proved','C13_keywords_with_parent C13_keywords_at_root C13_total_unless_unset_is_unset','Also characterises the only panic: a property registered with unset value Unset.')
p('C14','partial','C14_incremental_partial C14_visiting_order C14_explicit_unset_refuted C14_reset_parent_refuted','Holds over all histories of frames except for explicit unset on inherited properties and reset parents that end up valueless (both refuted with witnesses).')
p('C15','proved','C15_ids C15_register_properties C15_components','For every successful operation sequence.')
p('C16','partial','C16_exclusive_refuted C16_exclusive_partial C16_stable','Refuted: register_property checks the properties twice and never the shorthands. Exclusive when no property reuses an earlier shorthand name; registrations are stable.')
p('C45','partial','C45_unset_values C45_unset_as_unset_refuted','Unset values are exactly the last set ones; the documented rejection of Unset is missing (refuted).')
p('C26','partial','C26_component_shows_effective_value_partial C26_no_superfluous_write_partial C26_restart_on_end_refuted','Component equals the effective value after every frame of every smooth history (where new transitions start from what is shown); refuted otherwise: replacing a transition in the very frame it ends leaves the component stale.')
p('C27','partial','C27_transitions_advance C27_animations_advance_partial C27_finished_animation_starves_others_refuted','Transitions always advance; animations do while none on the node has finished; refuted otherwise.')
p('C28','partial','C28_canceled_releases_partial C28_canceled_pins_value_refuted','Released as soon as something on the node is ticked; refuted when nothing else is animated.')
p('C29','proved','C29_transition_events C29_events_reported','Per transition (identified by ghost serial) over all histories.')
p('C46','partial','C46_reversal_is_smooth_partial C46_retarget_jumps_refuted','Proved for reversals, exact arithmetic; refuted for a third target value.')
p('C47','partial','C47_animation_events_partial C47_shortened_never_reports_refuted','Holds while options do not change; refuted when the duration changes.')
p('C48','partial','C48_order_irrelevant_partial C48_hash_order_decides_refuted','Holds when at most one animation emits; refuted otherwise.')
p('C50','partial','C50_unlisted_are_cancelled C50_listed_continue C50_newly_listed_start C50_cancel_events C50_canceled_twice_refuted','The animation list is followed exactly; the reported-once part is refuted (Canceled is reported after Finished and again on each later change).')
p('C51','proved','C51_reset_forgets','')
p('C30','proved','C30_effective_is_nearest C30_changes_are_marked C30_terminates','Over all histories seen by change detection, all query and hash orders.')
p('C31','partial','C31_reparent_stale_refuted C31_reparent_with_rewrite_partial','Refuted: nothing recomputes a moved node. Holds when its NodeStyleSheet is written in the same frame.')
p('C32','partial','C32_links_agree_partial C32_detached_keeps_links_refuted','Links of nodes with a parent are right over all histories and the pass never panics; detached nodes keep stale links (refuted).')
p('C33','proved','C33_pseudo_elements_first_and_last C33_comparator_is_an_order','Also that the comparator meets sort_by\'s contract.')
p('C36','partial','C36_exactly_the_focused_entity_partial C36_without_focus_visible_partial C36_without_focus C36_focused_before_styled_refuted','Holds unless an entity is focused before it has style data (refuted). Applications without the InputFocusVisible or the InputFocus resource have their own theorems.')
p('C37','proved','C37_classes_are_an_ordered_set C37_other_classes_untouched C37_new_with_classes','')
p('C52','proved','C52_attributes_are_a_map','')
p('C35','partial','C35_fresh_matching_partial C35_selectors_partial C35_uncle_refuted C35_has_refuted C35_sheet_change_refuted','Complete for selectors whose sibling combinators come before ancestor combinators (right to left) and for any matcher that only uses covered handles; refuted for `.a + .b .c`, for `:has()` and when one node\'s sheet changes. Static hierarchy.')
p('C38','partial','C38_present_iff_styled_partial C38_user_components_kept_partial C38_other_components_stay C38_unregistered_components_untouched C38_animated_component_refuted C38_user_component_removed_refuted','Exact presence over all histories in which the user leaves style-inserted components alone and animated components also have a style value; refuted without these.')
p('C53','proved','C53_changed_values_are_written','')
p('C39','proved','C39_reset_lists_complete C39_resolution_total C39_shorthand_sets_every_list C39_shorthand_forgets C39_longhand_overrides_its_own_list C39_rulesets_in_order','')
p('C40','proved','C40_animation_configurations C40_transition_configurations C40_no_debug_panic','')
p('C54','proved','C54_transition_options_per_property','')
p('C55','proved','C55_last_write_wins C55_get','LinkedHashMap as the list of its entries in link order.')
p('C56','partial','C56_applied_partial C56_text_is_declarations C56_run_applies_partial C56_untouched C56_faulty_neighbour_refuted C56_important_refuted C56_removed_stays_refuted','Holds over all histories in which no changed style has errors or advices; refuted otherwise: one faulty style starves the others of that frame for good, !important prevents application, removal withdraws nothing.')
p('C57','partial','C57_new_partial C57_quoted_semicolon_refuted','Holds when no value contains a semicolon; quoted semicolons cut a declaration in two (refuted).')
p('C58','proved','C58_any_language C58_nesting','For every language of selectors in which & can be replaced; C58_nesting instantiates it with terms over arbitrary simple selectors, C110 with the selectors of the text. Nested at-rule blocks are read as & { .. }.')
p('C59','partial','C59_layer_order_partial C59_empty_block_refuted','Holds when every @layer block has a rule or layer statement in it; an empty @layer block is not registered (refuted).')
p('C60','proved','C60_worth C60_accepts','Exact arithmetic; expressions without auto and without division by a literal zero; bevy Val equality identifies all zeros.')
p('C61','partial','C61_number_partial C61_number_sub_refuted C61_angle_partial C61_angle_scaling_refuted','Numbers: right without subtraction, refuted with it (calc(5 - 3) = 8). Angles: sums right as rotations, scaling refuted (calc(360deg / 4) = 0).')
p('C62','partial','C62_no_panic_partial C62_panic_refuted','Always terminates; no panic on well-formed expressions; calc(10px, 20px) panics (refuted).')
p('C63','proved','C63_box','Value parsers arbitrary; border-width keywords (thin, ...) aside.')
p('C64','partial','C64_keyword C64_only_its_longhands C64_all_longhands_partial C64_incomplete_refuted','Nothing foreign and nothing twice, and keywords, for all 20 shorthands; all longhands for nine of them; refuted for place-items, border, outline, background, grid and transform.')
p('C65','partial','C65_flex C65_overflow C65_transform_partial C65_transform_none_refuted C65_gap_refuted','flex and overflow in full; transform except none, which panics; gap assigns row and column the wrong way round.')
p('C66','partial','C66_straight_line_partial C66_rotation C66_mixed_units_refuted','Exact arithmetic, colours as Oklab coordinates. Holds when corresponding lengths have one unit or one is zero; mixed units are not interpolated (refuted).')
p('C67','partial','C67_ends_partial C67_ends_rotation C67_lengths_partial C67_terminates C67_auto_zero_refuted C67_list_lengths_refuted C67_gradient_kind_refuted C67_conic_angle_refuted','Holds for values of the same structure and for all lengths but auto against zero, which panics in debug builds (refuted); lists of different length and different gradient kinds stay at the first value (refuted).')
p('C68','proved','C68_built C68_loaded C68_selectors C68_selector_lists C68_content C68_nothing_lost','Exact rational times plus NaN and infinities. Exact content is for moments more than 0.1% apart; closer ones are merged by the code, and nothing is lost (C68_nothing_lost).')
p('C69','partial','C69_total_and_deterministic C69_which C69_values C69_missing_on_line_partial C69_mixed_units_refuted','The filled-in values are on the line when neighbouring values have the same structure and units, and no rotations; mixed units are refuted. inherit in a keyframe means the initial value (documented as unsupported in the code), as modelled.')
p('C70','proved','C70_sampling','At a keyframe moment itself the timing function is not consulted (CSS would apply jump-start there).')
p('C71','partial','C71_broken_line_partial C71_unmentioned_partial C71_steps_refuted','Holds for linear timing functions; refuted for others: the library fills the unmentioned keyframe in and restarts the timing function there.')
p('C72','partial','C72_no_panic C72_linear_partial C72_grammar_refuted','The stops accepted are a number with an optional percentage behind it; CSS also allows the percentage first and two percentages, which are rejected, and forbids linear() without stops, which is accepted (C72_grammar_refuted).')
p('C73','partial','C73_curve_partial C73_outside_partial C73_even C73_total C73_debug_partial C73_single_refuted C73_jump_refuted C73_before_refuted C73_debug_refuted','Holds for two or more points at different places within 0%..100%, between the first and the last; a single stop gives its place instead of its value, jumps lose their second stop, outside the written places the curve is led to (0,0) and (1,1), and stops beyond 0%..100% panic in debug builds.')
p('C74','partial','C74_steps_partial C74_steps_text C74_keywords C74_invalid_steps_refuted','Exact rational arithmetic; invalid numbers of steps, such as steps(0), are accepted.')
p('C75','partial','C75_substituted_partial C75_one_value C75_accepted C75_declared C75_written_out_partial C75_quote_refuted C75_escape_refuted C75_integer_refuted C75_exponent_refuted C75_grammar_refuted','Proved for texts without backslashes, double quotes inside strings, integers written with a point or exponent, and units that look like exponents; those do change (refuted theorems). Numbers are exact decimals: in f32 a percentage is printed times 100 and read divided by 100, which can change it by an ulp.')
p('C76','proved','C76_no_panic C76_loads_iff_no_cycle C76_loaded C76_inline C76_import_text C76_cycle_refuted C76_late_import_refuted','A sheet that imports itself is never loaded, and an import behind other rules is obeyed (refuted theorems).')
p('C77','proved','C77_after_semicolon C77_after_block C77_declaration C77_invalid_declaration C77_rule C77_unknown_at_rule','The rule splitting of cssparser is modelled from memory; selectors and declarations are parsed by arbitrary functions. Errors are printed, not returned (error mode of the loader).')
p('C78','partial','C78_accepted C78_meaning_partial C78_fraction_refuted C78_grammar_refuted','Proved for windows of whole pixels, sizes below 2^31 and no ratio 0/0. Widths and heights with a fraction are cut down first (C78_fraction_refuted); much valid CSS is not accepted (C78_grammar_refuted). Numbers are exact, not f32.')
p('C79','proved','C79_written C79_at_rules_only C79_text_to_rules C79_escape_refuted','Own rules of the sheet (imports: C07, C76). With backslashes a layer name can have a dot in it and is mixed up with a nested layer.')
p('C80','partial','C80_animation_partial C80_transition C80_one_meaning C80_order_animation C80_order_transition C80_longhand C80_transition_longhand C80_none C80_play_state_refuted C80_values_refuted','Full for transition and for the longhands. For animation: values in which no play state stands directly in front of a time, direction, fill mode or count (otherwise C80_play_state_refuted). Negative delays and fractions are refused, empty items accepted, times from 2^64 s on panic (C80_values_refuted). Times are exact rationals, not f32.')
p('C81','partial','C81_data_partial C81_only_data C81_quiet C81_rename_refuted C81_removed_lists_refuted C81_removed_hover_refuted C81_late_node_refuted C81_pressed_not_hovered_refuted C81_two_sources_refuted C81_late_root_refuted','Disabled and checked without conditions; for the others each condition is needed (refuted theorems): removed ClassList/AttributeList/Hovered/Interaction are not noticed, a name replaced by remove and insert in one update is lost, components older than the node are not seen, Interaction and Hovered/Pressed together race.')
p('C82','partial','C82_media_partial C82_set_up_once C82_text_span_never C82_moved_refuted','Full for applications that set up their cameras once (C82_set_up_once). A node that gets to another window (camera retargeted, other camera, other primary window) or whose window is closed keeps the rules of the old one (C82_moved_refuted); text spans never match media queries. Cameras and sizes as computed by bevy_ui are inputs.')
p('C83','partial','C83_structural_partial C83_class_first_refuted','Holds if the style sheet has a rule that starts with a child-indexed pseudo-class (then every node carries the flag) or no child-indexed pseudo-class at all. Otherwise (.item:last-child) refuted: the flags that the selectors crate means for the parent are put on the element itself, so changed children do not restyle their siblings. Compound selectors, one style sheet; the selectors crate is modelled from its documentation.')
p('C84','partial','C84_custom_properties_reach_users_partial C84_moved_subtree_refuted C84_other_sheet_below_refuted C84_lost_sheet_refuted','Proved for histories in which no node with descendants is moved, nodes keep having a sheet, and below a node whose sheet is modified every node is noticed. Each of the three exceptions is refuted: descendants of a moved node keep values computed with the custom properties of the old ancestors; nodes with another sheet keep custom properties a modified sheet no longer declares; a node that loses its sheet (Block) keeps declaring its custom properties. That rules match as they should, and that a change of the matching rules marks the node, are C35, C82, C83.')
p('C85','partial','C85_lengths C85_aspect_ratio C85_tracks C85_placement C85_template_partial C85_template_refuted C85_wrapped_refuted C85_words_refuted','Both directions for lengths, ratios, track lists and lines (of the grammar the code means: a line has to start with a number; CSS has more, C85_words_refuted). Templates: every count from 1 to 65535 is right; others are accepted as their lowest sixteen bits (C85_template_refuted, C85_wrapped_refuted). Numbers exact, integers clamped as cssparser does; calc() an arbitrary function.')
p('C86','partial','C86_box_shadow_partial C86_two_colors_refuted','Complete for the CSS grammar; what is accepted is that grammar except that both colors may be given (the second wins), and none is refused. Colors: an arbitrary function that accepts no length, comma or global keyword.')
p('C87','partial','C87_components_show_css_partial C87_no_history_partial C87_no_value_partial','From the matching rules to the components, composed of the models of VarFlow.v and Inherit.v in the order of the schedule. Histories without the known defects: see C14_explicit_unset_refuted, C14_reset_parent_refuted, C84_moved_subtree_refuted, C84_lost_sheet_refuted, C84_other_sheet_below_refuted. No transitions, animations or placeholders.')
p('C88','partial','C88_sheet_values C88_names_partial C88_other_sheet_refuted','Sheets: full. While running: if all nodes have the same font faces; otherwise what a child inherits depends on the history (C88_other_sheet_refuted). Conditions of C14, no transitions.')
p('C89','partial','C89_keywords C89_css_spelling C89_suggestions C89_spelling_refuted','Exact for every enumeration. What is accepted is more than CSS: hyphens may be missing or stand anywhere; keywords of two words (row dense) are refused (C89_spelling_refuted). Names are ASCII.')
p('C90','partial','C90_points C90_translations C90_rectangles C90_angles C90_clip_margin C90_z_index C90_line_height C90_text_shadow C90_texts C90_image_mode C90_words_refuted','Both directions for every type. Not as in CSS: scale: none is the scale 0, normal only in small letters, clip margins in one order (C90_words_refuted). Numbers exact; colors and the inside of calc() arbitrary functions.')
p('C91','partial','C91_gradients C91_css_stops C91_trailing_hint_refuted C91_conic_refuted C91_headers_refuted','Both directions for every text. Not as in CSS: hints at the end and more than two places are accepted; stops of conic gradients beyond 180deg wrap around; a bare circle, top left, a color space before the direction, percentages in conic gradients are refused. Numbers exact; colors and calc() arbitrary functions.')
p('C92','partial','C92_zero_stop C92_negative_refuted C92_hint_partial C92_hint_refuted','Proved for the stop at zero, with the CSS rules for placing stops and any mixing. Refuted for a first stop before zero, and for hints that are not between the ends of the line. How bevy_ui draws is not modelled: the line is that of CSS Images 4.')
p('C93','partial','C93_reported_where_it_is_partial C93_reported_range C93_boundary C93_positions C93_part C93_other_newlines_refuted C93_end_of_text_refuted C93_last_character_refuted C93_printed_length_refuted C93_unknown_at_rule_refuted','Proved for texts whose lines end with LF or CR LF, if the parser measures the piece as long as it is; the exact range at every position of such texts is given. Refuted (a panic or a wrong range) for lines ended by CR or FF, at the end of a text behind a line end, at the end of a line that ends outside ASCII, for tokens printed longer than written, and for unknown at-rules.')
p('C94','partial','C94_crashes_exactly_when C94_every_mistake_once_partial C94_modes C94_rest_loaded C94_unknown_motion_refuted C94_duplicate_keyframes_refuted C94_font_face_refuted C94_property_name_refuted C94_var_value_refuted C94_empty_var_refuted C94_var_value_partial','The sheets that crash are characterised; for all others every mistake is reported once and in order, all that is right has its effect, and the modes differ only as promised. Refuted: unknown transition-/animation- properties, repeated @keyframes names, incomplete @font-face, some property names, and errors of values from var() panic.')
p('C95','partial','C95_any_order_partial C95_any_orders_partial C95_two_sources_refuted','Proved for all allowed orders when no node has its Interaction changed in the same update as its Pressed or Hovered component; refuted otherwise: the order decides whether such a node is :hover. The private flag any_animation_active is left out of the comparison: each update clears it.')
p('C96','partial','C96_set_properties C96_value_shows_partial C96_value_shows_iff C96_others_keep C96_initial_partial C96_fields_as_functions_partial C96_lists_refuted','Proved for all properties whose type contains no list. A list shows its value exactly if it is not shorter than the one it replaces: reflection never truncates, so fewer box shadows, gradients or grid tracks leave the old tail (refuted). bevy_reflect is modelled from memory.')
p('C97','partial','C97_same_result_partial C97_typed_values_succeed C97_removal C97_errors_refuted C97_queued_twice_refuted','Proved when the values can be applied, which values of the right types always can; refuted when one of them cannot, and when two applications are queued before the queue runs.')
p('C98','partial','C98_names_resolve C98_names_distinct C98_own_place C98_every_field C98_shorthands C98_each_sets_its_own_partial C98_inherited','Complete but for lists, see C96.')
p('C99','partial','C99_follows C99_keyframes_of_the_start C99_plays_what_is_given_partial C99_variable_refuted C99_timing_function_refuted','The animations are the declared ones, always, and each plays the keyframes given in the update in which it started (proved in full). These are the ones given now only if nothing has changed since: a custom property used in the keyframes or a new animation-timing-function does not reach a running animation (refuted).')
p('C100','partial','C100_colors_partial C100_one_meaning C100_css C100_box_shadow_partial C100_text_shadow C100_gradients C100_lab_refuted C100_lch_refuted C100_missing_alpha_refuted C100_plain_numbers_refuted','Acceptance and meaning are exact for every token tree, and agree with CSS for hexadecimal, named, rgb, and (alpha not none) hsl, hwb, oklab, oklch and the supported color() spaces. Refuted: lab and lch have one and a half times the lightness, lab also 1.2 times a and b; alpha none is opaque except in rgb; hsl and hwb without percent signs, currentcolor and five color spaces are refused. cssparser_color is written down from memory, see DESIGN.md. calc() inside color functions, relative colors and color-mix are refused and not in the grammar of the specification.')
p('C101','partial','C101_matching C101_after_sync C101_pseudo_elements_partial C101_pseudo_siblings_refuted C101_detached_refuted','Exact for every hierarchy and selector when pseudo-element entities count as nodes, including the early exits of the backtracking, and from the links sync_siblings leaves after any history without detachment. In CSS pseudo-elements are not in the tree: the partial theorem covers selectors that look at a node and its ancestors; with sibling or child conditions it is refuted (first child is not :first-child, a node without children is not :empty, the universal selector matches pseudo-elements). A detached node keeps its siblings (C32). The matching of the selectors crate is written down from its documentation.')
p('C102','proved','C102_specificity C102_no_overflow','Exact below 1024 of each kind; above, counts are clamped as CSS asks. The arithmetic is that of the selectors crate, written down from its published source.')
p('C103','partial','C103_sheets_to_components_partial','Composition of C04, C05, C11, C14, C84, C87, C101 and C102. Assumed of the histories: that a node is noticed when other rules of its sheet apply (C35, C82, C83), and the known defects C14_*_refuted and C84_*_refuted are left out. Pseudo-elements are nodes like others. No transitions, animations.')
p('C104','partial','C104_rules_follow_partial C104_same_algorithm C104_unstyled_parent_refuted','For selectors without :has and without sibling conditions on ancestors, and trees whose parents all have a sheet that asks for siblings (or no sheet does). What is missing is false: C35_uncle_refuted, C35_has_refuted, C83_class_first_refuted, C35_sheet_change_refuted, C104_unstyled_parent_refuted.')
p('C105','partial','C105_live_partial','For the histories of live_from_start (LiveSpec.v); what is missing is false: C14, C35, C82_moved, C83_class_first, C84 and C104_unstyled_parent refuted theorems; transitions and animations: C107. Unlike in C103 no assumption about which nodes are noticed when other rules apply.')
p('C106','partial','C106_transition_heads_for_style_partial C106_lost_value_refuted','While the style of the property does not lose its value; C106_lost_value_refuted: if it does, and gets another one before the transition is over, the transition still ends at the old one.')
p('C107','partial','C107_animated_partial C107_calm_is_smooth C107_transitions_end_at_css_value_partial','For the histories of C105 (LiveSpec.v) in which transitions start from what is shown (false otherwise: C26_restart_on_end_refuted); C107_calm_is_smooth gives a condition on the history for that. The end of transitions: while the CSS value does not disappear (C106_lost_value_refuted).')
p('C108','partial','C108_keeps_value_partial C108_box_keeps_value C108_f64_refuted C108_equality C108_equality_not_reflexive_refuted C108_clone_and_downcast C108_downcast_other_struct_refuted','False for f64, which new turns into an f32 (C108_f64_refuted); downcast_value to another struct with the same fields succeeds, against its documentation (C108_downcast_other_struct_refuted). bevy_reflect (from_reflect, reflect_partial_eq, reflect_clone) is modelled from its documentation; only structs with named fields and opaque types.')
p('C109','partial','C109_reads C109_unique C109_operators C109_nested C109_matches C109_no_panic_partial C109_no_panic_refuted C109_single_partial C109_single_refuted','False: `|a` is accepted and matching it panics (C109_no_panic_refuted); parse_single and FromStr ignore what follows the first selector, parse_single_for_nested panics at a list (C109_single_refuted). The grammar and its reader are proved equivalent for all token texts; the parser of the selectors crate is modelled from its published source, An+B is read by an arbitrary function.')
p('C110','proved','C110_alternatives C110_kept C110_sheet C110_nodes C110_blocks','Composes C77-C79 (rules of a text), C58 (nesting), C109 (selectors of a text) and C101 (matching). Texts with backslashes are excluded because of C79_escape_refuted; An+B, the parsers of property values and whether the crate parser stops inside a bad selector list are arbitrary.')
p('C111','partial','C111_winner_partial C111_one_winner C111_empty_block_refuted','Composes C77-C79, C58, C59, C109, C110, C101, C102, C41 and C04-C06. Missing: sheets with an @layer block that holds no rule (there the layer order is another: C111_empty_block_refuted), and selectors with 1024 or more of a kind (C102). Declarations give concrete values (no var(), custom properties, transitions or animations, which C12-C17 and others treat), and imports and fonts are left out; the parsers of property values are arbitrary ones whose values have the type of the property.')
p('C112','partial','C112_loads_partial C112_components_partial','Composes C111 (text to builder), now with custom properties and var(), and C105 (builders to components, through any history). Missing is what C105 and C111 miss: histories outside live_from_start (there false: C14, C35, C82, C83, C84, C104 refuted theorems), @layer blocks without rules (C111_empty_block_refuted), selectors with 1024 or more of a kind; and transitions, animations, fonts and imports. The parsers of property values are arbitrary ones whose values have the type of the property.')
p('C113','partial','C113_pseudo_elements_partial C113_support_again_refuted C113_support_first_refuted C113_text_later_refuted C113_support_removed_refuted C113_type_again_refuted C113_type_first_refuted','Refuted outside: support inserted again doubles the pseudo-elements, before the Node it never makes them, a block that becomes a text keeps Nodes, removal leaves them; a second TypeName panics even after removal of the first, a removed one is still matched, one before the Node never is.')

{"id": "C01", "title": "Layer list is well formed", "statement": "After any sequence of layer declarations the priority list contains no duplicate, contains every declared non-empty layer together with all its dotted ancestors, contains nothing else, and unlayered rules rank strictly above every layer.", "quantifier": "every finite sequence of layer names (arbitrary dotted names)", "why_tests_cant": "the set of declaration histories is infinite; tests fix a handful of names", "anchors": ["crates/bevy_flair_style/src/layers.rs: LayersHierarchy::define_layer, get_layer_priority"]}
{"id": "C02", "title": "Layer priority equals the nesting-tree order", "statement": "The priority order is exactly: siblings under a common parent in order of first mention, every nested layer below (lower priority than) its parent, and all layers nested in one layer contiguous - i.e. the post-order of the tree of first mentions.", "quantifier": "every sequence of declarations, every nesting depth", "why_tests_cant": "needs all interleavings of nested and top-level declarations", "anchors": ["crates/bevy_flair_style/src/layers.rs: define_layer, find_insert_position"]}
{"id": "C03", "title": "Declaring a layer never reorders existing layers", "statement": "Declaring a layer again changes nothing, and declaring a new one never changes the relative order of layers already declared.", "quantifier": "every hierarchy state reachable by declarations, every next name", "why_tests_cant": "a history property over unbounded prefixes", "anchors": ["crates/bevy_flair_style/src/layers.rs: define_layer"]}
{"id": "C04", "title": "Cascade order of a built style sheet", "statement": "In a built sheet the rules matched by an element are returned sorted by layer priority, then specificity, then source order; no matching rule is lost, none added.", "quantifier": "every builder content, element, media state", "why_tests_cant": "sorting stability and completeness over arbitrary rule sets", "anchors": ["crates/bevy_flair_style/src/builder.rs: StyleSheetBuilder::build", "crates/bevy_flair_style/src/style_sheet.rs: get_matching_ruleset_ids_for_element"]}
{"id": "C05", "title": "Last declaration in cascade order wins; inline wins over all", "statement": "For each property the resulting value is the one of the last declaration in cascade order (rulesets in order, declarations inside a ruleset in order, inline style last), and a property nobody declares keeps its registered unset value.", "quantifier": "every sheet, matched rule list, inline style, property", "why_tests_cant": "unbounded lists of declarations and shared overrides", "anchors": ["crates/bevy_flair_style/src/style_sheet.rs: get_property_values, resolve_rulesets, RulesetProperty::resolve", "crates/bevy_flair_core/src/property_map.rs: set_if_neq"]}
{"id": "C06", "title": "Removing empty rulesets preserves everything else", "statement": "remove_all_empty_rulesets removes exactly the rulesets with no content, and every surviving (selector, ruleset content) pair is kept in order although ids are renumbered.", "quantifier": "every builder state", "why_tests_cant": "index renumbering bugs depend on arbitrary patterns of empties", "anchors": ["crates/bevy_flair_style/src/builder.rs: remove_id, remove_all_empty_rulesets, is_empty"]}
{"id": "C07", "title": "Embedding (importing) a sheet keeps its rules and their relative cascade", "statement": "Embedding a built sheet under an optional layer adds every ruleset with all its selectors, prefixed with the layer, never loses declarations, and keeps the relative cascade order of the embedded rules.", "quantifier": "every base builder, every embedded sheet, every layer name", "why_tests_cant": "requires all combinations of layers, specificities and orders", "anchors": ["crates/bevy_flair_style/src/builder.rs: embed_style_sheet, add_values_from_ruleset", "crates/bevy_flair_style/src/css_selector/mod.rs: with_layer_prefixed"]}
{"id": "C08", "title": "var() substitution is exact", "statement": "If resolving a token list succeeds the result is the full textual substitution of every var() reference, contains no reference, and preserves token order.", "quantifier": "every token list and every variable environment", "why_tests_cant": "arbitrary nesting of variable definitions", "anchors": ["crates/bevy_flair_style/src/vars.rs: VarTokens::resolve_recursively"]}
{"id": "C09", "title": "var() resolution always terminates; cycles and over-deep chains are errors", "statement": "Resolution terminates for every environment; it succeeds exactly when every reached variable is defined and nesting is less than 8; a reachable cycle always yields an error.", "quantifier": "every environment including cyclic ones", "why_tests_cant": "cyclic environments and chains of every length", "anchors": ["crates/bevy_flair_style/src/vars.rs: resolve_recursively_inner, MAX_DEFAULT_RECURSION"]}
{"id": "C10", "title": "Custom properties are inherited from the nearest defining ancestor", "statement": "A var() used at a node is resolved against the nearest self-or-ancestor node defining that name; siblings and descendants never influence it.", "quantifier": "every tree, node and assignment of variables", "why_tests_cant": "every tree shape and shadowing pattern", "anchors": ["crates/bevy_flair_style/src/systems.rs: VarResolverParam::get_var_tokens, iter_self_and_ancestors"]}
{"id": "C11", "title": "Media queries are conjunctive and fail closed", "statement": "A selector list matches iff every feature test holds; a test whose feature is unavailable never matches; nesting/merging media queries is conjunction and is associative with the empty query as unit.", "quantifier": "every list of media selectors and every provider", "why_tests_cant": "all combinations of features and missing data", "anchors": ["crates/bevy_flair_style/src/media_selector.rs: MediaSelectors::matches, merge_with, MediaRangeSelector::matches"]}
{"id": "C12", "title": "Property maps are copy on write", "statement": "Writing through one property map never changes any other map, even those cloned from it; set_if_neq reports a change iff the value changed and keeps sharing when it did not; ptr_eq implies equal contents.", "quantifier": "every history of clone/set/take/extend operations on any number of maps", "why_tests_cant": "aliasing histories of arbitrary length", "anchors": ["crates/bevy_flair_core/src/property_map.rs: PropertyMap, PropertyMut::set_if_neq, ptr_eq"]}
{"id": "C13", "title": "CSS-wide keywords compute as specified", "statement": "inherit takes the parent's computed value (none at a root), initial the component default, unset whatever the property registered, and a concrete value itself.", "quantifier": "every value, unset registration, initial value and parent value", "why_tests_cant": "all combinations", "anchors": ["crates/bevy_flair_core/src/property_value.rs: compute_with_parent, compute_as_root"]}
{"id": "C14", "title": "Incremental inheritance equals full recomputation", "statement": "When some nodes keep their declared values, the incremental pass over the tree yields the same computed values as recomputing every node from scratch.", "quantifier": "every tree, every set of changed nodes, every declared values", "why_tests_cant": "every tree, depth and subset of dirty nodes", "anchors": ["crates/bevy_flair_style/src/components.rs: compute_pending_property_values_with_parent, compute_pending_property_values_for_root", "crates/bevy_flair_style/src/systems.rs: compute_property_values"]}
{"id": "C15", "title": "Property ids are stable and unique", "statement": "Registration gives consecutive fresh ids, never changes an id already given, resolving a canonical name returns the id under which it was registered, and registering a duplicate name is rejected.", "quantifier": "every sequence of registrations", "why_tests_cant": "unbounded registration histories", "anchors": ["crates/bevy_flair_core/src/registry.rs: register_properties, resolve, iter"]}
{"id": "C16", "title": "A CSS name denotes either a property or a shorthand, never both", "statement": "No sequence of successful registrations makes one css name both a property and a shorthand.", "quantifier": "every sequence of register_property / register_shorthand", "why_tests_cant": "all orders of registration", "anchors": ["crates/bevy_flair_core/src/registry.rs: CssPropertyRegistry::register_property, register_shorthand, resolve"]}
{"id": "C17", "title": "Ticking an animation is additive", "statement": "Ticking by a then b leaves an animation that is not yet finished in the same state as ticking by a+b: same iteration, direction, elapsed time and sampled value.", "quantifier": "every option set, every split of time into ticks", "why_tests_cant": "every frame-rate pattern", "anchors": ["crates/bevy_flair_style/src/animations/animation.rs: tick, iterate_if_necessary, iterate"]}
{"id": "C18", "title": "Iteration index and direction follow elapsed time", "statement": "While running, the iteration index is the integer quotient of active time by duration, and the playing direction is determined by the declared direction and the parity of the iteration.", "quantifier": "every option set with positive duration, every history of ticks", "why_tests_cant": "arbitrary many iterations", "anchors": ["crates/bevy_flair_style/src/animations/animation.rs: iterate, update_options"]}
{"id": "C19", "title": "Animation phases only move forward and the last frame is shown", "statement": "Under ticking the state only moves Pending -> Running -> JustFinished -> Finished; a finite animation that reaches its end always stops in JustFinished at exactly its end time before Finished, infinite ones never finish.", "quantifier": "every option set and sequence of ticks", "why_tests_cant": "every time pattern, including huge frames", "anchors": ["crates/bevy_flair_style/src/animations/animation.rs: tick, iterate_if_necessary"]}
{"id": "C20", "title": "Ticking an animation terminates", "statement": "Advancing any animation by any amount of time returns.", "quantifier": "every option set and delta", "why_tests_cant": "non-termination cannot be observed by a finite test suite", "anchors": ["crates/bevy_flair_style/src/animations/animation.rs: iterate_if_necessary"]}
{"id": "C21", "title": "Changing animation options never restarts it", "statement": "update_options keeps the total elapsed time (up to the new end) and yields the state the animation would have if the new options had been used from the start.", "quantifier": "every reachable animation and new options", "why_tests_cant": "all pairs of option sets and histories", "anchors": ["crates/bevy_flair_style/src/animations/animation.rs: update_options, total_elapsed"]}
{"id": "C22", "title": "A paused animation makes no progress", "statement": "While paused, ticking changes neither elapsed time, nor iteration, nor the sampled value; resuming continues from the same point.", "quantifier": "every paused animation, every number of ticks", "why_tests_cant": "unbounded ticking", "anchors": ["crates/bevy_flair_style/src/animations/animation.rs: tick, set_play_state"]}
{"id": "C23", "title": "When an animation emits a value", "statement": "An animation emits a value exactly when it is active: running or just finished always, pending only when filling backwards, finished only when filling forwards, canceled never.", "quantifier": "every reachable animation", "why_tests_cant": "all states, fill modes, delays and durations", "anchors": ["crates/bevy_flair_style/src/animations/animation.rs: sample_value, is_active"]}
{"id": "C24", "title": "Transition timeline", "statement": "A transition shows its start value during its delay, is running between delay and delay+duration, and is finished exactly once its accumulated time reaches delay+duration, independent of how time is split into ticks.", "quantifier": "every options, every tick sequence", "why_tests_cant": "all splits of time", "anchors": ["crates/bevy_flair_style/src/animations/transition.rs: tick, sample_value"]}
{"id": "C25", "title": "Reversed transitions are shortened, never lengthened", "statement": "When a running transition is reversed the new one starts from the currently displayed value, its shortening factor lies in [0,1], and its duration never exceeds the declared duration; repeated reversals keep this.", "quantifier": "every history of reversals, every easing output", "why_tests_cant": "unbounded number of reversals", "anchors": ["crates/bevy_flair_style/src/animations/transition.rs: update_for_possibly_reversed_transition"]}
{"id": "C26", "title": "The component shows the effective value", "statement": "After each frame every styled property holds the animation/transition value if one is emitted, otherwise the computed value, for every property whose effective value is defined; unchanged effective values cause no write.", "quantifier": "every node history of style changes, transitions, animations and frames", "why_tests_cant": "long histories with interacting caches", "anchors": ["crates/bevy_flair_style/src/components.rs: apply_computed_properties, create_transitions", "crates/bevy_flair_style/src/systems.rs: apply_computed_properties"]}
{"id": "C27", "title": "Every animation of a node advances each frame", "statement": "Ticking a node by delta advances every tickable, unpaused animation and transition on it by delta.", "quantifier": "every node with any number of animations, every map iteration order", "why_tests_cant": "hash-map order and mixed finished/running sets", "anchors": ["crates/bevy_flair_style/src/components.rs: NodeProperties::tick_animations"]}
{"id": "C28", "title": "A cancelled transition releases its property", "statement": "Once a transition is cancelled because its transition option disappeared, later style values of that property are the ones displayed.", "quantifier": "every node history", "why_tests_cant": "needs arbitrary later frames", "anchors": ["crates/bevy_flair_style/src/components.rs: set_transition_options, apply_transitions_and_animations", "crates/bevy_flair_style/src/systems.rs: tick_animations"]}
{"id": "C29", "title": "Transition events", "statement": "Every transition emits Started at most once and Finished at most once, Finished only after Started, and never both Finished and Canceled.", "quantifier": "every frame history", "why_tests_cant": "unbounded histories", "anchors": ["crates/bevy_flair_style/src/components.rs: tick_animations, set_transition_options, create_transitions"]}
{"id": "C30", "title": "Effective style sheet is the nearest declared one", "statement": "After the propagation pass every node's effective sheet is its own, else the nearest ancestor's that declares one, Block meaning none - given it was right before and only declarations changed.", "quantifier": "every tree, every set of changed declarations, every iteration order", "why_tests_cant": "every tree and dirty set", "anchors": ["crates/bevy_flair_style/src/systems.rs: calculate_effective_style_sheet"]}
{"id": "C31", "title": "Effective style sheet follows reparenting", "statement": "After moving a node (that inherits its sheet) to another parent its effective sheet is the new ancestors'.", "quantifier": "every tree and move", "why_tests_cant": "every tree", "anchors": ["crates/bevy_flair_style/src/systems.rs: calculate_effective_style_sheet", "crates/bevy_flair_style/src/lib.rs: FlairStylePlugin"]}
{"id": "C32", "title": "Sibling links agree with the child order", "statement": "After the sync pass each child's next/previous sibling are its neighbours in the parent's child list, and detached nodes have none.", "quantifier": "every child list, every history of moves", "why_tests_cant": "list lengths unbounded", "anchors": ["crates/bevy_flair_style/src/components.rs: Siblings::recalculate_with", "crates/bevy_flair_style/src/systems.rs: sync_siblings_system"]}
{"id": "C33", "title": "Pseudo-elements are first and last child", "statement": "Sorting children puts ::before first and ::after last and keeps the order of all other children.", "quantifier": "every child list", "why_tests_cant": "every list", "anchors": ["crates/bevy_flair_style/src/systems.rs: sort_pseudo_elements"]}
{"id": "C34", "title": "Tree walks visit each descendant once, parents first", "statement": "Descendant iteration yields every descendant exactly once, each paired with its parent, never before that parent; ancestor iteration yields exactly the ancestors nearest first.", "quantifier": "every finite tree", "why_tests_cant": "every tree shape", "anchors": ["crates/bevy_flair_style/src/custom_iterators.rs: UiDescendantWithParentIter, UiAncestorIter"]}
{"id": "C35", "title": "Style invalidation is complete", "statement": "When a node's matching data changes, every node whose selector matching consulted it is re-matched in the same frame.", "quantifier": "every tree, every selector walk, every changed node", "why_tests_cant": "all selector shapes and trees", "anchors": ["crates/bevy_flair_style/src/css_selector/element.rs: related_new", "crates/bevy_flair_style/src/systems.rs: mark_changed_nodes_for_recalculation"]}
{"id": "C36", "title": "At most one focused node", "statement": "After focus sync exactly the entity in InputFocus (if styled) is :focus, it is :focus-visible iff focus visibility is on, and no other node is.", "quantifier": "every sequence of focus changes", "why_tests_cant": "unbounded histories", "anchors": ["crates/bevy_flair_style/src/systems.rs: sync_input_focus"]}
{"id": "C37", "title": "Class lists behave as ordered sets", "statement": "contains reflects the last add/remove/toggle, lists built by the API have no duplicates, toggle twice restores membership, and other classes are never affected.", "quantifier": "every sequence of operations", "why_tests_cant": "unbounded histories", "anchors": ["crates/bevy_flair_style/src/components.rs: ClassList"]}
{"id": "C38", "title": "Style components are inserted and removed automatically", "statement": "An auto-inserted component is present while some of its properties has a computed value and is removed only when none has; components the user inserted are never removed.", "quantifier": "every frame history", "why_tests_cant": "unbounded histories", "anchors": ["crates/bevy_flair_core/src/component_properties.rs: apply_values_mut, auto_remove_deferred", "crates/bevy_flair_style/src/systems.rs: auto_remove_components"]}
{"id": "C39", "title": "Shorthand animation declarations reset all longhands", "statement": "After an animation/transition shorthand the per-property lists all have exactly one entry per listed animation and earlier longhands have no effect; later longhands override only their own property.", "quantifier": "every declaration sequence", "why_tests_cant": "every order of shorthands and longhands", "anchors": ["crates/bevy_flair_style/src/animations/properties.rs: resolve_to_output"]}
{"id": "C40", "title": "Animation configuration list", "statement": "One configuration is produced per named animation in order, each option is the list entry at the same position (the last entry when the list is shorter), and default when absent.", "quantifier": "every resolved property map", "why_tests_cant": "list lengths unbounded", "anchors": ["crates/bevy_flair_style/src/animations/properties.rs: from_properties_to_animation_configuration, from_properties_to_transition_configuration"]}
{"id": "C41", "title": "A rule matched several times counts once", "statement": "A ruleset matched through several of its selectors affects an element exactly as if it were matched only by the strongest of them.", "quantifier": "every built style sheet, every element and matching outcome, every inline style", "why_tests_cant": "the number and interleaving of matching selectors is unbounded", "anchors": ["crates/bevy_flair_style/src/style_sheet.rs: get_matching_ruleset_ids_for_element, get_property_values"]}
{"id": "C42", "title": "Changing a style during a transition never crashes", "statement": "Replacing or reversing a live transition, at any time and any number of times, produces a new transition without panicking.", "quantifier": "every history of ticks and reversals, every options", "why_tests_cant": "needs particular chains of reversals at particular times; unbounded histories", "anchors": ["crates/bevy_flair_style/src/animations/transition.rs: update_for_possibly_reversed_transition", "crates/bevy_flair_style/src/components.rs: create_transitions"]}
{"id": "C43", "title": "An active transition always displays a value", "statement": "While a transition is active (waiting or running) sampling it yields a value, as documented on Transition::is_active.", "quantifier": "every transition, easing function and time", "why_tests_cant": "every easing output, including outside [0,1]", "anchors": ["crates/bevy_flair_style/src/animations/transition.rs: is_active, sample_value", "crates/bevy_flair_style/src/animations/curves.rs: LinearCurve, CubicBezierEaseCurve"]}
{"id": "C44", "title": "References read from a mutable property iterator stay valid", "statement": "A reference obtained by dereferencing an item of PropertyMap::iter_mut / values_mut points to live memory for as long as safe code can use it, whatever is done meanwhile with the iterator's other items and with other maps.", "quantifier": "every program of map operations the borrow checker accepts", "why_tests_cant": "use-after-free depends on sharing history and on later operations; tests observe values, not lifetimes", "anchors": ["crates/bevy_flair_core/src/property_map.rs: PropertyMut, IterMut, PropertyMut::set_if_neq"]}
{"id": "C45", "title": "Unset values are the last ones set, and `unset` itself is rejected", "statement": "The unset value of every property is the last one given to set_unset_value for it (by id or canonical name), none if never set; setting one never affects another property; a value that would make a later `unset` declaration panic is rejected.", "quantifier": "all sequences of registrations and set_unset_value calls, all properties", "why_tests_cant": "ranges over all interleavings of registrations and updates; the panic only shows later, at the first explicit unset", "anchors": ["crates/bevy_flair_core/src/registry.rs: set_unset_value, create_unset_values_map", "crates/bevy_flair_core/src/property_value.rs: compute_as_root, compute_with_parent"]}
{"id": "C46", "title": "Retargeting a running transition never makes the value jump", "statement": "When a style change alters the target of a property whose transition is running, the value shown right after the change (no time elapsing) is the value shown right before it.", "quantifier": "all properties, transition options, target values, histories of frames", "why_tests_cant": "depends on where in its course the running transition is, and on which of the earlier targets the new one equals", "anchors": ["crates/bevy_flair_style/src/components.rs: create_transitions", "crates/bevy_flair_style/src/animations/transition.rs: from_possibly_reversed_transition"]}
{"id": "C47", "title": "Every animation reports Started once and Finished once", "statement": "An animation that leaves its initial delay reports Started exactly once and one that reaches its end reports Finished exactly once, in this order, whatever the time steps and option changes.", "quantifier": "all sequences of ticks and option updates", "why_tests_cant": "ranges over all time partitions and interleavings of option changes", "anchors": ["crates/bevy_flair_style/src/components.rs: tick_animations, set_animations"]}
{"id": "C48", "title": "The shown value does not depend on hash map order", "statement": "When several animations of one node drive the same property, the value shown is determined by the style (the order in animation-name), not by the iteration order of a hash map.", "quantifier": "all sets of animations on a node and all iteration orders", "why_tests_cant": "tests see a single, arbitrary iteration order", "anchors": ["crates/bevy_flair_style/src/components.rs: apply_transitions_and_animations"]}
{"id": "C50", "title": "Animations follow animation-name", "statement": "When the list of animations of a node changes, animations no longer listed are cancelled, listed ones that are not cancelled continue from where they are under the new options, newly listed ones start afresh on every animatable property of their keyframes; each cancellation is reported once and nothing else is reported as cancelled.", "quantifier": "all sets of current animations, all new lists, all histories", "why_tests_cant": "ranges over all combinations of states of the old animations and of new lists", "anchors": ["crates/bevy_flair_style/src/components.rs: set_animations"]}
{"id": "C51", "title": "A reset node keeps nothing of its past", "statement": "After a node has been reset (its style sheet was taken away or replaced) and until it gets new styles, it has no values, transitions or animations of its former style sheet, shows and writes nothing and reports no events.", "quantifier": "all states of the node", "why_tests_cant": "ranges over all states a node can be in", "anchors": ["crates/bevy_flair_style/src/components.rs: reset"]}
{"id": "C52", "title": "Attribute lists behave as maps", "statement": "get_attribute returns the value last set for the name, none if it was never set or removed since; other attributes are unaffected.", "quantifier": "all operation sequences", "why_tests_cant": "unbounded histories", "anchors": ["crates/bevy_flair_style/src/components.rs: AttributeList"]}
{"id": "C53", "title": "Exactly the changed values are written to components", "statement": "After a frame, a component that is present holds the new value in every styled property whose effective value changed; every other field keeps what it held (user edits included), or the default if the component was just inserted.", "quantifier": "every registry, entity, frame; mutable and immutable components", "why_tests_cant": "every combination of components, properties and values", "anchors": ["crates/bevy_flair_core/src/component_properties.rs: apply_values_mut, apply_values_ref, internal_apply_values", "crates/bevy_flair_style/src/systems.rs: apply_computed_properties"]}
{"id": "C54", "title": "Transition options per property", "statement": "A property's transition options are those of the last configured transition naming it (directly or via a shorthand name); properties that no transition names have none.", "quantifier": "every list of rulesets and declarations", "why_tests_cant": "every overlap of shorthands and longhands", "anchors": ["crates/bevy_flair_style/src/style_sheet.rs: resolve_transition_options"]}
{"id": "C55", "title": "Inline style is an ordered map of last writes", "statement": "After any sequence of building, set and remove calls an InlineStyle holds, for each name, the value of the last write not followed by a remove, in the order of those last writes (so the declaration written last is applied last); get returns exactly that value.", "quantifier": "every initial list of declarations and every sequence of set/remove calls", "why_tests_cant": "unbounded call sequences with repeated names", "anchors": ["crates/bevy_flair_css_parser/src/inline_styles.rs: InlineStyle::{new, get, set, remove}, FromIterator, FromStr"]}
{"id": "C56", "title": "Inline styles are applied independently", "statement": "After every frame the inline declarations applied to an entity are those of its current InlineStyle (or, if that has errors, those applied before); what other entities' inline styles contain does not matter, `!important` is merely ignored, and removing the component withdraws its declarations.", "quantifier": "every history of insertions, mutations, removals and frames over any number of entities, any query order, any CSS parser", "why_tests_cant": "interleavings of edits over many entities and frames", "anchors": ["crates/bevy_flair_css_parser/src/inline_styles.rs: parse_inline_style", "crates/bevy_flair_css_parser/src/internal_loader.rs: process_ruleset_property"]}
{"id": "C57", "title": "Inline style text is its declarations", "statement": "InlineStyle::new(text) holds exactly the declarations of the CSS declaration list `text`, whatever white space and empty declarations it contains.", "quantifier": "every text", "why_tests_cant": "all placements of white space and separators", "anchors": ["crates/bevy_flair_css_parser/src/inline_styles.rs: FromStr for InlineStyle"]}
{"id": "C58", "title": "Nested rules, @media and @layer blocks mean what CSS nesting says", "statement": "Loading a stylesheet whose rules, @media blocks and @layer blocks are nested to any depth yields, declaration by declaration and in source order, exactly the declarations written, each applying to the elements the nested selector selects when `&` stands for the elements of the enclosing rule, with the specificity of CSS nesting (`&` counts as the most specific parent selector), in the layer formed by all enclosing @layer names and under all enclosing media conditions. A rule whose selector list does not parse is dropped with everything in it and nothing else is affected.", "quantifier": "every stylesheet: any depth and mixture of rules, @media, @layer blocks and statements, any selectors, any matching relation of simple selectors and combinators", "why_tests_cant": "nesting depth and mixtures are unbounded; the lowering flattens the tree with a mutable 'current ruleset' that must be reopened after each nested block", "anchors": ["crates/bevy_flair_css_parser/src/parser.rs:CssRulesetParser", "crates/bevy_flair_css_parser/src/internal_loader.rs:process_ruleset_recursively", "crates/bevy_flair_style/src/css_selector/mod.rs:CssSelector::replace_parent_selector"]}
{"id": "C59", "title": "The layer order of a sheet is the order of first mention in its source", "statement": "After loading a stylesheet the known layers are exactly those its source mentions (by @layer statements and by @layer blocks, nested names included), and their priorities follow the order of first mention in the source.", "quantifier": "every stylesheet, every pair of layers it mentions", "why_tests_cant": "layers are registered as a side effect of lowering rules, so the order depends on the whole document shape", "anchors": ["crates/bevy_flair_css_parser/src/parser.rs:CssStyleSheetParser", "crates/bevy_flair_style/src/builder.rs:RulesetBuilder::add_css_selector", "crates/bevy_flair_style/src/layers.rs:LayersHierarchy::define_layer"]}
{"id": "C60", "title": "A calc() length is worth what its expression says", "statement": "Whenever calc(...) is accepted for a length, its text is a calc expression (sums and differences of products, a product being a value, a parenthesised sum or a nested calc() times or divided by numbers, with the usual precedence and left association), and the resulting length is worth in every unit exactly what the expression is worth; every calc expression whose lengths are all of one unit (zeros aside) is accepted.", "quantifier": "every token tree inside calc(), any depth and length, all rational numbers, all units", "why_tests_cant": "expressions are unboundedly deep and long; precedence, association, the neutral zero and unit mixing interact", "anchors": ["crates/bevy_flair_css_parser/src/calc.rs:parse_calc_value", "crates/bevy_flair_css_parser/src/calc.rs:CalcAdd", "crates/bevy_flair_css_parser/src/reflect/ui.rs:parse_val"]}
{"id": "C61", "title": "calc() of numbers and of angles is worth what its expression says", "statement": "calc() applied to numbers yields the value of the expression, and applied to angles the angle the expression denotes (as a rotation).", "quantifier": "every calc expression over numbers and over angles in any angle unit", "why_tests_cant": "unbounded expressions; each operator must be right at every position", "anchors": ["crates/bevy_flair_css_parser/src/calc.rs:parse_calc_value", "crates/bevy_flair_css_parser/src/calc.rs:CalcAdd", "crates/bevy_flair_css_parser/src/reflect/ui.rs:parse_val", "crates/bevy_flair_css_parser/src/reflect/ui.rs:parse_angle"]}
{"id": "C62", "title": "No text inside calc() hangs or crashes the parser", "statement": "Parsing calc(...) ends for every text with a value or an error; it never panics.", "quantifier": "every token tree, every value type", "why_tests_cant": "all malformed texts must be covered", "anchors": ["crates/bevy_flair_css_parser/src/calc.rs:parse_calc_value", "crates/bevy_flair_css_parser/src/calc.rs:CalcAdd", "crates/bevy_flair_css_parser/src/reflect/ui.rs:parse_val"]}
{"id": "C63", "title": "Box shorthands follow the one-to-four-values rule", "statement": "margin, padding, border-width, border-color and border-radius are accepted exactly when their text is one to four values, and then assign their four longhands clockwise from the top (top-left corner for radii): a missing right is the top, a missing bottom the top, a missing left the right; each longhand is assigned once.", "quantifier": "every text, every value grammar", "why_tests_cant": "all texts and all value grammars, including values of several tokens", "anchors": ["crates/bevy_flair_css_parser/src/shorthand.rs:ShorthandProperty::parse", "crates/bevy_flair_css_parser/src/shorthand.rs:register_default_shorthand_properties", "crates/bevy_flair_css_parser/src/parser.rs:CssPropertyParser::parse_ruleset_property", "crates/bevy_flair_css_parser/src/shorthand.rs:parse_four_values"]}
{"id": "C64", "title": "A shorthand determines exactly its longhands", "statement": "An accepted shorthand declaration assigns every one of its longhands exactly once and nothing else (missing ones get their initial value), and a CSS-wide keyword sets every longhand to that keyword.", "quantifier": "all registered shorthands, every text", "why_tests_cant": "every text of every shorthand's grammar", "anchors": ["crates/bevy_flair_css_parser/src/shorthand.rs:ShorthandProperty::parse", "crates/bevy_flair_css_parser/src/shorthand.rs:register_default_shorthand_properties", "crates/bevy_flair_css_parser/src/parser.rs:CssPropertyParser::parse_ruleset_property"]}
{"id": "C65", "title": "flex, overflow, gap and transform assign what their CSS grammar says", "statement": "flex, overflow, gap and transform are accepted for exactly the texts of their documented grammar and assign the longhands the values written at the respective positions, with the CSS defaults for omitted ones.", "quantifier": "every text, every value grammar", "why_tests_cant": "optional parts give many combinations over unbounded texts", "anchors": ["crates/bevy_flair_css_parser/src/shorthand.rs:ShorthandProperty::parse", "crates/bevy_flair_css_parser/src/shorthand.rs:register_default_shorthand_properties", "crates/bevy_flair_css_parser/src/parser.rs:CssPropertyParser::parse_ruleset_property", "crates/bevy_flair_css_parser/src/shorthand.rs:parse_flex", "crates/bevy_flair_css_parser/src/shorthand.rs:parse_gap", "crates/bevy_flair_css_parser/src/shorthand.rs:parse_transform"]}
{"id": "C66", "title": "Animated values run along the straight line between their end values", "statement": "Sampling the curve between two values of an animatable type at t gives the value whose every number (length, colour coordinate, offset, stop position) is t of the way from the first to the second, as CSS interpolation says; rotations turn by that fraction of the shorter way round.", "quantifier": "all pairs of values of the ten animatable types with the same structure, all t", "why_tests_cant": "unbounded lists of shadows, gradients and stops; all unit combinations; a continuum of values", "anchors": ["crates/bevy_flair_style/src/animations/reflect.rs:InterpolateValue", "crates/bevy_flair_style/src/animations/reflect.rs:interpolate_val", "crates/bevy_flair_style/src/animations/reflect.rs:ReflectAnimatable"]}
{"id": "C67", "title": "An interpolated value starts at its first and ends at its second value, and never crashes", "statement": "For every two values of an animatable property the curve is at the first value for t = 0 and at the second for t = 1, and computing it neither loops nor panics.", "quantifier": "all pairs of values of the ten animatable types, all t, debug and release builds", "why_tests_cant": "all combinations of units, auto, list lengths and gradient kinds", "anchors": ["crates/bevy_flair_style/src/animations/reflect.rs:InterpolateValue", "crates/bevy_flair_style/src/animations/reflect.rs:interpolate_val", "crates/bevy_flair_style/src/animations/reflect.rs:ReflectAnimatable"]}
{"id": "C68", "title": "Keyframes run from 0% to 100%, in order, and hold exactly what the rule declares", "statement": "Whatever add_keyframe/add_properties/set_animation_timing_function calls are made and whatever the blocks of an @keyframes rule are, the built keyframes start at 0%, end at 100%, are strictly ascending and at least 0.1% apart; selectors from, to, percentages and numbers mean their CSS moments and anything else invalidates its block; the keyframe of a moment holds all declarations made for it in source order and the last timing function; no declaration is lost.", "quantifier": "all sequences of builder calls with all f32 times including NaN and infinities; all lists of keyframe blocks", "why_tests_cant": "unbounded sequences of blocks and calls in any order", "anchors": ["crates/bevy_flair_style/src/animations/keyframes.rs:AnimationKeyframesBuilder", "crates/bevy_flair_css_parser/src/parser/keyframes.rs:parse_keyframe", "crates/bevy_flair_css_parser/src/internal_loader.rs"]}
{"id": "C69", "title": "Resolved keyframes give every animated property its declared values and fill the rest in", "statement": "Resolving keyframes never panics and does not depend on hash order; a property is animated iff some keyframe declares it and the values needed exist; every declaring keyframe gets its declared value, a first or last keyframe that does not declare it the current value, and one in between a value on the straight line between its nearest declaring neighbours.", "quantifier": "all keyframe lists, all properties, all current values, all visiting orders of the hash set", "why_tests_cant": "unbounded number of keyframes and gaps between declaring keyframes; all hash orders", "anchors": ["crates/bevy_flair_style/src/animations/keyframes.rs:AnimationKeyframesResolver::resolve", "crates/bevy_flair_style/src/animations/keyframes.rs:interpolate_value"]}
{"id": "C70", "title": "Keyframe animations pass through their keyframes and use the timing function of the keyframe they leave", "statement": "At a keyframe's moment the animated value is that keyframe's value; strictly between two neighbouring keyframes it is their interpolation at the eased progress, eased by the earlier keyframe's own timing function or else the animation's.", "quantifier": "all keyframe lists, all moments in [0,1], all timing functions", "why_tests_cant": "a continuum of moments and unbounded keyframe lists", "anchors": ["crates/bevy_flair_style/src/animations/keyframes.rs:AnimationKeyframesResolver::resolve", "crates/bevy_flair_style/src/animations/keyframes.rs:interpolate_value", "crates/bevy_flair_style/src/animations/reflect.rs:create_keyframe_animation_with", "crates/bevy_flair_style/src/animations/curves.rs"]}
{"id": "C71", "title": "A keyframe that does not mention a property does not change its animation", "statement": "The value of an animated property at any moment is determined by the keyframes that declare it (and the first and last): removing a keyframe in between that does not declare it leaves the animation of the property the same.", "quantifier": "all keyframe lists, all properties, all moments", "why_tests_cant": "unbounded keyframe lists and a continuum of moments", "anchors": ["crates/bevy_flair_style/src/animations/keyframes.rs:AnimationKeyframesResolver::resolve", "crates/bevy_flair_style/src/animations/keyframes.rs:interpolate_value", "crates/bevy_flair_style/src/animations/reflect.rs:create_keyframe_animation_with", "crates/bevy_flair_style/src/animations/curves.rs"]}
{"id": "C72", "title": "Timing functions are parsed as CSS says, and never panic", "statement": "Parsing a timing function never panics; linear() accepts comma-separated stops and turns them into points as css-easing says: missing first and last places are 0% and 100%, a place before an earlier one is moved to the furthest earlier one, other missing places are evenly spaced.", "quantifier": "all token sequences, all lists of stops of any length", "why_tests_cant": "unbounded lists of stops with arbitrary gaps and order of places", "anchors": ["crates/bevy_flair_css_parser/src/parser/animations.rs:easing::parse_easing_function"]}
{"id": "C73", "title": "A linear() timing function is the broken line through its points", "statement": "Sampled at any moment a linear() timing function gives the broken line through its points, constant outside 0%..100%.", "quantifier": "all lists of points, all moments", "why_tests_cant": "a continuum of moments and unbounded lists of points", "anchors": ["crates/bevy_flair_css_parser/src/parser/animations.rs:easing::parse_easing_function", "crates/bevy_flair_style/src/animations/easing.rs:EasingFunction::into_easing_curve"]}
{"id": "C74", "title": "steps() and the timing keywords have the output CSS specifies", "statement": "For each number of steps and step position, the output at any moment is the CSS step function; keywords and text denote the documented functions; invalid numbers of steps are rejected.", "quantifier": "all numbers of steps, all positions, all moments", "why_tests_cant": "unbounded number of steps and a continuum of moments", "anchors": ["crates/bevy_flair_css_parser/src/parser/animations.rs:easing::parse_easing_function", "crates/bevy_flair_style/src/animations/easing.rs:EasingFunction::into_easing_curve"]}
{"id": "C75", "title": "A value given through custom properties means what it would mean written out", "statement": "The parser of a property is given, for a value with var() in it, the tokens of the text with every var(--v), at any depth, replaced by the tokens of the text that v is declared with, functions and their ends included; it is given nothing exactly if a text is outside the supported grammar, a variable needed is not declared, or more than seven declarations are nested.", "quantifier": "all texts (byte strings) of values and of custom properties, all numbers, any nesting", "why_tests_cant": "the text is tokenised, kept as tokens, printed and tokenised again: that must be the identity for every sequence of tokens, names, numbers and neighbours", "anchors": ["crates/bevy_flair_css_parser/src/vars.rs:parse_var_tokens", "crates/bevy_flair_style/src/vars.rs:VarToken::to_css", "crates/bevy_flair_style/src/to_css.rs", "crates/bevy_flair_css_parser/src/reflect.rs:as_dynamic_parse_var_tokens", "crates/bevy_flair_css_parser/src/shorthand.rs:as_dynamic_parse_var_tokens"]}
{"id": "C76", "title": "A sheet is loaded with exactly the sheets it imports", "statement": "While a sheet is parsed, exactly the sheets found by the import pass before it are asked for, so loading never panics; a loaded sheet has exactly the imports its rules name, each loaded the same way; if no import is missing, loading ends exactly when there is no infinite chain of imports; an @import is one exactly if it is an URL or string and nothing else or layer(name); a sheet given inline is refused exactly if it has an import.", "quantifier": "all texts of sheets, all sets of files and import graphs", "why_tests_cant": "two separate parsers of the same text have to agree on every text, and import graphs are unbounded", "anchors": ["crates/bevy_flair_css_parser/src/imports_parser.rs:extract_imports", "crates/bevy_flair_css_parser/src/loader.rs:CssStyleSheetLoader::load", "crates/bevy_flair_css_parser/src/loader.rs:InlineCssStyleSheetParser::load_stylesheet", "crates/bevy_flair_css_parser/src/parser.rs:CssStyleSheetParser::rule_without_block"]}
{"id": "C77", "title": "What is wrong in one place of a sheet does not change the rest", "statement": "The part of a rule body behind a semicolon, and the part of a sheet behind a block in curly brackets, means what it would mean alone, whatever comes before it; a declaration that does not parse, a rule whose selectors do not parse and an unknown at-rule are as if they were not there.", "quantifier": "all texts before and behind, all parsers of selectors and of declarations", "why_tests_cant": "error recovery must work for every kind and position of an error and everything around it", "anchors": ["crates/bevy_flair_css_parser/src/parser.rs:CssRulesetParser", "crates/bevy_flair_css_parser/src/parser.rs:CssStyleSheetParser", "crates/bevy_flair_css_parser/src/parser.rs:parse_inner_at_rule"]}
{"id": "C78", "title": "A media query applies exactly to the windows that satisfy its conditions", "statement": "@media accepts exactly conditions in brackets joined by `and`, each a colour scheme, (min-/max-) width, height, aspect-ratio or resolution with a value of its form, names in any case; an accepted query applies to a window exactly if all its conditions hold.", "quantifier": "all token sequences, all sizes, ratios, resolutions and windows of whole pixels", "why_tests_cant": "all queries of any length against all windows", "anchors": ["crates/bevy_flair_css_parser/src/parser/media_selectors.rs:parse_media_selectors", "crates/bevy_flair_style/src/media_selector.rs:MediaSelector::matches", "crates/bevy_flair_style/src/systems.rs"]}
{"id": "C79", "title": "From the text of a sheet to its rules", "statement": "A sheet written according to the grammar (rules, nested rules, declarations, @media, @layer, @import, @font-face, @keyframes, any white space) is parsed as exactly what is written; and for any text of a sheet without backslashes, loading its rules succeeds and gives, in order, exactly the declarations that nested CSS means by it: with their layers, media conditions, selected elements and specificities.", "quantifier": "all texts without backslashes, all parsers of selectors and declarations", "why_tests_cant": "all texts, with unbounded nesting", "anchors": ["crates/bevy_flair_css_parser/src/parser.rs:CssStyleSheetParser", "crates/bevy_flair_css_parser/src/parser.rs:CssRulesetParser", "crates/bevy_flair_css_parser/src/internal_loader.rs:InternalStylesheetLoader::load_stylesheet"]}
{"id": "C80", "title": "What the values of `animation` and `transition` mean", "statement": "A value of the shorthand `animation` or `transition` is accepted exactly if it is a list of parts with commas between them (and maybe `!important`), where every word of a part can be given to a longhand that has it as a value and has none yet (first time: duration, second: delay; the name is what no other longhand can take), and it means exactly that assignment, which is unique; the order of the words of a part does not matter except for the two times; a longhand is accepted exactly if it is a list of its values with commas between them, in any case of letters.", "quantifier": "all token sequences of values, all numbers of parts and words, all orders", "why_tests_cant": "all orders of up to eight words of unbounded many kinds in lists of any length", "anchors": ["crates/bevy_flair_css_parser/src/parser/animations.rs:parse_animation_shorthand", "crates/bevy_flair_css_parser/src/parser/animations.rs:parse_transition_shorthand", "crates/bevy_flair_css_parser/src/parser/animations.rs:parse_animation_values", "crates/bevy_flair_css_parser/src/parser/animations.rs:parse_animation_property", "crates/bevy_flair_css_parser/src/parser/animations.rs:parse_transition_property", "crates/bevy_flair_css_parser/src/parser/animations.rs:parse_duration", "crates/bevy_flair_css_parser/src/lib.rs:parse_comma_separated_with"]}
{"id": "C81", "title": "What selectors see of a node is what its components say", "statement": "For an entity that is a node from its first update on, after every update the id, classes, attributes, :root, :disabled, :checked, :active and :hover that selectors are matched with are those given by its current Name, ClassList, AttributeList, parent, InteractionDisabled, Checked, Pressed / Hovered or Interaction components, whatever components were inserted, changed or removed in whichever update and in whatever order the systems ran; an update in which nothing happens changes nothing, and the systems change no other component.", "quantifier": "all sequences of updates, all sequences of component operations in them, all orders of the systems", "why_tests_cant": "change detection depends on the whole history since the last update, and the systems have no given order", "anchors": ["crates/bevy_flair_style/src/systems.rs:calculate_is_root", "crates/bevy_flair_style/src/systems.rs:apply_classes", "crates/bevy_flair_style/src/systems.rs:apply_attributes", "crates/bevy_flair_style/src/systems.rs:track_name_changes", "crates/bevy_flair_style/src/systems.rs:sync_marker_component_system", "crates/bevy_flair_style/src/systems.rs:sync_hovered_system", "crates/bevy_flair_style/src/systems.rs:sync_interaction_system", "crates/bevy_flair_style/src/lib.rs:FlairStylePlugin"]}
{"id": "C82", "title": "Rules in @media blocks follow the window theme and the size of every node", "statement": "After every update, on every node whose style sheet is loaded, a rule inside @media blocks is active exactly if all its media features hold for the current theme of the window the node is shown on and for its current size and scale, whatever windows were opened, themes and sizes changed, and nodes restyled in whichever update.", "quantifier": "all histories of updates over any number of windows, cameras, nodes and rules", "why_tests_cant": "correctness depends on flags left by earlier evaluations that stopped at the first feature that did not hold", "anchors": ["crates/bevy_flair_style/src/systems.rs:set_window_theme_on_change_event", "crates/bevy_flair_style/src/systems.rs:compute_window_media_features", "crates/bevy_flair_style/src/systems.rs:set_nodes_for_style_recalculation_on_window_media_features_change", "crates/bevy_flair_style/src/systems.rs:set_nodes_for_style_recalculation_on_render_target_info_change", "crates/bevy_flair_style/src/systems.rs:MediaFeaturesProviderImpl", "crates/bevy_flair_style/src/systems.rs:calculate_style_and_set_vars", "crates/bevy_flair_style/src/media_selector.rs:MediaSelectors::matches"]}
{"id": "C83", "title": "Structural pseudo-classes follow changes of the hierarchy", "statement": "Whenever nodes are added, removed, moved or reordered, after the next update every node has exactly the rules whose :first-child, :last-child, :nth-child, :nth-last-child and :empty hold of it in the new hierarchy.", "quantifier": "all histories of hierarchies (any shape and size), all sets of compound rules", "why_tests_cant": "which nodes are looked at again depends on flags left by all earlier matchings", "anchors": ["crates/bevy_flair_style/src/systems.rs:set_related_nodes_for_style_recalculation", "crates/bevy_flair_style/src/systems.rs:mark_changed_nodes_for_recalculation", "crates/bevy_flair_style/src/systems.rs:calculate_style_and_set_vars", "crates/bevy_flair_style/src/css_selector/element.rs:apply_selector_flags"]}
{"id": "C84", "title": "Custom properties reach the nodes that use them", "statement": "After every update, every node whose style sheet is loaded has the property values its declarations give it with the custom properties declared now at the nearest node at or above it, also when only the declaring node changed.", "quantifier": "all hierarchies, all histories of changes to classes, inline styles, sheets and hierarchy, all custom properties and declarations", "why_tests_cant": "which nodes are recalculated depends on comparisons with all earlier states of their ancestors", "anchors": ["crates/bevy_flair_style/src/systems.rs:calculate_style_and_set_vars", "crates/bevy_flair_style/src/systems.rs:set_property_values", "crates/bevy_flair_style/src/systems.rs:mark_as_changed_on_style_sheet_change", "crates/bevy_flair_style/src/components.rs:NodeVars::replace_vars", "crates/bevy_flair_style/src/style_sheet.rs:get_vars", "crates/bevy_flair_style/src/style_sheet.rs:get_property_values"]}
{"id": "C85", "title": "Lengths, aspect ratios, grid tracks and grid lines accept exactly their grammar", "statement": "A declaration of a length, an aspect-ratio, a track list, a grid template or a grid line is accepted exactly if its value is `unset`, `inherit`, `initial` or follows the grammar of the property, and then it means what the grammar says (units, percentages, minmax, fit-content, repeat with its count, span).", "quantifier": "all token sequences", "why_tests_cant": "unboundedly many values, both accepted and refused", "anchors": ["crates/bevy_flair_css_parser/src/reflect/ui.rs:parse_val", "crates/bevy_flair_css_parser/src/reflect/ui.rs:parse_aspect_ratio", "crates/bevy_flair_css_parser/src/reflect/grid.rs:parse_grid_track", "crates/bevy_flair_css_parser/src/reflect/grid.rs:parse_repeated_grid_track", "crates/bevy_flair_css_parser/src/reflect/grid.rs:parse_grid_placement", "crates/bevy_flair_css_parser/src/utils.rs:parse_property_value_with"]}
{"id": "C86", "title": "Box shadows accept exactly their grammar", "statement": "A box-shadow declaration is accepted exactly if it is a comma-separated list of shadows, each with two to four lengths and at most one color in front or behind, and then every shadow has that color (or the default one), offsets, blur and spread.", "quantifier": "all token sequences, all color notations", "why_tests_cant": "unboundedly many lists of shadows", "anchors": ["crates/bevy_flair_css_parser/src/reflect/ui.rs:parse_single_box_shadow_style", "crates/bevy_flair_css_parser/src/reflect/ui.rs:parse_box_shadow"]}
{"id": "C87", "title": "After every update the components show the CSS values", "statement": "Let any number of updates happen, in which nodes are spawned, despawned and moved, and classes, inline styles, sheets and custom properties change. After the last one every property of every node has exactly one CSS value - from the rules that match now, the custom properties declared now above the node, and the values of the nodes above it - and if there is one, the component shows it, whatever happened before. Where there is none, nothing is written.", "quantifier": "all histories of updates, all trees, sheets, custom properties, property registries, and components as spawned", "why_tests_cant": "the value is kept up to date incrementally by five systems with flags, pending maps and shared allocations; a missed flag shows only after particular histories", "anchors": ["crates/bevy_flair_style/src/lib.rs:FlairStylePlugin", "crates/bevy_flair_style/src/systems.rs:reset_properties", "crates/bevy_flair_style/src/systems.rs:mark_as_changed_on_style_sheet_change", "crates/bevy_flair_style/src/systems.rs:calculate_style_and_set_vars", "crates/bevy_flair_style/src/systems.rs:set_property_values", "crates/bevy_flair_style/src/systems.rs:compute_property_values", "crates/bevy_flair_style/src/systems.rs:apply_computed_properties", "crates/bevy_flair_style/src/components.rs:NodeProperties"]}
{"id": "C88", "title": "Font names and asset paths mean the same wherever they come from", "statement": "A font family means the font of the last @font-face with that name, an asset path the asset at that path, and a name without a font face or an invalid path means no value - whether it is written in a rule, comes from a custom property or an inline style, or is inherited, and in every order of updates.", "quantifier": "all sheets and font faces, all trees, all histories of updates", "why_tests_cant": "names are replaced at two different moments, one of them after inheritance and only on nodes that are about to change; the result must not depend on which", "anchors": ["crates/bevy_flair_style/src/placeholder.rs:try_resolve_placeholder", "crates/bevy_flair_style/src/placeholder.rs:Placeholder", "crates/bevy_flair_style/src/builder.rs:resolve_placeholders", "crates/bevy_flair_style/src/builder.rs:build", "crates/bevy_flair_style/src/systems.rs:resolve_placeholders"]}
{"id": "C89", "title": "Keyword properties accept every keyword in its CSS spelling, and what error messages suggest", "statement": "For a property whose values are the variants of an enumeration, every variant without fields is written in CSS as its words with hyphens between them, in any letters, and means that variant; nothing but such spellings and the global keywords is accepted; and the spellings an error message lists are exactly the accepted CSS spellings.", "quantifier": "all enumerations whose variants differ by more than capitals, all values", "why_tests_cant": "the conversion between variant names and CSS words has to be right for every enumeration an application registers, and every identifier", "anchors": ["crates/bevy_flair_css_parser/src/reflect/enums.rs:enum_variant_to_css_case", "crates/bevy_flair_css_parser/src/reflect/enums.rs:create_unit_enum_from_reflection", "crates/bevy_flair_css_parser/src/reflect/enums.rs:parse_enum_value"]}
{"id": "C90", "title": "Points, rectangles, angles, clip margins, line heights, text shadows, paths and image modes accept exactly their grammar", "statement": "A value of these types is accepted if and only if it is a global keyword or in the grammar of its type (none or one or two lengths; two corners; none, 0 or an angle; an optional box and a margin; normal, a number, a percentage, px or em; an optional color before or after two lengths; a string or url; auto, stretch, tiled(...) or sliced(...)), and means what the grammar says.", "quantifier": "all sequences of tokens", "why_tests_cant": "optional parts are tried and rolled back, so acceptance of each text depends on the order of attempts; only a proof covers all texts", "anchors": ["crates/bevy_flair_css_parser/src/reflect/ui.rs:parse_vec2", "crates/bevy_flair_css_parser/src/reflect/ui.rs:parse_val2", "crates/bevy_flair_css_parser/src/reflect/ui.rs:parse_rect", "crates/bevy_flair_css_parser/src/reflect/ui.rs:parse_angle", "crates/bevy_flair_css_parser/src/reflect/ui.rs:parse_overflow_clip_margin", "crates/bevy_flair_css_parser/src/reflect/ui.rs:parse_four_values", "crates/bevy_flair_css_parser/src/reflect/ui.rs:parse_z_index", "crates/bevy_flair_css_parser/src/reflect/text.rs:parse_line_height", "crates/bevy_flair_css_parser/src/reflect/text.rs:parse_text_shadow", "crates/bevy_flair_css_parser/src/reflect/assets.rs:parse_asset_path", "crates/bevy_flair_css_parser/src/reflect/image.rs:parse_image_mode"]}
{"id": "C91", "title": "Gradients accept exactly their grammar, and mean what it says", "statement": "A value of background-gradient or border-gradient is accepted if and only if it is a global keyword or a comma separated list of linear-gradient(...), radial-gradient(...) and conic-gradient(...), each with an optional header (direction, shape, position, color space, in that order) and stops and hints separated by commas; the gradient has the direction, shape, position, color space, and stops written, and the CSS defaults for what is missing.", "quantifier": "all sequences of tokens, all notations of colors apart from lengths and keywords", "why_tests_cant": "header pieces, lengths, and stops are tried and rolled back in a fixed order, so which texts are accepted, and as what, can only be settled for all texts by proof", "anchors": ["crates/bevy_flair_css_parser/src/reflect/gradient.rs:parse_linear_gradient", "crates/bevy_flair_css_parser/src/reflect/gradient.rs:parse_radial_gradient", "crates/bevy_flair_css_parser/src/reflect/gradient.rs:parse_conic_gradient", "crates/bevy_flair_css_parser/src/reflect/gradient.rs:parse_ui_position", "crates/bevy_flair_css_parser/src/reflect/gradient.rs:parse_radial_gradient_shape", "crates/bevy_flair_css_parser/src/reflect/gradient.rs:parse_gradient"]}
{"id": "C92", "title": "The colors drawn along a gradient are those of the stops written", "statement": "The stop that is put at zero when the first stop written is elsewhere does not change the color at any point of the gradient line, as CSS defines that color from the stops written, unless the first stop is before zero; and a hint has the meaning of CSS.", "quantifier": "all gradients, line lengths, points of the line, ways of mixing colors", "why_tests_cant": "it is about every point of the line and every list of stops, through the CSS rules that order and spread stops", "anchors": ["crates/bevy_flair_css_parser/src/reflect/gradient.rs:insert_zero_stop_if_missing", "crates/bevy_flair_css_parser/src/reflect/gradient.rs:parse_linear_color_stop", "crates/bevy_flair_css_parser/src/reflect/gradient.rs:parse_angular_color_stop"]}
{"id": "C93", "title": "Errors are reported where they are", "statement": "The range of the text that the report of a mistake marks is that of the piece of the text the mistake is in: for every text, with lines of any kind that CSS allows and characters of any length, the range lies in the text, begins and ends between characters, and covers the piece.", "quantifier": "all texts (sequences of Unicode characters), all positions and pieces of them", "why_tests_cant": "the place is computed from a line number and a column in UTF-16 units into byte offsets; whether it is right, or even in range, depends on every character before it", "anchors": ["crates/bevy_flair_css_parser/src/error.rs:CssErrorLocation::into_range", "crates/bevy_flair_css_parser/src/error.rs:CssError::improve_location_with_sub_str", "crates/bevy_flair_css_parser/src/parser.rs:collect_parser"]}
{"id": "C94", "title": "No mistake in a sheet crashes the loader, and each is reported once", "statement": "Loading a sheet ends, in every error mode, with a sheet or with the report of its mistakes; the report has every mistake of the sheet once, in the order of the text, and nothing else; what is right has its effect, whatever is wrong beside it; the error mode decides only whether mistakes make loading fail, and whether and how they are printed.", "quantifier": "all sheets (rules, nested rules, @media and @layer blocks, @font-face, @keyframes, wrong parts at any place), texts, error modes", "why_tests_cant": "a crash or a lost error can come from any combination of wrong parts at any depth", "anchors": ["crates/bevy_flair_css_parser/src/internal_loader.rs:parse_css", "crates/bevy_flair_css_parser/src/internal_loader.rs:process_ruleset_property", "crates/bevy_flair_css_parser/src/internal_loader.rs:report_ruleset_property_errors", "crates/bevy_flair_css_parser/src/parser.rs:collect_parser", "crates/bevy_flair_css_parser/src/parser.rs:parse_value", "crates/bevy_flair_css_parser/src/parser/font_face.rs", "crates/bevy_flair_css_parser/src/parser/keyframes.rs", "crates/bevy_flair_css_parser/src/error.rs:ErrorReportGenerator"]}
{"id": "C95", "title": "An update does not depend on the order in which the scheduler runs the systems", "statement": "The systems of the plugin are only partially ordered, and the scheduler may run those that are unordered in any order, or in parallel: every order that the declared constraints allow leaves the same styles, markers, animations, events and components, in every update and over any number of updates.", "quantifier": "all worlds, all behaviours of the systems on what they read, all orders that the constraints allow, any number of updates", "why_tests_cant": "a test runs the one order that its scheduler happened to pick", "anchors": ["crates/bevy_flair_style/src/lib.rs:FlairStylePlugin::build", "crates/bevy_flair_style/src/lib.rs:StyleSystems", "crates/bevy_flair_style/src/systems.rs"]}
{"id": "C96", "title": "Setting properties sets their places in a component and nothing else", "statement": "Applying values to a component makes every given property show its value, leaves every other place of the component and every other component as they were, inserts a missing component (from its default, with one event) only if it is marked for that, and setting the initial values gives the default ones.", "quantifier": "all component types and nested property paths, all components, all values of the right types", "why_tests_cant": "tests apply a few values to a few components; the claim is for every type, path and value", "anchors": ["crates/bevy_flair_core/src/component_property.rs:ComponentProperty::get_value", "crates/bevy_flair_core/src/component_property.rs:ComponentProperty::apply_value", "crates/bevy_flair_core/src/component_properties.rs:internal_apply_values", "crates/bevy_flair_core/src/component_properties.rs:impl_extract_component_properties!", "crates/bevy_flair_core/src/registry.rs:create_initial_values_map"]}
{"id": "C97", "title": "Applying values directly, through a queue, or deferred gives the same result", "statement": "The three ways of applying values to an entity (with the world, with the entity and a queue, with only a queue) leave the same components and events once the queue has run, and so do the two ways of removing components without values; a component is removed exactly if it is marked for it, present, and none of its properties has a value.", "quantifier": "all components, entities and values", "why_tests_cant": "the ways differ in when they write; equality must hold for every entity and value", "anchors": ["crates/bevy_flair_core/src/component_properties.rs:apply_values_world_mut", "crates/bevy_flair_core/src/component_properties.rs:apply_values_mut", "crates/bevy_flair_core/src/component_properties.rs:apply_values_ref", "crates/bevy_flair_core/src/component_properties.rs:auto_remove", "crates/bevy_flair_core/src/component_properties.rs:auto_remove_deferred"]}
{"id": "C98", "title": "Each CSS property sets its own property of its own component", "statement": "Every supported CSS name denotes one field of one component, the one its name says; no two names denote the same field; every registered field but three has a name; every longhand that a shorthand expands to is supported; setting CSS properties of an entity sets exactly those fields of the components and leaves all other components and fields alone; the inherited properties are the text ones.", "quantifier": "all CSS names, all entities, all values, all types of the fields", "why_tests_cant": "a wrong row of the table shows only for its own property on an entity that distinguishes it", "anchors": ["crates/bevy_flair_core/src/impls.rs", "crates/bevy_flair_style/src/systems.rs:apply_computed_properties", "crates/bevy_flair_css_parser/src/shorthand.rs"]}
{"id": "C99", "title": "A running animation plays the keyframes that the style gives it now", "statement": "After every update a node plays exactly the animations its style declares, and each of them plays the keyframes that the style sheet, the custom properties and the timing function give for its name.", "quantifier": "all histories of updates, with any changes of rules, custom properties, resets, time steps, and any order of hash maps", "why_tests_cant": "which keyframes play depends on when the animation started and on everything that changed since", "anchors": ["crates/bevy_flair_style/src/systems.rs:set_property_values", "crates/bevy_flair_style/src/systems.rs:resolve_animations", "crates/bevy_flair_style/src/components.rs:NodeProperties::set_animations"]}
{"id": "C100", "title": "Colors mean what CSS says", "statement": "A color property, and every color inside a box shadow, a text shadow or a gradient, accepts exactly the color notations of CSS (hexadecimal and named colors, rgb, hsl, hwb, lab, lch, oklab, oklch, color) and the resulting color is the one CSS gives for that notation, with components and alpha clamped, hues brought into one turn and missing components zero.", "quantifier": "all token sequences, with any numbers, percentages, angles, separators, spellings in capitals, alpha and missing components", "why_tests_cant": "the repo tests one or two literals for each notation; separators, units, ranges and missing components multiply", "anchors": ["crates/bevy_flair_css_parser/src/reflect/color.rs:parse_color", "crates/bevy_flair_css_parser/src/reflect/color.rs:ParsedColor", "crates/bevy_flair_css_parser/src/reflect/ui.rs:parse_box_shadow", "crates/bevy_flair_css_parser/src/reflect/text.rs", "crates/bevy_flair_css_parser/src/reflect/gradient.rs"]}
{"id": "C101", "title": "A selector matches exactly the nodes CSS says", "statement": "In a world whose sibling links, root flags and style data are in sync with the hierarchy, a rule with a selector applies to a node exactly if the node satisfies the selector by the meaning of CSS Selectors 4: type, id, class, attribute, state, :root, :empty, :nth-*, :nth-child(of), :is, :where, :not, :has, the four combinators and ::before / ::after.", "quantifier": "all finite hierarchies, all node data, all selectors the parser can produce (any nesting of :is, :not, :has), all nodes; all histories of hierarchy changes that lead there", "why_tests_cant": "matching backtracks over the tree, and the repo tests it on a test double of the element interface, never on the one that is used; trees and selectors are unbounded", "anchors": ["crates/bevy_flair_style/src/css_selector/element.rs:ElementRef", "crates/bevy_flair_style/src/css_selector/mod.rs:CssSelector::matches_selector", "crates/bevy_flair_style/src/systems.rs:sync_siblings_system", "crates/bevy_flair_style/src/components.rs:NodeStyleData"]}
{"id": "C102", "title": "Rules compare by CSS specificity", "statement": "Of two rules in the same layer, the number by which the style sheet sorts them is smaller exactly if its selector is less specific by CSS Selectors 4 (ids, then classes, attributes and pseudo-classes, then types and pseudo-elements; :is, :not and :has count as their most specific argument, :where as nothing); counts above 1023 are clamped and never overflow into the next kind.", "quantifier": "all pairs of selectors, any length and nesting", "why_tests_cant": "selectors are unbounded in length and nesting, and three counters share one integer", "anchors": ["crates/bevy_flair_style/src/css_selector/mod.rs:CssSelector::specificity", "crates/bevy_flair_style/src/builder.rs:StyleSheetBuilder::build"]}
{"id": "C103", "title": "Components show the CSS values of the style sheets, whatever happened before", "statement": "After any sequence of updates in which nodes are spawned, despawned, moved, get and lose classes, ids, attributes and states, and style sheets, inline styles and media features change, every property of every node has exactly one CSS value: the declaration that wins by inline style, layer, specificity and source order among the rules whose selector and media query hold now, with var() replaced by the custom properties seen now, and inheritance from the parent; and if that is a value, the component shows it.", "quantifier": "all style sheets that build (any rules, layers, selectors, media queries, declarations with and without var()), all trees, all histories of updates", "why_tests_cant": "it is the whole pipeline over all sheets, trees and histories", "anchors": ["crates/bevy_flair_style/src/systems.rs:calculate_style_and_set_vars", "crates/bevy_flair_style/src/systems.rs:set_property_values", "crates/bevy_flair_style/src/systems.rs:apply_computed_properties", "crates/bevy_flair_style/src/style_sheet.rs:StyleSheet::get_matching_ruleset_ids_for_element", "crates/bevy_flair_style/src/builder.rs:StyleSheetBuilder::build", "crates/bevy_flair_style/src/css_selector/mod.rs:CssSelector::matches_selector"]}
{"id": "C104", "title": "The active rules follow every change", "statement": "After any number of frames in which nodes are spawned, despawned, moved and reordered, get and lose classes, ids, attributes and states, and style sheets and media features change, exactly the rules whose selectors and media queries hold now are active on every styled node, although only the nodes that the systems marked were matched again.", "quantifier": "all trees, all style sheets, all histories of frames", "why_tests_cant": "which nodes are matched again depends on flags left behind by all earlier matchings; no finite set of histories covers it", "anchors": ["crates/bevy_flair_style/src/systems.rs:set_related_nodes_for_style_recalculation", "crates/bevy_flair_style/src/systems.rs:mark_changed_nodes_for_recalculation", "crates/bevy_flair_style/src/systems.rs:calculate_style_and_set_vars", "crates/bevy_flair_style/src/css_selector/element.rs:ElementRef::apply_selector_flags", "crates/bevy_flair_style/src/css_selector/mod.rs:CssSelector::matches_selector"]}
{"id": "C105", "title": "Components follow the style sheets although only marked nodes are looked at", "statement": "From the start of an application, through any number of updates in which nodes are spawned, despawned, moved and reordered, get and lose classes, ids, attributes and states, style sheets arrive and change, and inline styles, themes and window sizes change, every property of every node has exactly one CSS value after the last update, and when that is a value the component shows it - although in each update only those nodes were matched and restyled that flags and change detection led to.", "quantifier": "all trees, all style sheets, all histories of updates", "why_tests_cant": "the outcome depends on flags, custom properties and computed values left behind by all earlier updates; no finite set of histories covers it", "anchors": ["crates/bevy_flair_style/src/lib.rs:FlairStylePlugin", "crates/bevy_flair_style/src/systems.rs:calculate_style_and_set_vars", "crates/bevy_flair_style/src/systems.rs:set_property_values", "crates/bevy_flair_style/src/systems.rs:compute_property_values", "crates/bevy_flair_style/src/systems.rs:apply_computed_properties", "crates/bevy_flair_style/src/systems.rs:set_nodes_for_style_recalculation_on_window_media_features_change"]}
{"id": "C106", "title": "A running transition ends at the value that the style has now", "statement": "Whatever happens to a node since it was spawned - style changes, new transition options, animations, resets - if a transition of a property is under way, the property has a style value and the transition ends at exactly that value, however often the target was changed on the way.", "quantifier": "all histories of frames, all values, easings and transition options", "why_tests_cant": "a transition can be replaced, reversed, cancelled and restarted in any order at any time; tests see a few sequences", "anchors": ["crates/bevy_flair_style/src/components.rs:create_transitions", "crates/bevy_flair_style/src/components.rs:set_transition_options", "crates/bevy_flair_style/src/components.rs:apply_computed_properties"]}
{"id": "C107", "title": "While transitions and animations run, components show what they give, and the CSS value otherwise", "statement": "Through any number of updates as in C105, in which the style sheets also give nodes transitions and animations at any time, after the last update every property of every node has exactly one CSS value, and its component shows the value of the last animation that gives one; else, if the property is in transition, the value of the transition, which ends at the CSS value; else the CSS value.", "quantifier": "all trees, style sheets, transition options, animations and histories of updates", "why_tests_cant": "the value shown depends on when each of the nodes was restyled, on what the component showed before and on the time that passed; no finite set of histories covers it", "anchors": ["crates/bevy_flair_style/src/lib.rs:FlairStylePlugin", "crates/bevy_flair_style/src/systems.rs:compute_property_values", "crates/bevy_flair_style/src/systems.rs:tick_animations", "crates/bevy_flair_style/src/systems.rs:set_animation_computed_values", "crates/bevy_flair_style/src/systems.rs:apply_computed_properties", "crates/bevy_flair_style/src/components.rs:NodeProperties"]}
{"id": "C108", "title": "A ReflectValue keeps the Rust value and its type", "statement": "A ReflectValue made from a value of any Rust type is of that type and of no other, downcasting it to the type gives the value back unchanged, it is the same as one made from a box, a clone has the same value, a failed downcast gives back the ReflectValue, and two ReflectValues are equal exactly if their types are the same and their values are equal.", "quantifier": "all reflected types, declarations of structs and values", "why_tests_cant": "the type is generic: there are unboundedly many types and nested structs, and a dynamic type test decides which representation is used", "anchors": ["crates/bevy_flair_core/src/reflect_value.rs:ReflectValue", "crates/bevy_flair_core/src/reflect_value.rs:new", "crates/bevy_flair_core/src/reflect_value.rs:new_from_box", "crates/bevy_flair_core/src/reflect_value.rs:downcast_value", "crates/bevy_flair_core/src/reflect_value.rs:downcast_value_ref", "crates/bevy_flair_core/src/reflect_value.rs:eq", "crates/bevy_flair_core/src/reflect_value.rs:reflect_clone"]}
{"id": "C109", "title": "The text of a selector is read as what is written, and applies to the nodes it describes", "statement": "The selector text of a rule is accepted exactly if it is a comma separated list of selectors of CSS (types, ids, classes, attributes with operators and flags, the supported pseudo-classes with lists in brackets, combinators, ::before and ::after; in a nested rule also & and leading combinators), and it is read as exactly the list that is written; a bad member of :is() or :where() is dropped alone; attribute operators compare as in CSS; the selectors of rules in rules, at any depth, have & replaced by those around them; and the rule applies to exactly the nodes that one of the selectors describes, without panicking.", "quantifier": "all token texts, readers of An+B, depths of nesting, worlds and nodes", "why_tests_cant": "selector texts are unboundedly long and nested, and acceptance has to be decided for every one of them", "anchors": ["crates/bevy_flair_style/src/css_selector/mod.rs:CssSelectorParser", "crates/bevy_flair_style/src/css_selector/mod.rs:CssSelector::parse_comma_separated", "crates/bevy_flair_style/src/css_selector/mod.rs:CssSelector::parse_comma_separated_for_nested", "crates/bevy_flair_style/src/css_selector/mod.rs:CssSelector::parse_single", "crates/bevy_flair_style/src/css_selector/mod.rs:CssSelector::parse_single_for_nested", "crates/bevy_flair_style/src/css_selector/mod.rs:CssSelector::replace_parent_selector", "crates/bevy_flair_style/src/css_selector/element.rs:has_namespace", "crates/bevy_flair_css_parser/src/internal_loader.rs:process_ruleset_recursively"]}
{"id": "C110", "title": "From the text of a sheet to the nodes its declarations apply to", "statement": "For every text of a sheet (without backslashes), however deep its rules and @media and @layer blocks are nested: the sheet is loaded without panicking; each declaration that is accepted ends up in exactly one ruleset, in source order, in the layer and under the media conditions in which it is written; and it applies to exactly the nodes that one of the selectors written in front of its block describes, & standing for the selectors of the rule around it.", "quantifier": "all sheet texts without backslashes, readers of An+B, property parsers, consistent worlds and nodes", "why_tests_cant": "sheets are unboundedly long and nested, and every one has to be read as written", "anchors": ["crates/bevy_flair_css_parser/src/parser.rs:parse_css", "crates/bevy_flair_css_parser/src/parser.rs:CssRulesetBodyParser", "crates/bevy_flair_css_parser/src/internal_loader.rs:InternalStylesheetLoader::load_stylesheet", "crates/bevy_flair_css_parser/src/internal_loader.rs:process_ruleset_recursively", "crates/bevy_flair_style/src/css_selector/mod.rs:CssSelector::replace_parent_selector", "crates/bevy_flair_style/src/css_selector/mod.rs:CssSelector::matches"]}
{"id": "C111", "title": "From the text of a sheet to the declaration that wins", "statement": "For every text of a sheet (without backslashes), consistent world, node, window and property: the sheet is loaded and built without panicking or failing, computing the values of the node does not panic, and the property gets the value of the declaration in the text that CSS makes the winner: of the declarations that apply to the node (one of the selectors written in front of its block describes the node, & standing for the rule around it, and all media conditions around it hold), the one in the highest layer by order of first mention, then with the most specific selector, then the last in the text. If no declaration for the property applies it keeps its own value. There is at most one winner.", "quantifier": "all sheet texts without backslashes, property parsers, readers of An+B, consistent worlds, nodes, media features, properties", "why_tests_cant": "the claim joins parser, nesting, layers, media, matching, specificity and build for unboundedly many sheets and trees; a test compares a few of them", "anchors": ["crates/bevy_flair_css_parser/src/parser.rs:parse_css", "crates/bevy_flair_css_parser/src/internal_loader.rs:InternalStylesheetLoader::load_stylesheet", "crates/bevy_flair_style/src/builder.rs:StyleSheetBuilder::remove_all_empty_rulesets", "crates/bevy_flair_style/src/builder.rs:StyleSheetBuilder::build", "crates/bevy_flair_style/src/style_sheet.rs:StyleSheet::get_matching_ruleset_ids_for_element", "crates/bevy_flair_style/src/style_sheet.rs:StyleSheet::get_property_values", "crates/bevy_flair_style/src/css_selector/mod.rs:CssSelector::matches"]}
{"id": "C112", "title": "From the texts of style sheets to the components", "statement": "For every history of an application from its start (nodes spawned, despawned, moved, reordered; classes, ids, attributes, states, inline styles, themes, window sizes and style sheets changing), if at the end the style sheet of each node is what some text loads as: each such text is loaded and built without panicking or failing, the updates do not panic, every property of every node has exactly one computed value by the rules of CSS read off the texts and the tree (layers by order of first mention, media conditions, nested selectors with & for the rule around, specificity, source order, custom properties seen through the ancestors, var(), inheritance, initial values), and when that is a value the component shows it.", "quantifier": "all sheet texts without backslashes, property parsers, readers of An+B, histories of updates, trees, inline styles, media features, nodes, properties", "why_tests_cant": "the claim joins everything from tokens to components over unboundedly many sheets, trees and histories; a test compares a few of them", "anchors": ["crates/bevy_flair_css_parser/src/parser.rs:parse_css", "crates/bevy_flair_css_parser/src/internal_loader.rs:InternalStylesheetLoader::load_stylesheet", "crates/bevy_flair_css_parser/src/internal_loader.rs:process_ruleset_property", "crates/bevy_flair_style/src/builder.rs:StyleSheetBuilder::build", "crates/bevy_flair_style/src/style_sheet.rs:StyleSheet::get_property_values", "crates/bevy_flair_style/src/systems.rs:calculate_style_and_set_vars", "crates/bevy_flair_style/src/systems.rs:set_property_values", "crates/bevy_flair_style/src/systems.rs:compute_property_values", "crates/bevy_flair_style/src/systems.rs:apply_computed_properties"]}
{"id": "C113", "title": "Pseudo-elements and type names follow their entities", "statement": "In every history in which entities are spawned, get components, move and are despawned with all below them, in which PseudoElementsSupport is inserted once on an entity that is a Node or a text, TypeName once on one that is styled, and pseudo-elements are left alone: nothing panics; after an update every entity with PseudoElementsSupport has exactly one ::before, its first child, and exactly one ::after, its last child, TextSpans in a text and hidden Nodes otherwise, entities without it have none, and all other children keep their order; and selectors see each entity with the TypeName and the PseudoElement that it has.", "quantifier": "all histories of spawning, inserting, moving, despawning and updates; all trees", "why_tests_cant": "one test inserts one child below one entity; the claim is about every interleaving of hooks, moves, despawns and updates", "anchors": ["crates/bevy_flair_style/src/components.rs:on_insert_type_name", "crates/bevy_flair_style/src/components.rs:on_insert_pseudo_element", "crates/bevy_flair_style/src/components.rs:on_insert_pseudo_elements_support", "crates/bevy_flair_style/src/systems.rs:sort_pseudo_elements", "crates/bevy_flair_style/src/lib.rs:FlairStylePlugin"]}

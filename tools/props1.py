import json
S="crates/bevy_flair_style/src/"; K="crates/bevy_flair_core/src/"; P="crates/bevy_flair_css_parser/src/"
rows=[]
def p(i,title,stmt,quant,why,anch): rows.append(dict(id=i,title=title,statement=stmt,quantifier=quant,why_tests_cant=why,anchors=anch))
p("C01","Layer list is well formed","After any sequence of layer declarations the priority list contains no duplicate, contains every declared non-empty layer together with all its dotted ancestors, contains nothing else, and unlayered rules rank strictly above every layer.","every finite sequence of layer names (arbitrary dotted names)","the set of declaration histories is infinite; tests fix a handful of names",[S+"layers.rs: LayersHierarchy::define_layer, get_layer_priority"])
p("C02","Layer priority equals the nesting-tree order","The priority order is exactly: siblings under a common parent in order of first mention, every nested layer below (lower priority than) its parent, and all layers nested in one layer contiguous - i.e. the post-order of the tree of first mentions.","every sequence of declarations, every nesting depth","needs all interleavings of nested and top-level declarations",[S+"layers.rs: define_layer, find_insert_position"])
p("C03","Declaring a layer never reorders existing layers","Declaring a layer again changes nothing, and declaring a new one never changes the relative order of layers already declared.","every hierarchy state reachable by declarations, every next name","a history property over unbounded prefixes",[S+"layers.rs: define_layer"])
p("C04","Cascade order of a built style sheet","In a built sheet the rules matched by an element are returned sorted by layer priority, then specificity, then source order; no matching rule is lost, none added.","every builder content, element, media state","sorting stability and completeness over arbitrary rule sets",[S+"builder.rs: StyleSheetBuilder::build",S+"style_sheet.rs: get_matching_ruleset_ids_for_element"])
p("C05","Last declaration in cascade order wins; inline wins over all","For each property the resulting value is the one of the last declaration in cascade order (rulesets in order, declarations inside a ruleset in order, inline style last), and a property nobody declares keeps its registered unset value.","every sheet, matched rule list, inline style, property","unbounded lists of declarations and shared overrides",[S+"style_sheet.rs: get_property_values, resolve_rulesets, RulesetProperty::resolve",K+"property_map.rs: set_if_neq"])
p("C06","Removing empty rulesets preserves everything else","remove_all_empty_rulesets removes exactly the rulesets with no content, and every surviving (selector, ruleset content) pair is kept in order although ids are renumbered.","every builder state","index renumbering bugs depend on arbitrary patterns of empties",[S+"builder.rs: remove_id, remove_all_empty_rulesets, is_empty"])
p("C07","Embedding (importing) a sheet keeps its rules and their relative cascade","Embedding a built sheet under an optional layer adds every ruleset with all its selectors, prefixed with the layer, never loses declarations, and keeps the relative cascade order of the embedded rules.","every base builder, every embedded sheet, every layer name","requires all combinations of layers, specificities and orders",[S+"builder.rs: embed_style_sheet, add_values_from_ruleset",S+"css_selector/mod.rs: with_layer_prefixed"])
p("C08","var() substitution is exact","If resolving a token list succeeds the result is the full textual substitution of every var() reference, contains no reference, and preserves token order.","every token list and every variable environment","arbitrary nesting of variable definitions",[S+"vars.rs: VarTokens::resolve_recursively"])
p("C09","var() resolution always terminates; cycles and over-deep chains are errors","Resolution terminates for every environment; it succeeds exactly when every reached variable is defined and nesting is less than 8; a reachable cycle always yields an error.","every environment including cyclic ones","cyclic environments and chains of every length",[S+"vars.rs: resolve_recursively_inner, MAX_DEFAULT_RECURSION"])
p("C10","Custom properties are inherited from the nearest defining ancestor","A var() used at a node is resolved against the nearest self-or-ancestor node defining that name; siblings and descendants never influence it.","every tree, node and assignment of variables","every tree shape and shadowing pattern",[S+"systems.rs: VarResolverParam::get_var_tokens, iter_self_and_ancestors"])
p("C11","Media queries are conjunctive and fail closed","A selector list matches iff every feature test holds; a test whose feature is unavailable never matches; nesting/merging media queries is conjunction and is associative with the empty query as unit.","every list of media selectors and every provider","all combinations of features and missing data",[S+"media_selector.rs: MediaSelectors::matches, merge_with, MediaRangeSelector::matches"])
p("C12","Property maps are copy on write","Writing through one property map never changes any other map, even those cloned from it; set_if_neq reports a change iff the value changed and keeps sharing when it did not; ptr_eq implies equal contents.","every history of clone/set/take/extend operations on any number of maps","aliasing histories of arbitrary length",[K+"property_map.rs: PropertyMap, PropertyMut::set_if_neq, ptr_eq"])
p("C13","CSS-wide keywords compute as specified","inherit takes the parent's computed value (none at a root), initial the component default, unset whatever the property registered, and a concrete value itself.","every value, unset registration, initial value and parent value","all combinations",[K+"property_value.rs: compute_with_parent, compute_as_root"])
p("C14","Incremental inheritance equals full recomputation","When some nodes keep their declared values, the incremental pass over the tree yields the same computed values as recomputing every node from scratch.","every tree, every set of changed nodes, every declared values","every tree, depth and subset of dirty nodes",[S+"components.rs: compute_pending_property_values_with_parent, compute_pending_property_values_for_root",S+"systems.rs: compute_property_values"])
p("C15","Property ids are stable and unique","Registration gives consecutive fresh ids, never changes an id already given, resolving a canonical name returns the id under which it was registered, and registering a duplicate name is rejected.","every sequence of registrations","unbounded registration histories",[K+"registry.rs: register_properties, resolve, iter"])
p("C16","A CSS name denotes either a property or a shorthand, never both","No sequence of successful registrations makes one css name both a property and a shorthand.","every sequence of register_property / register_shorthand","all orders of registration",[K+"registry.rs: CssPropertyRegistry::register_property, register_shorthand, resolve"])
p("C17","Ticking an animation is additive","Ticking by a then b leaves an animation that is not yet finished in the same state as ticking by a+b: same iteration, direction, elapsed time and sampled value.","every option set, every split of time into ticks","every frame-rate pattern",[S+"animations/animation.rs: tick, iterate_if_necessary, iterate"])
p("C18","Iteration index and direction follow elapsed time","While running, the iteration index is the integer quotient of active time by duration, and the playing direction is determined by the declared direction and the parity of the iteration.","every option set with positive duration, every history of ticks","arbitrary many iterations",[S+"animations/animation.rs: iterate, update_options"])
p("C19","Animation phases only move forward and the last frame is shown","Under ticking the state only moves Pending -> Running -> JustFinished -> Finished; a finite animation that reaches its end always stops in JustFinished at exactly its end time before Finished, infinite ones never finish.","every option set and sequence of ticks","every time pattern, including huge frames",[S+"animations/animation.rs: tick, iterate_if_necessary"])
p("C20","Ticking an animation terminates","Advancing any animation by any amount of time returns.","every option set and delta","non-termination cannot be observed by a finite test suite",[S+"animations/animation.rs: iterate_if_necessary"])
p("C21","Changing animation options never restarts it","update_options keeps the total elapsed time (up to the new end) and yields the state the animation would have if the new options had been used from the start.","every reachable animation and new options","all pairs of option sets and histories",[S+"animations/animation.rs: update_options, total_elapsed"])
p("C22","A paused animation makes no progress","While paused, ticking changes neither elapsed time, nor iteration, nor the sampled value; resuming continues from the same point.","every paused animation, every number of ticks","unbounded ticking",[S+"animations/animation.rs: tick, set_play_state"])
p("C23","When an animation emits a value","An animation emits a value exactly when it is active: running or just finished always, pending only when filling backwards, finished only when filling forwards, canceled never.","every reachable animation","all states, fill modes, delays and durations",[S+"animations/animation.rs: sample_value, is_active"])
p("C24","Transition timeline","A transition shows its start value during its delay, is running between delay and delay+duration, and is finished exactly once its accumulated time reaches delay+duration, independent of how time is split into ticks.","every options, every tick sequence","all splits of time",[S+"animations/transition.rs: tick, sample_value"])
p("C25","Reversed transitions are shortened, never lengthened","When a running transition is reversed the new one starts from the currently displayed value, its shortening factor lies in [0,1], and its duration never exceeds the declared duration; repeated reversals keep this.","every history of reversals, every easing output","unbounded number of reversals",[S+"animations/transition.rs: update_for_possibly_reversed_transition"])
p("C26","The component shows the effective value","After each frame every styled property holds the animation/transition value if one is emitted, otherwise the computed value, for every property whose effective value is defined; unchanged effective values cause no write.","every node history of style changes, transitions, animations and frames","long histories with interacting caches",[S+"components.rs: apply_computed_properties, create_transitions",S+"systems.rs: apply_computed_properties"])
p("C27","Every animation of a node advances each frame","Ticking a node by delta advances every tickable, unpaused animation and transition on it by delta.","every node with any number of animations, every map iteration order","hash-map order and mixed finished/running sets",[S+"components.rs: NodeProperties::tick_animations"])
p("C28","A cancelled transition releases its property","Once a transition is cancelled because its transition option disappeared, later style values of that property are the ones displayed.","every node history","needs arbitrary later frames",[S+"components.rs: set_transition_options, apply_transitions_and_animations",S+"systems.rs: tick_animations"])
p("C29","Transition events","Every transition emits Started at most once and Finished at most once, Finished only after Started, and never both Finished and Canceled.","every frame history","unbounded histories",[S+"components.rs: tick_animations, set_transition_options, create_transitions"])
p("C30","Effective style sheet is the nearest declared one","After the propagation pass every node's effective sheet is its own, else the nearest ancestor's that declares one, Block meaning none - given it was right before and only declarations changed.","every tree, every set of changed declarations, every iteration order","every tree and dirty set",[S+"systems.rs: calculate_effective_style_sheet"])
p("C31","Effective style sheet follows reparenting","After moving a node (that inherits its sheet) to another parent its effective sheet is the new ancestors'.","every tree and move","every tree",[S+"systems.rs: calculate_effective_style_sheet",S+"lib.rs: FlairStylePlugin"])
p("C32","Sibling links agree with the child order","After the sync pass each child's next/previous sibling are its neighbours in the parent's child list, and detached nodes have none.","every child list, every history of moves","list lengths unbounded",[S+"components.rs: Siblings::recalculate_with",S+"systems.rs: sync_siblings_system"])
p("C33","Pseudo-elements are first and last child","Sorting children puts ::before first and ::after last and keeps the order of all other children.","every child list","every list",[S+"systems.rs: sort_pseudo_elements"])
p("C34","Tree walks visit each descendant once, parents first","Descendant iteration yields every descendant exactly once, each paired with its parent, never before that parent; ancestor iteration yields exactly the ancestors nearest first.","every finite tree","every tree shape",[S+"custom_iterators.rs: UiDescendantWithParentIter, UiAncestorIter"])
p("C35","Style invalidation is complete","When a node's matching data changes, every node whose selector matching consulted it is re-matched in the same frame.","every tree, every selector walk, every changed node","all selector shapes and trees",[S+"css_selector/element.rs: related_new",S+"systems.rs: mark_changed_nodes_for_recalculation"])
p("C36","At most one focused node","After focus sync exactly the entity in InputFocus (if styled) is :focus, it is :focus-visible iff focus visibility is on, and no other node is.","every sequence of focus changes","unbounded histories",[S+"systems.rs: sync_input_focus"])
p("C37","Class lists behave as ordered sets","contains reflects the last add/remove/toggle, lists built by the API have no duplicates, toggle twice restores membership, and other classes are never affected.","every sequence of operations","unbounded histories",[S+"components.rs: ClassList"])
p("C38","Style components are inserted and removed automatically","An auto-inserted component is present while some of its properties has a computed value and is removed only when none has; components the user inserted are never removed.","every frame history","unbounded histories",[K+"component_properties.rs: apply_values_mut, auto_remove_deferred",S+"systems.rs: auto_remove_components"])
p("C39","Shorthand animation declarations reset all longhands","After an animation/transition shorthand the per-property lists all have exactly one entry per listed animation and earlier longhands have no effect; later longhands override only their own property.","every declaration sequence","every order of shorthands and longhands",[S+"animations/properties.rs: resolve_to_output"])
p("C40","Animation configuration list","One configuration is produced per named animation in order, each option is the list entry at the same position (the last entry when the list is shorter), and default when absent.","every resolved property map","list lengths unbounded",[S+"animations/properties.rs: from_properties_to_animation_configuration, from_properties_to_transition_configuration"])
with open("/verif/properties.jsonl","w") as f:
    for r in rows: f.write(json.dumps(r)+"\n")
print(len(rows))

# Formal model of bevy_flair in Rocq (Coq 8.16.1)

## Method

* `/repo` is read as text; every Gallina definition of the model carries a comment with the
  file and lines it models and any simplification made.
* Layout of `rocq/theories`: for each area `X`
  * `X.v`        – the executable model (definitions only; no proofs);
  * `XSpec.v`    – (where needed) a small independent specification, written from the English
    property and not from the model's helpers;
  * `XProofs.v`  – lemmas;
  * `Prop_X.v`   – only `Theorem … Proof. exact lemma. Qed. Print Assumptions …`, plus an
    `Example` beside each theorem showing a concrete non-trivial case meeting the hypotheses.
* A property that is false of the faithful model is split: `…_partial` (true under a stated
  condition) and `…_refuted` (witness), status `partial` in MANIFEST.json.

## Trusted base

* Coq's kernel (and `vm_compute` where a witness is evaluated).
* `Print Assumptions` is printed below every property theorem; the result is summarised in the
  section "Axioms" at the end of this file.
* The reading of the Rust code: the model is hand written. Bevy ECS (change detection, commands,
  queries, schedules), `selectors`, `cssparser`, `bevy_reflect`, `FxHashMap`, `Arc` and f32
  arithmetic are not modelled as code; what is assumed of them is stated per area below.

## Plan per property

| id | modelled | how proved |
|----|----------|------------|
| C01 | `LayersHierarchy` as the list of layer names, `define_layer`, `find_insert_position`, `get_layer_priority` | induction over declaration sequence |
| C02 | same; specification = tree of first mentions, flattened in post-order | refinement: list = flatten(tree) after every declaration |
| C03 | same | corollary of C02 + direct sub-list lemma |
| C04 | builder `build` (layer declaration, stable sort by (priority, specificity)) and `get_matching_ruleset_ids_for_element` (filter by media and selector oracle, dedup) | stable-sort permutation/sortedness lemmas |
| C05 | `resolve_rulesets`, `get_property_values` over property maps as functions | induction over rule list; spec = "last occurrence in the concatenated declaration list" |
| C06 | `remove_all_empty_rulesets`, `remove_id` with renumbering | induction over ids, multiset/ordered-list equality of (selector, content) |
| C07 | `embed_style_sheet` | list lemmas; layer-order loss of embedded sheet shown by `_refuted`, order preserved part `_partial` |
| C08, C09 | `resolve_recursively(_inner)`, fuel = depth counter of the code (8) | induction on depth; spec = inductive big-step substitution relation with height |
| C10 | nearest ancestor lookup over a parent function | induction on ancestor chain |
| C11 | media selector matching with `option` features | list induction |
| C12 | heap of reference-counted maps (Arc) with handles; spec = independent functional maps | simulation by induction on op history |
| C13 | `compute_internal` & friends | case analysis against relational spec |
| C14 | tree of nodes, pending/computed flags, incremental pass | tree induction; `_refuted` for explicit `unset` |
| C15, C16 | registry as lists/maps, error results | induction on registration sequence; C16 `_refuted` + `_partial` |
| C17–C23 | `Animation` over exact rationals/integers (durations in integer nanoseconds as in `Duration`), Q for f32 progress | induction over ticks; C20 `_refuted`: no fuel suffices; C23 `_partial` + `_refuted` |
| C24, C25 | `Transition` over exact rationals | induction over ticks/reversals |
| C26–C29 | `NodeProperties` frame machine | invariant over frame histories |
| C30, C31 | effective-sheet pass over a parent function | well-founded induction on ancestor chain |
| C32–C34 | sibling recalculation, pseudo-element sort, BFS & ancestor iterators | list/tree induction |
| C35 | selector walk oracle + flags + one marking pass | `_partial` for single-hop walks, `_refuted` for two hops |
| C36–C38 | focus, class list, auto-insert state machines | invariants over op sequences |
| C39, C40 | animation property lists | list lemmas |
| C41 | `get_matching_ruleset_ids_for_element` deduplication | list induction |
| C42, C43 | `Transition` retargeting, sampling of active transitions | case analysis, invariant over ticks; IEEE binary32 (SpecFloat) in `TransitionFloat.v` |
| C44 | aliasing of `PropertyMap` iterators | heap invariant |
| C45 | unset values of the registry | induction on calls |
| C46–C48 | `NodeProperties` frame machine with transitions and animations | frame invariants; hash order universally quantified (`f_arrange`) |
| C50, C51 | `set_animations`, `reset` | list lemmas over names and vectors |
| C52 | `AttributeList` | refinement to finite maps |
| C53 | `apply_computed_properties` | frame theorem: exactly the changed values written |
| C54 | `resolve_transition_options` | list lemmas |
| C55–C57 | `inline_styles.rs` | refinement to an ordered map; text/declaration correspondence by induction on the text |
| C58, C59 | parser's nesting stack, at-rule blocks, builder calls | mutual induction over the source tree; spec is a denotation of selectors over an arbitrary DOM |
| C60–C62 | `calc.rs` tokens, expression evaluation, `Val` arithmetic | induction on token trees; independent denotation of expressions; termination by fuel shown sufficient |
| C63–C65 | `shorthand.rs` | case analysis over token lists; value parsers universally quantified |
| C66, C67 | `InterpolateValue` implementations | field arithmetic in Q; refuted corners with witnesses |
| C68–C71 | `keyframes.rs` (parser, builder, resolver) and track curve | induction over builder histories, linear-search specification, broken lines |
| C72–C74 | timing functions: parsing and sampling | induction on stop lists, floor arithmetic |
| C75 | values through custom properties: text → tokens → printed text → tokens | tokeniser lemma per printed token and its neighbour, then induction on blocks and on nesting of declarations |
| C76 | the import pass, the parser asking for imports, the loader's recursion over files | case analysis per rule; accessibility of the import relation against fuel |
| C77 | rule and declaration splitting (StyleSheetParser, RuleBodyParser) on token trees | splitting lemmas by induction on fuel and size of the rest |
| C78 | parser of media queries, matching against a window | grammar as inductive relations; soundness and completeness, then meaning over rationals with inf/NaN |
| C79 | text → trees → rules → loaded builder | identifiers of a backslash-free text have no dots; then C58 |
| C80 | parsing of `animation*` and `transition*` values from token trees | each parser of one value against a table; the loop against an inductive meaning; reordering by moving one word to the front |
| C81 | the systems that copy components into the data selectors are matched with, one entity, over updates | change-detection cells, one invariant per field by induction on the history; systems as functions of the data, one writer per field under any order |
| C82 | media features of windows and nodes over updates, the dependency flags and the systems that mark nodes | invariant: an unmarked node has the answers for the current features and flags for all it asked; a question is answered the same if the flagged features are unchanged |
| C83 | structural pseudo-classes over histories of hierarchies, the flags the matching leaves and the systems that mark nodes | invariant: every node has the answers for the current hierarchy and flags for what it looked at; counterexamples for flags put on the wrong node |
| C84 | frames of nodes with rules, inline styles, sheets and hierarchy; NodeVars replaced and compared, descendants marked, values recomputed | invariant: stored vars equal the declared ones and values equal those computed with them; counterexamples for moved subtrees, sheets modified above another sheet, and lost sheets |
| C85 | token trees; parsers of Val, aspect ratio, grid tracks, templates, lines, and the global keywords | parser = inductive grammar, by case analysis and induction on the token list; counterexamples for wrapped counts |
| C86 | token trees; box shadows with colors given by a function | as C85; colors and lengths disjoint |
| C87 | whole updates: the models of C84 and C14 run one after the other, and the components | invariant over histories: both invariants, and "what is computed is shown" |
| C88 | sheet building and the frames of Inherit.v with the replacement of names before values are applied | invariant: computed values are those of the declared values with names replaced, and contain no names |
| C89 | the search for a variant by name without hyphens and capitals, and the spelling listed in messages | equivalence with a relational grammar; words of a name by induction on it |
| C90 | each parser as a function on trees of tokens (ValueParse.v) | equivalence with a relational grammar of each type |
| C91 | every function of gradient.rs on trees of tokens | each header piece and the items are equivalent to a relational grammar; induction on the items |
| C92 | the stop at zero; the CSS placement of stops and the color at each point as a specification | stops after placement ascend; comparison of both lines point by point |
| C93 | into_range on texts of code points, with str::lines, UTF-16 columns and UTF-8 offsets | induction on the text: lines and columns of CSS against str::lines; the range at every position |
| C94 | the parts of a sheet, the parsers' results for them, the processor, the report and error modes | induction on the nesting: the outcome is `safe` and its errors are the mistakes of the sheet, in order |
| C95 | the 33 systems with what they read and write, their computations arbitrary functions; the declared ordering constraints | unordered systems commute; two orders of one trace agree, by moving systems to the front |
| C96 | reflected values and types as trees, paths, from_reflect, try_apply, get_value, apply_value, internal_apply_values | induction on types: applying sets the place, and paths of one declaration lie apart; refuted for lists that shrink |
| C97 | apply_values_world_mut, apply_values_mut, apply_values_ref, auto_remove, auto_remove_deferred on one entity with a command queue | case analysis; refutations by examples |
| C98 | the table of impls.rs as it is, resolution of CSS names, the loop over the components | computation on the table for arbitrary field types, induction over the components |
| C99 | the comparison of declared and current configurations and the resolution of keyframes around the node of NodeProps.v | invariant: listed names have no cancelled animation, others only cancelled ones; keyframes are kept while listed |
| C100 | the notations of cssparser_color and what color.rs makes of each, over token trees; box shadows, text shadows and gradients with these colors | the parser against a relation of notations and their meaning in both directions, piece by piece |
| C101 | the element interface of element.rs on the hierarchy, sibling links and node data; the right-to-left matching of the selectors crate with its four outcomes and the search of :has | each outcome says which nodes cannot match any more (invariant over what is still reachable); induction on selectors against the meaning of CSS Selectors 4; composed with C32 |
| C102 | the packed specificity of the selectors crate, with the maximum over argument lists | the counters follow the CSS triple lexicographically as far as ten bits go, by induction on selectors |
| C103 | the built style sheet, matching, media and the pipeline of C87 put together | the flattened declarations in cascade order agree with the winner by layer, specificity and source order; composed with C87 |
| C104 | the matching algorithm as a program that reads nodes and leaves flags behind, and the marking systems around it | the program refines Matching; an execution whose reads are all unchanged gives the same result; everything read is covered by a flag that notices the change |
| C105 | whole updates: Follow (marking and matching), MediaDeps (media features), then Pipeline (values, inheritance, components) with the marks of Follow | the invariants of Follow, of the media flags and of Pipeline are preserved together; Follow's lemma about unmarked nodes gives what Pipeline assumes |
| C106 | NodeProps (transitions and animations of one node) over all histories of frames | invariant: an active transition has options, is of an animatable property and its target is the computed value |
| C107 | Animated: Live (C105) composed with NodeProps (C26), node by node | the invariants of Live and of NodeProps along the same history; the value handed over is Live's computed value |
| C108 | ReflectValue: the wrapper over a nominal universe of reflected types (floats as spec_float, opaque types, structs) | mutual induction on typed values and fields |
| C109 | SelText: the selector parser over token trees as total functions with fuel; SelTextSpec: the grammar of CSS as inductive relations, written without the parser | soundness and completeness of every parser function against its relation, induction on the depth of brackets; composed with C101 for the nodes |
| C110 | SheetSel: SheetText and Nesting with the selectors of SelText | C58 for any language of selectors, replacing & commutes with resolving it; all selectors in a sheet are parsed ones, so C101 applies to each |
| C111 | SheetCascade: SheetText, Nesting and SelText into Cascade, with Matching and Media | the winner of C04-C06 over the rules of the builder, carried back through remove_all_empty_rulesets and the flattening of rulesets to the declarations of the text (C58), with C59 for layers, C102 for specificity and C101 for matching |
| C112 | SheetWhole: SheetText, Nesting and SelText into the builder that Whole and Live use | the cascade over the rules of the builder is that over the declarations of the text, for custom properties and for properties (with rulesets that hold several declarations, and without the empty ones); then C105 with the values of WholeSpec replaced by those of SheetWholeSpec |
| C113 | PseudoLife: the hooks of TypeName, PseudoElement and PseudoElementsSupport with required components, Children and sort_pseudo_elements | an invariant over all histories (children lists are disjoint, each supported entity has exactly one child of each kind, sorted unless marked as changed); C33 for the order |

No property is excluded as inexpressible. Properties found false of the code are kept in full in
properties.jsonl, with `_refuted` witnesses and `_partial` theorems.

## What is modelled, what is not

| area (files `X*.v`) | code | simplifications, and what is not modelled |
|---|---|---|
| Layers | style/layers.rs | strings are byte lists; panics are `None` |
| Tree, Siblings | style/custom_iterators.rs, components.rs `Siblings`, systems.rs 53–130 | Bevy's hierarchy is a parent/children relation (`Tree.forest`); `sort_by` is a stable insertion sort; ghost nodes not modelled |
| Vars | style/vars.rs, variable lookup of systems.rs | names and tokens abstract |
| Media | style/media_selector.rs | f32 comparisons arbitrary (so NaN is covered) |
| Cascade | style/builder.rs, style_sheet.rs | the selectors crate, media matching, value typing are oracles (arbitrary functions); fonts and keyframes bodies abstract |
| Animation | animations/animation.rs | durations are unbounded naturals in ns; saturating u32 counters as in the code; progress in exact rationals |
| Transition, TransitionFloat | animations/transition.rs | f32 operations are a record, instantiated with exact rationals and with IEEE binary32 (`SpecFloat`) |
| PropMap | core/property_map.rs | heap of reference-counted cells |
| Inherit | core/property_value.rs, components.rs 509–700, systems.rs 916–1083 | maps are functions of ids (justified by C12), sharing tracked by two booleans |
| Registry | core/registry.rs | names are numbers; the locks are not modelled; ids unbounded |
| NodeProps, NodeAnims | components.rs `NodeProperties` and the systems driving it | per-property state; a ghost serial numbers transitions; event order between properties lost; hash order universally quantified; placeholders not modelled |
| SheetInherit | systems.rs 132–199 | sheet handle = asset id; the default id belongs to no declared sheet |
| Invalidation | css_selector/element.rs, systems.rs 444–540, 755–839 | selectors crate = arbitrary program over the element API; static hierarchy; `set_related_nodes_for_style_recalculation` not modelled |
| ClassList, Focus | components.rs 1364–1504, systems.rs 302–340 | — |
| AutoInsert | core/component_properties.rs, systems.rs 1179–1335 | a component is a function of property ids; that this view is faithful, and the other ways to apply, are in Reflect (C96, C97) |
| AnimProps | animations/properties.rs, style_sheet.rs 230–290 | values after their own resolution; release-build semantics of `as_*` |
| InlineStyle | css_parser/inline_styles.rs | ASCII text; the CSS parser an arbitrary function of text; LinkedHashMap as list |
| Nesting | css_parser/parser.rs 286–680, internal_loader.rs, css_selector/mod.rs, builder.rs | selectors of an arbitrary language with `&` and its replacement (an instance: terms with explicit `&`; another: SheetSel); tokenising, fonts, imports not modelled |
| Calc | css_parser/calc.rs, reflect/ui.rs value parsers | token trees; rationals instead of f32; bevy's `Val` equality identifies zeros; `Rot2` as turns in (-1/2, 1/2] |
| Shorthand | css_parser/shorthand.rs, parser.rs 139–170, utils.rs | value parsers arbitrary functions; identifiers lower case; `!important` stripped |
| Interp | animations/reflect.rs | rationals; colours by Oklab coordinates (no conversions); shapes/colour spaces as numbers; BorderGradient as BackgroundGradient |
| Keyframes | css_parser/parser/keyframes.rs, internal_loader.rs, animations/keyframes.rs, curves.rs | rational times plus infinities and NaN; resolution of var()/timing as functions; hash set order an explicit argument; name resolution and warnings not modelled |
| Easing | css_parser/parser/animations.rs 17–214, animations/easing.rs | rationals; token trees; names lower case; bevy_math's `UnevenCore`, `StepsCurve` written from memory of bevy 0.18 (not in the sandbox); cubic-bezier an arbitrary function |
| VarText | css_parser/vars.rs, style/vars.rs 14–77, style/to_css.rs 21–31, reflect.rs 52–75 | bytes; numbers are exact decimals, not f32; the tokeniser of cssparser 0.35 (not in the sandbox) written from css-syntax-3 and memory; the parser of a property is any function of the token trees |
| SheetText | css_parser/parser.rs 286–680, media_selectors.rs, imports_parser.rs, loader.rs | tokeniser of VarText; rule splitting of cssparser 0.35 from memory; parsers of selectors and declarations and decoding of unquoted URLs arbitrary functions; f32 as exact rationals with infinities and NaN; asset I/O as a function from paths to texts, paths taken literally |
| AnimParse | css_parser/parser/animations.rs 173–767, lib.rs 215–226 | token trees of VarText, timing functions of Easing; times as rationals; values with var() are not followed here (Vars, VarText) |
| NodeData | style/systems.rs 238–300, 342–382; lib.rs 401–413 | one entity (the systems treat entities separately); change detection as flags cleared after each update; names, classes and attributes are numbers; ghost nodes not modelled |
| MediaDeps | style/systems.rs 200–235, 389–442, 664–755, media part of 755–915; components.rs 155–190 | floats abstract; camera and size of a node are inputs (computed by bevy_ui); other reasons for restyling as one operation |
| Structural | style/systems.rs 444–540, matching part of 755–839; css_selector/element.rs 131–177, 257–275 | compound selectors, one loaded sheet; the `selectors` crate (not in /repo) as documented: order of tests, which flag is applied on which element |
| VarFlow | style/systems.rs 542–612, 755–911; style_sheet.rs 60–100, 182–228; components.rs 388–406 | which rules match is given per frame (other areas); names, tokens and values are numbers; property parsers arbitrary functions; transition options and animation configurations not followed here |
| ValueParse | css_parser/reflect/ui.rs 16–30, 82–121, 180–200, 227–303; reflect/grid.rs 122–357; utils.rs 6–20, 47–93 | tokens without white space; numbers exact; colors and the inside of calc() arbitrary functions; `!important` cut off before |
| Pipeline | style/lib.rs 356–445, systems.rs 39–51, 542–612, 755–1083, 1179–1277, components.rs 738–818 | composition of VarFlow.v and Inherit.v; values numbers with a decoding; every node has all components; no transitions, animations, placeholders |
| Placeholder | style/placeholder.rs, builder.rs 590–655, systems.rs 1127–1176, with Inherit | the asset server is a function from paths to handles; no transitions or animations; both placeholder types registered |
| MoreValues | reflect/enums.rs, ui.rs 36–55, 121–225, text.rs 18–79, image.rs 13–125, assets.rs 31–43 | ASCII names; exact numbers; rotations in turns; colors, calc() and unquoted url(...) are arbitrary functions |
| Gradient | reflect/gradient.rs 20–582, utils.rs 105–131 | exact numbers; rotations in turns, nlerp of opposite directions arbitrary; colors and calc() arbitrary functions; bevy_ui's drawing not modelled |
| Report, LoadErrors | error.rs 23–130, 332–339, 415–510; internal_loader.rs 33–325; parser.rs 245–259, 410–456, 497–760; parser/font_face.rs; parser/keyframes.rs 64–153 | values, selectors and imports are numbers and what parsing them gives is arbitrary; cssparser's lines and columns, and the printed lengths of its tokens, as documented; ariadne's drawing not modelled |
| Schedule | style/src/lib.rs 303–319, 356–445; what each system of systems.rs 39–1335 reads and writes | what the systems compute is arbitrary; commands are applied at sync points as bevy documents; user systems and observers that run between the systems are not modelled |
| Reflect | core/src/component_property.rs 1–388, component_properties.rs 14–487, registry.rs 303–320 | bevy_reflect 0.18 (try_apply, from_reflect, ParsedPath) from memory: trusted; panics and errors are one outcome; what an error inside a value leaves half written is not modelled; no maps, sets, arrays |
| ComponentTable | core/src/impls.rs; style/src/systems.rs 1254–1272 | the types of the fields are arbitrary; bevy's own types are trusted to have the listed fields (the macros would not compile otherwise) |
| AnimFlow | style/src/systems.rs 893–905, 937–990; components.rs 459–460, 931, 938–957, with NodeProps | what the rules declare and what keyframes resolve to in a frame are inputs; names are declared once |
| Color | css_parser/src/reflect/color.rs 12–202 | cssparser_color 0.3 (not in /repo) is written down from its documentation, including the table of names; numbers are exact; bevy_color only holds the coordinates |
| Matching | style/src/css_selector/element.rs 74–290, css_selector/mod.rs 476–505 | selectors 0.32 (not in /repo) is written down from its documentation; its caches, its Bloom filter (whose hook `add_element_unique_hashes` is `unimplemented!()` in element.rs), namespaces and i32 overflow in An+B are left out; attribute operators are predicates |
| Specificity | style/src/css_selector/mod.rs 499–501 | selectors 0.32 (not in /repo) is written down from its published source; u32 counters do not overflow |
| Whole | style/src/systems.rs 755–839, style_sheet.rs 294–309 | only what Cascade, Matching, Media and Pipeline hand to each other; their limits apply |
| Follow | style/src/systems.rs set_related_nodes…, mark_changed_nodes…, calculate_style…; css_selector/element.rs | flags per node, marks and reports as booleans; the change detection itself is C79–C82 |
| Live | style/src/lib.rs (schedule), systems.rs as in Follow, MediaDeps and Pipeline | composition of the three models: what one system hands to the next in an update |
| Heading | style/src/components.rs as in NodeProps | properties of NodeProps only, no model of its own |
| Animated | style/src/lib.rs (schedule), systems.rs:39-51, 542-612, 1179-1277, components.rs as in NodeProps and Live | composition of Live and NodeProps; which transition options and animations a node gets is an input |
| ReflectValue | core/src/reflect_value.rs (not Debug, serialization) | all functions; bevy_reflect's from_reflect, reflect_partial_eq, reflect_clone from their documentation |
| SelText | css_selector/mod.rs:30-64, 195-352, 441-474; element.rs:28-37, 232-247; internal_loader.rs:122-146 | all functions; the parser, builder and attribute tests of the selectors crate from its published source; An+B arbitrary; tokens from VarText/SheetText |
| SheetSel | parser.rs:333, 356, 375-385, 643-660; internal_loader.rs:122-146; css_selector/mod.rs:287-318, 441-474 | the composition; replace_parent_selector of the selectors crate from its published source |
| SheetCascade | builder.rs:241-261, 325-331, 411-415, 534-545, 631-689; internal_loader.rs:36-60, 296-327; style_sheet.rs:194-209, 294-309 | what is handed over between the parts; declarations set concrete values only |
| SheetWhole | internal_loader.rs:26-73, 296-327; builder.rs:171-261, 325-331, 411-415, 534-545 | what is handed over, with custom properties and var(); no transitions, animations, fonts, imports |
| PseudoLife | components.rs:258-264, 360-369, 1260-1362; lib.rs:342-355; systems.rs:53-90 | hooks and required components as Bevy runs them; the commands of a hook are applied before the next operation; names are numbers |

Runtime parts which no theorem here covers: f32 rounding (except where said), real concurrency of
Bevy systems (the schedule chain is modelled as sequential composition, which is what the
`.chain()` calls in `lib.rs` order), asset loading and I/O, rendering.

## Axioms

`Print Assumptions` of every property theorem answers "Closed under the global context": no axiom
is used, of the standard library or other. vcheck lists seven "library_axioms" of
`Coq.ssr.ssrunder`: these are fields of a module type in Coq's own ssreflect plugin library, loaded
as a dependency of another library, and used by no theorem here.

{
 "claims": [
  {
   "property": "C01",
   "status": "partial",
   "theorems": [
    "C01_valid_sound_partial",
    "C01_valid_sound_refuted"
   ],
   "note": "every grammar that ABNF text can denote and that does not write one string both with and without %s, every iteration order; refuted for the latter (memo keys drop %s), for which C87 gives an upper bound"
  },
  {
   "property": "C02",
   "status": "partial",
   "theorems": [
    "C02_valid_exact_partial",
    "C02_valid_complete_refuted_flags",
    "C02_valid_complete_refuted_group",
    "C02_valid_complete_refuted_cap",
    "C02_valid_complete_refuted_break"
   ],
   "note": "exact, left recursion included, outside four causes each refuted by a witness: %s key collision (bounded by C87 and C88), left-recursive group memoized while a seed grows, cap len+2 on nullable repeated elements, early break of the counting loop for Min >= 3"
  },
  {
   "property": "C03",
   "status": "partial",
   "theorems": [
    "C03_valid_terminates",
    "C03_valid_no_panic_partial",
    "C03_valid_no_panic_refuted"
   ],
   "note": "terminates for every grammar, name, input and iteration order; never panics unless the component search starts at a rule left recursive both directly and through another rule, where it does (refuted)"
  },
  {
   "property": "C04",
   "status": "partial",
   "theorems": [
    "C04_valid_deterministic_partial",
    "C04_valid_deterministic_refuted"
   ],
   "note": "every pair of iteration orders, where C02 applies; refuted: same grammar and input accepted under one order, panic under another"
  },
  {
   "property": "C05",
   "status": "partial",
   "theorems": [
    "C05_forest_valid_exact_partial",
    "C05_forest_valid_refuted"
   ],
   "note": "Same restriction as C06; refuted without it; bounded without it in C86."
  },
  {
   "property": "C06",
   "status": "partial",
   "theorems": [
    "C06_bsr_valid_exact_partial",
    "C06_engines_agree",
    "C06_bsr_valid_refuted"
   ],
   "note": "Exact for every lexically well-formed grammar in which no two groups, options or counted repetitions are alike but for %s; the unrestricted claim is false (a = 2%s\"x\" / 2\"x\" on XX) because repetitions are interned by their printed form, which drops %s; two-sided bounds for the rest are C86. Agreement of the two engines is proved without restriction."
  },
  {
   "property": "C07",
   "status": "proved",
   "theorems": [
    "C07_forest_terminates",
    "C07_bsr_terminates"
   ],
   "note": ""
  },
  {
   "property": "C08",
   "status": "proved",
   "theorems": [
    "C08_forest_budget",
    "C08_bsr_budget"
   ],
   "note": ""
  },
  {
   "property": "C09",
   "status": "partial",
   "theorems": [
    "C09_lowering_preserves_language_partial",
    "C09_lowering_preserves_language_refuted"
   ],
   "note": "Same restriction as C06; refuted without it; bounded without it in C86."
  },
  {
   "property": "C10",
   "status": "proved",
   "theorems": [
    "C10_slot_budget",
    "C10_lowering_terminates"
   ],
   "note": ""
  },
  {
   "property": "C11",
   "status": "partial",
   "theorems": [
    "C11_tree_is_derivation_partial",
    "C11_tree_is_derivation_refuted",
    "C11_derivations_and_language"
   ],
   "note": "Forest.Tree: whole span, root rule, tiling and expansion by alternatives for every grammar of C05; repetition counts for every grammar in which the number of occurrences is determined up to the bounds (the ABNF grammar is one); refuted otherwise because nodes do not carry the count"
  },
  {
   "property": "C12",
   "status": "partial",
   "theorems": [
    "C12_num_trees_partial",
    "C12_num_trees_refuted"
   ],
   "note": "Forest.NumTrees: 0 iff not a word, 1 iff not Ambiguous, -1 iff cyclic, otherwise the exact number of pack choices and an upper bound of the derivation trees; equality refuted (a repetition of two shown with three occurrences is counted)"
  },
  {
   "property": "C13",
   "status": "partial",
   "theorems": [
    "C13_ambiguous_partial",
    "C13_ambiguous_refuted",
    "C13_undivided_not_ambiguous"
   ],
   "note": "Forest.Ambiguous: true whenever there are two derivation trees; false on a valid forest means exactly one and Tree returns it; the converse is refuted, but holds for grammars and inputs none of whose parts divides in two ways"
  },
  {
   "property": "C14",
   "status": "proved",
   "theorems": [
    "C14_parse_error_exact",
    "C14_forest_error"
   ],
   "note": "every input, offset and expected set; C14_forest_error links it to the forest's report"
  },
  {
   "property": "C15",
   "status": "proved",
   "theorems": [
    "C15_check_bounds_exact"
   ],
   "note": ""
  },
  {
   "property": "C16",
   "status": "proved",
   "theorems": [
    "C16_numval_to_rune_exact",
    "C16_round_trip"
   ],
   "note": ""
  },
  {
   "property": "C17",
   "status": "proved",
   "theorems": [
    "C17_semval_exact"
   ],
   "note": "every grammar, any depth, any iteration order of the two loops"
  },
  {
   "property": "C18",
   "status": "proved",
   "theorems": [
    "C18_match_term_exact"
   ],
   "note": ""
  },
  {
   "property": "C19",
   "status": "partial",
   "theorems": [
    "C19_get_rule_exact",
    "C19_get_rule_order_independent",
    "C84_case_only_refuted"
   ],
   "note": "every ASCII name; a name with U+017F or U+212A also finds a rule (C84_found says exactly which names do), so the equality up to ASCII case is false for names that are not ASCII"
  },
  {
   "property": "C20",
   "status": "proved",
   "theorems": [
    "C20_rule_contains_cycle_exact"
   ],
   "note": "distinct names; every iteration order; the rulename given being ASCII (C84 for the others: false under names with U+017F)"
  },
  {
   "property": "C21",
   "status": "partial",
   "theorems": [
    "C21_is_dag_partial",
    "C21_is_dag_no_self_partial",
    "C21_is_dag_refuted"
   ],
   "note": "exact for cycles through two rules; a rule referring directly to itself is not seen (refuted)"
  },
  {
   "property": "C22",
   "status": "proved",
   "theorems": [
    "C22_dependencies_exact",
    "C22_dependency_graph_exact"
   ],
   "note": "get_dependencies exact and duplicate free; graph lookup = get_rule for case-insensitively distinct names"
  },
  {
   "property": "C23",
   "status": "proved",
   "theorems": [
    "C23_nullable_exact"
   ],
   "note": "distinct names, consistent bounds; every iteration order of every round"
  },
  {
   "property": "C24",
   "status": "partial",
   "theorems": [
    "C24_build_denotes_partial",
    "C24_C25_regex_text_partial",
    "C24_regex_outcome",
    "C24_undefined_refuted",
    "C24_reversed_bounds_refuted"
   ],
   "note": "every validated acyclic grammar, building and simplification; outcome exact (cyclic, not found, text); refuted for undefined references and reversed bounds"
  },
  {
   "property": "C25",
   "status": "partial",
   "theorems": [
    "C25_render_reads",
    "C24_C25_regex_text_partial",
    "C25_lone_surrogate_refuted",
    "C25_count_refuted"
   ],
   "note": "every expression with counts within the limit of the reader and no one-value surrogate range, read in exactly one way; both refuted otherwise"
  },
  {
   "property": "C26",
   "status": "partial",
   "theorems": [
    "C26_generator_in_language_partial",
    "C26_generate_tape_in_language_partial",
    "C26_generator_in_language_refuted_surrogate",
    "C26_generator_in_language_refuted_bounds"
   ],
   "note": "every source, tape and option, for grammars whose terminals are all characters and bounds are ordered; refuted for surrogates inside a range and reversed bounds"
  },
  {
   "property": "C27",
   "status": "partial",
   "theorems": [
    "C27_generation_ends_partial",
    "C27_generate_tape_ends_partial",
    "C27_generation_ends_refuted"
   ],
   "note": "every accepted grammar with repetition minimums up to 2^33, every source, tape and option; refuted beyond because the cost product wraps around"
  },
  {
   "property": "C28",
   "status": "partial",
   "theorems": [
    "C28_new_ends",
    "C28_accepted_is_productive_partial",
    "C28_productive_is_accepted_partial",
    "C28_derivation_is_word",
    "C28_productive_is_accepted_refuted",
    "C28_accepted_is_productive_refuted"
   ],
   "note": "ends always; both directions, up to derivations of 2^30 and terminals without words, both refuted in general"
  },
  {
   "property": "C29",
   "status": "partial",
   "theorems": [
    "C29_generate_in_language_partial",
    "C29_generate_in_language_refuted_prose",
    "C29_generate_in_language_refuted_surrogate",
    "C29_generate_in_language_refuted_bounds"
   ],
   "note": "every grammar whose terminals render, every stream of draws and option set; refuted for prose-vals, surrogates inside a range and reversed bounds"
  },
  {
   "property": "C30",
   "status": "partial",
   "theorems": [
    "C30_generate_no_panic_partial",
    "C30_generate_no_panic_refuted",
    "C30_generate_ends_refuted"
   ],
   "note": "never panics on a validated grammar unless an unbounded repetition has minimum repMax+1, where it divides by zero (refuted with the default options); separately, generation need not end"
  },
  {
   "property": "C31",
   "status": "partial",
   "theorems": [
    "C31_graph_spells",
    "C31_graph_spells_deflated",
    "C31_graph_spells_single_partial",
    "C31_graph_outcome",
    "C31_series_refuted"
   ],
   "note": "proved for every option set without deflateNumVals, every grammar; with deflateNumVals the graph spells exactly the grammar whose series are alternatives, so the claim holds when series have one value and is refuted for %x61.62; outcome of the construction"
  },
  {
   "property": "C32",
   "status": "partial",
   "theorems": [
    "C32_nodes_bounded_partial",
    "C32_allocations_twice_partial",
    "C32_allocations_refuted",
    "C32_copies_wrap_refuted"
   ],
   "note": "nodes of the returned graph are within the budget, and all nodes allocated within twice the budget, when threshold times budget does not overflow; allocations during construction may exceed the budget itself (clones of later entry points are made again)"
  },
  {
   "property": "C33",
   "status": "partial",
   "theorems": [
    "C33_generator_filled_partial",
    "C33_new_generator",
    "C33_new_generator_built",
    "C33_walk_total",
    "C33_generator_partial",
    "C33_generator_deflated_partial",
    "C33_generate_partial",
    "C33_surrogate_refuted",
    "C33_empty_range_refuted",
    "C33_empty_language_refuted"
   ],
   "note": "ending and no panic for every graph built, option set and source; membership for grammars whose terminals render and rules that have a word, refuted otherwise"
  },
  {
   "property": "C34",
   "status": "partial",
   "theorems": [
    "C34_reader_exact",
    "C34_reader_built",
    "C34_reader_once",
    "C34_reader_lang_partial",
    "C52_compact_lang_partial",
    "C34_every_path_refuted",
    "C34_surrogate_refuted"
   ],
   "note": "enumeration exact for every graph built, every map order and call sequence, each trail and each choice of emissions along it once; productions are words, in both modes, for grammars whose terminals render, refuted otherwise"
  },
  {
   "property": "C35",
   "status": "partial",
   "theorems": [
    "C35_expected_next_safe",
    "C35_expected_next_exact",
    "C35_expected_next_built",
    "C35_expected_next_partial",
    "C35_expected_next_refuted",
    "C35_dead_end_refuted",
    "C35_declined_refuted"
   ],
   "note": "no word is missed, for every graph built from producing rules; exact for rules of plain terminals of grammars without empty parts; refuted for multi-byte ranges and empty ranges"
  },
  {
   "property": "C36",
   "status": "partial",
   "theorems": [
    "C36_near_miss_partial",
    "C36_near_miss_refuted"
   ],
   "note": "every grammar for which IsValid is exact (C02), every generator and tape; refuted where IsValid is not"
  },
  {
   "property": "C37",
   "status": "partial",
   "theorems": [
    "C37_tape_in_range",
    "C37_tape_exhausted",
    "C37_indexed_in_range",
    "C37_indexed_exhausted",
    "C37_tape_complete_partial",
    "C37_tape_complete_refuted",
    "C37_indexed_complete_partial",
    "C37_indexed_complete_refuted"
   ],
   "note": "in range and 0 when exhausted: every n; completeness: tape source up to max_int-255, indexed source up to 2^32 options (beyond that refuted: four bytes cannot name them)"
  },
  {
   "property": "C38",
   "status": "partial",
   "theorems": [
    "C38_definitions_merge_partial",
    "C38_redefine_merge_partial",
    "C38_redefine_merge_refuted",
    "C38_tree_merge"
   ],
   "note": "exact with the default options, and with WithRedefineCoreRules when no core name is defined; refuted for core names under that option (BIT defined twice with =)"
  },
  {
   "property": "C39",
   "status": "partial",
   "theorems": [
    "C39_core_rules_unchanged_partial",
    "C39_history_unchanged_partial",
    "C39_core_rules_unchanged_refuted"
   ],
   "note": "holds with the default options; refuted with WithRedefineCoreRules: ALPHA =/ writes through the shared core rule"
  },
  {
   "property": "C40",
   "status": "partial",
   "theorems": [
    "C40_printed_text_partial",
    "C40_printed_text_same",
    "C40_pretty_text_partial",
    "C40_pretty_aligned",
    "C40_same_print",
    "C40_same_rule_print",
    "C40_language_grows",
    "C40_round_trip_partial",
    "C40_written_exact",
    "C40_printed_text_refuted",
    "C40_empty_refuted"
   ],
   "note": "every grammar that can be written as ABNF (C40_written_exact decides which) prints as a text that says it again, except that %s is dropped (String ignores Sensitive), so the language only grows; refuted for case-sensitive strings and for the empty grammar"
  },
  {
   "property": "C41",
   "status": "partial",
   "theorems": [
    "C41_repeat_bounds_partial",
    "C41_repeat_bounds_saturate",
    "C41_saturation_harmless",
    "C41_repeat_bounds_refuted"
   ],
   "note": "exact up to the largest int; larger bounds saturate (refuted), which does not change the language on words shorter than 2^63-1 bytes"
  },
  {
   "property": "C42",
   "status": "proved",
   "theorems": [
    "C42_generates",
    "C42_same_run",
    "C42_valid_exact_partial"
   ],
   "note": "every grammar, input, budget and iteration order; the emitted file is modelled as its statements and their meaning, its text layout is not; exactness against the language (the third theorem) inherits the hypothesis of C06"
  },
  {
   "property": "C43",
   "status": "partial",
   "theorems": [
    "C43_error_partial",
    "C43_result_partial",
    "C43_refuted"
   ],
   "note": "the error is never spurious, a positive verdict is always right, and a result with fewer than MaxElements elements has the right verdict; refuted: a parse that exhausts the budget in its last descriptor returns a negative verdict"
  },
  {
   "property": "C44",
   "status": "partial",
   "theorems": [
    "C44_compiles_partial",
    "C44_refuted"
   ],
   "note": "every grammar without prose-vals, series outside Unicode scalars, undefined references, reversed bounds and empty alternations; scopes, types, unused variables and imports of the emitted statements; refuted for prose-vals, such series and undefined references"
  },
  {
   "property": "C45",
   "status": "partial",
   "theorems": [
    "C45_left_recursion_detected",
    "C45_mutual_partial",
    "C45_mutual_refuted"
   ],
   "note": "which rules are left recursive is exact; the group grown with a rule is exact except for the rule the search starts from when it is left recursive both directly and through another rule (refuted)"
  },
  {
   "property": "C46",
   "status": "proved",
   "theorems": [
    "C46_max_len",
    "C46_max_len_bound"
   ],
   "note": "every grammar and bound; the limit changes nothing else"
  },
  {
   "property": "C47",
   "status": "proved",
   "theorems": [
    "C47_decision_local",
    "C47_slot_of_decision"
   ],
   "note": ""
  },
  {
   "property": "C48",
   "status": "proved",
   "theorems": [
    "C48_furthest_failure_exact"
   ],
   "note": "over the compiled slot grammar: at_slot/fails_at are the specification of an attempted terminal; C70 says the same of the grammar itself"
  },
  {
   "property": "C49",
   "status": "proved",
   "theorems": [
    "C49_check_ends",
    "C49_check_exact"
   ],
   "note": ""
  },
  {
   "property": "C50",
   "status": "proved",
   "theorems": [
    "C50_near_miss_label"
   ],
   "note": "every graph built, option set and tape; label texts are represented by their arguments"
  },
  {
   "property": "C51",
   "status": "proved",
   "theorems": [
    "C51_near_miss_succeeds",
    "C51_exact_c02"
   ],
   "note": "the hypothesis is exactness of IsValid on the grammar, as the claim says; C51_exact_c02 gives it for the grammars of C02"
  },
  {
   "property": "C52",
   "status": "proved",
   "theorems": [
    "C52_compact_covers",
    "C52_compact_built"
   ],
   "note": "that productions are words is C52_compact_lang_partial, listed with C34"
  },
  {
   "property": "C53",
   "status": "proved",
   "theorems": [
    "C53_compact_size",
    "C53_compact_built"
   ],
   "note": "every graph with ranges of two bounds, as all graphs built have"
  },
  {
   "property": "C54",
   "status": "proved",
   "theorems": [
    "C54_no_dead_end",
    "C54_word",
    "C54_empty_range_refuted"
   ],
   "note": "for every grammar without empty rules, groups and deflated value sets; the refuted case shows that last hypothesis is needed"
  },
  {
   "property": "C55",
   "status": "proved",
   "theorems": [
    "C55_abnf_unambiguous",
    "C55_abnf_texts",
    "C55_one_meaning"
   ],
   "note": "every byte string"
  },
  {
   "property": "C56",
   "status": "partial",
   "theorems": [
    "C56_taken",
    "C56_evaluation_exact",
    "C56_evaluation_partial",
    "C56_evaluation_rules",
    "C56_evaluation_refuted"
   ],
   "note": "every text: C56_evaluation_exact says what every ABNF text is taken for (C56_taken: one list of definitions, = taken for =/ where a comment around it contains =/); it is what the text says for every text without such a comment; refuted for those"
  },
  {
   "property": "C57",
   "status": "partial",
   "theorems": [
    "C57_rejects",
    "C57_accepts",
    "C57_reads",
    "C57_reads_partial",
    "C57_round_trip",
    "C57_reads_refuted"
   ],
   "note": "every byte string and map order; the content of the returned grammar for the default core-rule option (C73 for the other): of what every text is taken for (C57_reads), so of what it says for texts without =/ in a comment next to an operator (refuted for those)"
  },
  {
   "property": "C58",
   "status": "partial",
   "theorems": [
    "C58_bsr_tree_is_derivation_partial",
    "C58_bsr_tree_is_derivation_refuted",
    "C58_empty_leaf_refuted"
   ],
   "note": "sets without a cycle, without the leaves that span nothing, and with C11's restriction on repetition counts; refuted on cyclic sets and for the empty leaves"
  },
  {
   "property": "C59",
   "status": "partial",
   "theorems": [
    "C59_bsr_num_trees_partial",
    "C59_bsr_num_trees_refuted"
   ],
   "note": "0 exactly outside the language, 1 exactly when not ambiguous, -1 exactly on cycles, otherwise the number of unfoldings and an upper bound of the number of derivation trees; equality refuted by two equal alternatives"
  },
  {
   "property": "C60",
   "status": "partial",
   "theorems": [
    "C60_bsr_ambiguous_partial",
    "C60_bsr_ambiguous_refuted"
   ],
   "note": "true whenever there are two derivation trees; false on a valid forest means exactly one, which Tree returns up to empty leaves; false where nothing divides in two ways; the converse is refuted by two equal alternatives"
  },
  {
   "property": "C61",
   "status": "partial",
   "theorems": [
    "C61_same_answers_partial",
    "C61_refuted"
   ],
   "note": "for every grammar and order, on a Result that does not fill its budget; a Result of an exhausted budget is refuted (C43)"
  },
  {
   "property": "C62",
   "status": "proved",
   "theorems": [
    "C62_bsr_order",
    "C62_bsr_tree",
    "C62_forest_order",
    "C62_forest_tree",
    "C62_forest_tree_refuted",
    "C62_bsr_tree_refuted"
   ],
   "note": "for every grammar; the refutations show that the tree of an ambiguous input does depend on the order, which the property does not claim"
  },
  {
   "property": "C63",
   "status": "proved",
   "theorems": [
    "C63_nodes",
    "C63_order"
   ],
   "note": ""
  },
  {
   "property": "C64",
   "status": "partial",
   "theorems": [
    "C64_engines_agree_partial",
    "twin_freeb_ok",
    "C64_engines_agree_refuted"
   ],
   "note": "every grammar, input, order and budget: infinite together, zero together, the SPPF count is never the larger, and an ambiguous SPPF means an ambiguous BSR set; equality when no two alternates of one alternation, of at most two repetitions, have the same children on the input (a decidable condition); refuted without it by a = \"x\" / \"x\""
  },
  {
   "property": "C65",
   "status": "partial",
   "theorems": [
    "C65_abnf_valid_exact",
    "C65_generated_valid",
    "C65_parse_outcomes",
    "C65_generated_abnf",
    "C65_regex_refuted"
   ],
   "note": "FuzzGeneratedValid, FuzzParseABNF and FuzzGeneratedABNF hold without bounds; FuzzRegex is refuted by a generated cyclic grammar; that a seed of math/rand gives those draws is not modelled"
  },
  {
   "property": "C66",
   "status": "partial",
   "theorems": [
    "C66_engines_agree_partial",
    "C66_engines_agree_refuted",
    "C66_generate_valid_partial",
    "C66_generate_valid_refuted",
    "C66_string_stable_partial",
    "C66_string_stable_refuted"
   ],
   "note": "under the hypotheses of C02 (IsValid) and C24 (Regex); each part is refuted without them; String up to the order of the map"
  },
  {
   "property": "C67",
   "status": "partial",
   "theorems": [
    "C67_read_well_formed",
    "C67_from_abnf_any",
    "C67_from_abnf_partial",
    "C67_from_abnf_refuted"
   ],
   "note": "every text and default treatment of core rules; exactness for grammars without groups, options or counted repetitions alike but for %s (refuted otherwise), compilation for validated grammars without prose and surrogates (C44)"
  },
  {
   "property": "C68",
   "status": "partial",
   "theorems": [
    "C68_comments_closed",
    "C68_read_comments",
    "C68_one_per_case",
    "C68_comments_refuted"
   ],
   "note": "for every grammar that can be written, so for every grammar ParseABNF returns; refuted for a grammar built by hand, whose generated file then contains code taken from a quoted string"
  },
  {
   "property": "C69",
   "status": "partial",
   "theorems": [
    "C69_mermaid_total",
    "C69_mermaid_exact",
    "C69_edges_once",
    "C69_fuzz_targets",
    "C69_labels_refuted",
    "C69_depgraph_exact",
    "C69_depgraph_refuted"
   ],
   "note": "ToMermaid total for every built graph, its text exact for every grammar that can be written, one line an edge; fuzz targets for every text and option; refuted: labels do not tell elements apart, and the lines of Depgraph.Mermaid do not compose"
  },
  {
   "property": "C70",
   "status": "partial",
   "theorems": [
    "C70_report_partial",
    "C70_order_free",
    "C70_abnf_report",
    "C70_report_refuted",
    "C70_reached_refuted"
   ],
   "note": "missing: grammars with groups, options or counted repetitions alike but for %s, where it is refuted; C70_reached_refuted: the documentation of Offset ('furthest position reached') does not hold when a proper prefix is a sentence after which nothing can follow"
  },
  {
   "property": "C71",
   "status": "partial",
   "theorems": [
    "C71_describe",
    "C71_found_exact",
    "C71_text_position",
    "C71_one_line",
    "C71_one_line_refuted"
   ],
   "note": "one line for every grammar that can be written; refuted for a grammar built by hand whose quoted string holds a line feed"
  },
  {
   "property": "C72",
   "status": "proved",
   "theorems": [
    "C72_bare_lf",
    "C72_unix_text"
   ],
   "note": "every text and continuation; the hypothesis that inputs are bytes is Go's type"
  },
  {
   "property": "C73",
   "status": "partial",
   "theorems": [
    "C73_redefine_exact_partial",
    "C73_core_untouched",
    "C73_parse_partial",
    "C73_validated_partial",
    "C73_spelling_refuted"
   ],
   "note": "with and without the validation; missing: core names redefined with = in another spelling (refuted: bit = / BIT = leaves two rules and =/ extends either, depending on map order)"
  },
  {
   "property": "C74",
   "status": "partial",
   "theorems": [
    "C74_validate",
    "C74_not_a_text",
    "C74_output_refused",
    "C74_generate_partial",
    "C74_generate_reproducible",
    "C74_unseeded",
    "C74_regex_partial",
    "C74_graph",
    "C74_flags_refuted",
    "C74_flag_values_ignored",
    "C74_generate_panics_refuted"
   ],
   "note": "validate and transition-graph for every input; missing: the conditions of C29 and C30 (generate) and of C24 and C25 (regex) on the grammar; refuted: --deflate-rules=false deflates; generate panics on a = 17*\"x\" with default flags; C74_output_refused: what validate prints ends with a bare LF, so no command reads it again"
  },
  {
   "property": "C75",
   "status": "proved",
   "theorems": [
    "C75_options_settle",
    "C75_same_options"
   ],
   "note": "the option lists of option.go, generate.go, transition_graph.go (graphs and readers), ast.go, fuzz.go, sppf.go (also ParseBSR) and regex.go"
  },
  {
   "property": "C76",
   "status": "partial",
   "theorems": [
    "C76_bsr_time",
    "C76_bsr_space",
    "C76_forest_space",
    "C76_forest_time_partial",
    "C76_forest_time_refuted"
   ],
   "note": "time and space of ParseBSR and space of ParseForest for every grammar, input and map order; missing: cubic time of ParseForest, which is false: the packs compared by addPack are bounded by n^4 and by no multiple of n^3 on s = s s / \"a\""
  },
  {
   "property": "C77",
   "status": "proved",
   "theorems": [
    "C77_reads_itself",
    "C77_string",
    "C77_pretty",
    "C77_order_irrelevant",
    "C77_same_parser",
    "C77_same_texts"
   ],
   "note": "texts without =/ in a comment next to a defining operator (C57)"
  },
  {
   "property": "C78",
   "status": "partial",
   "theorems": [
    "C78_validation_blames",
    "C78_parse_abnf",
    "C78_texts_distinct",
    "C78_texts_refuted"
   ],
   "note": "messages are told apart for repetitions that can be written, up to %s, and numerals without spaces; refuted for grammars built by hand"
  },
  {
   "property": "C79",
   "status": "partial",
   "theorems": [
    "C79_walks_linear",
    "C79_walks_cubic",
    "C79_tree_linear",
    "C79_tree_refuted"
   ],
   "note": "calls of Nodes, Ambiguous and NumTrees linear in the forest and cubic in the input, calls of Tree linear in the input for each grammar; the last part, Tree polynomial in the forest, is false: on a family of grammars the tree outgrows every polynomial in the size of the forest"
  },
  {
   "property": "C80",
   "status": "partial",
   "theorems": [
    "C80_lowering_size",
    "C80_slot_budget",
    "C80_time",
    "C80_node_budget",
    "C80_counter_steps",
    "C80_budget_time_refuted"
   ],
   "note": "lowering is linear in the grammar whatever the bounds; time is a power of size, largest bound and input length; budgets large enough are never hit. The last part, that the budgets cap the time, is false: a = N*N[\"x\"] takes N steps on the empty input with both budgets set"
  },
  {
   "property": "C81",
   "status": "partial",
   "theorems": [
    "C81_valid_polynomial",
    "C81_valid_plain",
    "C81_repetition_cubic",
    "C81_repetition_quadratic_refuted"
   ],
   "note": "at most 16 Q^4 (n+2)^6 steps, 12 Q^2 (n+2)^5 without left recursion. The O(n^2) of the comment of reachRep is false: *(1*\"a\" / \"b\") is cubic"
  },
  {
   "property": "C82",
   "status": "partial",
   "theorems": [
    "C82_pointers_share",
    "C82_nodes_linear",
    "C82_written_bound",
    "C82_linear_refuted"
   ],
   "note": "nodes and bodies are linear in the grammar (at most 4w and 4w+2), appends and render calls are bounded by the expression written out; that simplify is linear, and that a budget fails fast, is false: 2^n appends on a grammar of size O(n), even where the text has 18 bytes"
  },
  {
   "property": "C83",
   "status": "partial",
   "theorems": [
    "C83_search_linear",
    "C83_visit_linear",
    "C83_passes_linear",
    "C83_check_polynomial_refuted"
   ],
   "note": "strongconnect is called at most once per rule and once more, ruleCycleVisit at most once per reference and once more, the costs of NewASTGenerator settle in at most one pass per rule and one more in any map order (counts up to 2^33); that the check before Generate is polynomial is false: 2^n calls on a grammar of size O(n) with one word of one byte"
  },
  {
   "property": "C84",
   "status": "partial",
   "theorems": [
    "C84_found",
    "C84_ascii_names",
    "C84_kelvin",
    "C84_long_s_cycle",
    "C84_long_s_regex",
    "C84_long_s_graph",
    "C84_case_only_refuted",
    "C84_cycle_refuted",
    "C84_ends_refuted"
   ],
   "note": "exactly which byte strings find a rule; ASCII names and names with U+212A do what the plain name does; under a name with U+017F RuleContainsCycle always says false, so Regex never ends and TransitionGraph gives no graph on a rule with a cycle; the other entry points: C89"
  },
  {
   "property": "C85",
   "status": "partial",
   "theorems": [
    "C85_walks_linear",
    "C85_walks_cubic",
    "C85_tree_linear",
    "C85_tree_refuted",
    "C85_result_linear"
   ],
   "note": "NumTrees and Ambiguous: at most 3 calls per element and one more, cubic in the input; Tree: linear in the input for each grammar; that Tree is polynomial in the number of elements is false (a = aa aa, aa = aaa aaa, ...); for the emitted Result the same bounds unless its budget ran out"
  },
  {
   "property": "C86",
   "status": "proved",
   "theorems": [
    "C86_lowering_between",
    "C86_lowering",
    "C86_bounds",
    "C86_agree",
    "C86_forest",
    "C86_bsr",
    "C86_emitted",
    "C86_accepts_more"
   ],
   "note": "every grammar that can be written, input, budget and map order; the emitted parser without a budget (with one: C43)"
  },
  {
   "property": "C87",
   "status": "proved",
   "theorems": [
    "C87_valid_upper"
   ],
   "note": "every grammar that can be written, every map order; termination is not part of the claim (C04)"
  },
  {
   "property": "C88",
   "status": "partial",
   "theorems": [
    "C88_valid_between_partial",
    "C88_valid_agree_partial",
    "C88_core_refuted"
   ],
   "note": "strings written both with and without %s allowed; missing are the causes refuted for C02 and C45 (left recursion through a group or option, counts outside count_ok, the first name searched); the bound with the core rules left case-insensitive is refuted"
  },
  {
   "property": "C89",
   "status": "partial",
   "theorems": [
    "C89_ascii_names",
    "C89_valid_partial",
    "C89_generate",
    "C89_ast",
    "C89_forest_partial",
    "C89_bsr_partial",
    "C89_ends",
    "C89_budget",
    "C89_slot_budget",
    "C89_valid_refuted",
    "C89_slots_refuted"
   ],
   "note": "Generate and NewASTGenerator for every grammar that can be written (equal but for the name in an error); the parsers return within their budgets under every name; the verdicts of IsValid and the parsers under the hypotheses of C02, C05 and C06; refuted: IsValid without them, and the parsers under the same budget of slots"
  },
  {
   "property": "C90",
   "status": "partial",
   "theorems": [
    "C90_words",
    "C90_parsers",
    "C90_generate",
    "C90_ast_partial",
    "C90_regex",
    "C90_graph_partial",
    "C90_graph_refuted",
    "C90_valid_partial",
    "C90_accepts_partial"
   ],
   "note": "full for the words, both parsers, the emitted parser, Generate, RuleContainsCycle and Regex; NewASTGenerator for counts up to 2^33; TransitionGraph if both grammars are valid (refuted without: SemvalABNF reads all the rules); IsValid exact when the part meets C02 and the whole grammar has counts in order and a fine first rule"
  },
  {
   "property": "C91",
   "status": "partial",
   "theorems": [
    "C91_order_partial",
    "C91_tape_partial",
    "C91_order_refuted"
   ],
   "note": "for counts up to 2^33; refuted above, where products wrap and one order accepts what the other refuses"
  },
  {
   "property": "C92",
   "status": "partial",
   "theorems": [
    "C92_valid",
    "C92_valid_nullable",
    "C92_parsers",
    "C92_others",
    "C92_ast_partial",
    "C92_semval",
    "C92_graph"
   ],
   "note": "full but for NewASTGenerator, which is for counts up to 2^33 (C91)"
  },
  {
   "property": "C93",
   "status": "proved",
   "theorems": [
    "C93_text",
    "C93_union",
    "C93_swap",
    "C93_clash"
   ],
   "note": "for the option WithValidateABNF on or off; WithRedefineCoreRules off"
  },
  {
   "property": "C94",
   "status": "proved",
   "theorems": [
    "C94_layout",
    "C94_comments",
    "C94_bytes",
    "C94_refuses"
   ],
   "note": "full"
  },
  {
   "property": "C95",
   "status": "partial",
   "theorems": [
    "C95_parse",
    "C95_redefine_partial",
    "C95_validation_refuted"
   ],
   "note": "full without WithRedefineCoreRules; with it, for core names spelled as in the RFC (refuted otherwise by C73_spelling_refuted); which error the validation returns does depend on the order, as refuted"
  },
  {
   "property": "C96",
   "status": "partial",
   "theorems": [
    "C96_halves",
    "C96_no_panic",
    "C96_other_grammars",
    "C96_no_panic_refuted",
    "C96_validation_refuted"
   ],
   "note": "full for forests of the grammar of ABNF; on forests of other grammars EvaluateABNF may panic, and WithValidation has no effect on it, as refuted"
  },
  {
   "property": "C97",
   "status": "partial",
   "theorems": [
    "C97_same_rules",
    "C97_verdicts_partial"
   ],
   "note": "same rules: full; verdicts: under the conditions of C02, C05, C06 and C29, each refuted without them there"
  },
  {
   "property": "C98",
   "status": "proved",
   "theorems": [
    "C98_no_edge_twice",
    "C98_edges_within_budget"
   ],
   "note": "full; the bound by the limit of nodes under the conditions of C32"
  },
  {
   "property": "C99",
   "status": "proved",
   "theorems": [
    "C99_reader_by_length"
   ],
   "note": "full for graphs built; the empty trail counts as one node"
  },
  {
   "property": "C100",
   "status": "proved",
   "theorems": [
    "C100_reader_deterministic"
   ],
   "note": "every graph, both modes; nodes are told apart by address, as the IDs of the code are taken to do"
  },
  {
   "property": "C101",
   "status": "proved",
   "theorems": [
    "C101_reader_names"
   ],
   "note": "every graph, both modes; distinct nodes have distinct IDs"
  },
  {
   "property": "C102",
   "status": "proved",
   "theorems": [
    "C102_generator_names"
   ],
   "note": "every graph, source, tape and options; distinct nodes have distinct IDs"
  },
  {
   "property": "C103",
   "status": "partial",
   "theorems": [
    "C103_limits",
    "C103_length_refuted",
    "C103_reps_refuted"
   ],
   "note": "the sums are proved for every graph built and every source; refuted: maxLength is no bound of the bytes and maxReps none of the times an edge is taken, since steering ignores both"
  }
 ]
}
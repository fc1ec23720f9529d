{
 "claims": [
  {
   "property": "C01",
   "status": "proved",
   "theorems": [
    "C01_derivative_decides_language",
    "C01_zero_group_refuted",
    "C01_empty_choice_refuted",
    "C01_reversed_bounds_refuted"
   ],
   "note": "For every expression whose choices are non-empty, whose group bounds are in order and with no group repeated {0,0}, as in the quantifier. Without each of the three conditions it is refuted (C01_*_refuted; {0,0} is property C05)."
  },
  {
   "property": "C02",
   "status": "proved",
   "theorems": [
    "C02_order_independent"
   ],
   "note": "Under the same well-formedness conditions as C01."
  },
  {
   "property": "C03",
   "status": "proved",
   "theorems": [
    "C03_interval_meaning",
    "C03_interval_closed",
    "C03_interval_open",
    "C03_interval_nested_sound_partial",
    "C03_nested_repeat_refuted"
   ],
   "note": "As quantified: the interval meaning for expressions without explicit group bounds, the verdict when explicit group bounds are not nested under another repetition. With nested bounds acceptance is still sound (C03_interval_nested_sound_partial) and rejection is refuted."
  },
  {
   "property": "C04",
   "status": "partial",
   "theorems": [
    "C04_matchers_agree",
    "C04_fast_path_sound",
    "C04_nested_repeat_refuted"
   ],
   "note": "Agreement proved when explicit group bounds are not nested under another repetition; acceptance by the fast path implies acceptance by derivatives in general; converse refuted for nested bounds."
  },
  {
   "property": "C05",
   "status": "partial",
   "theorems": [
    "C05_zero_group_interval",
    "C05_zero_group_refuted"
   ],
   "note": "Proved for the interval path; refuted for the derivative path (E{0,0} accepts non-empty bags)."
  },
  {
   "property": "C06",
   "status": "partial",
   "theorems": [
    "C06_open_interval",
    "C06_open_derivative",
    "C06_optional_group_refuted",
    "C06_empty_conjunction_refuted"
   ],
   "note": "Proved for the interval path and for the derivative path when explicit group bounds start at 1 or more and no conjunction is empty; refuted otherwise."
  },
  {
   "property": "C07",
   "status": "proved",
   "theorems": [
    "C07_feasibility_refutes",
    "C07_shared_symbol_refuted"
   ],
   "note": "For zero lower bounds and arbitrary expressions, and for arbitrary bounds and single-occurrence expressions, as stated. With committed occurrences of a symbol shared by two branches it is refuted."
  },
  {
   "property": "C08",
   "status": "proved",
   "theorems": [
    "C08_contains",
    "C08_nullable",
    "C08_minus",
    "C08_greater",
    "C08_min",
    "C08_max",
    "C08_plus",
    "C08_minus_beyond_bound_refuted"
   ],
   "note": "n beyond the bound is excluded, as stated; what happens there is C08_minus_beyond_bound_refuted."
  },
  {
   "property": "C09",
   "status": "partial",
   "theorems": [
    "C09_max_json_round_trip",
    "C09_max_signed_round_trip",
    "C09_min_json_round_trip",
    "C09_zero_panics_refuted",
    "C09_large_max_lost",
    "C09_large_max_refuted",
    "C09_negative_min_refuted"
   ],
   "note": "Round trip proved for maxima below 2^63 (JSON reader) and between 1 and 2^63-1 (signed reader); refuted at 0 for the signed reader and above 2^63 for both."
  },
  {
   "property": "C10",
   "status": "partial",
   "theorems": [
    "C10_decides_assignment",
    "C10_item_sound",
    "C10_item_complete",
    "C10_error_definitive",
    "C10_no_neighbours",
    "C10_precheck_sound",
    "C10_no_candidate_refuted"
   ],
   "note": "Proved both ways, with the references left open, whenever some neighbour fits some constraint, for closed tables whose expression is in the class where the bag matcher is exact; when no neighbour fits any constraint the neighbours are forgotten and a nullable expression accepts (C10_no_candidate_refuted)."
  },
  {
   "property": "C11",
   "status": "proved",
   "theorems": [
    "C11_insert",
    "C11_insert_with_key",
    "C11_insert_from_iter",
    "C11_annotate",
    "C11_merge",
    "C11_merge_algebra",
    "C11_contains",
    "C11_len",
    "C11_iter_no_duplicates",
    "C11_pop",
    "C11_drain",
    "C11_keyless_pair_refuted"
   ],
   "note": "All operations characterised over every table built through the public operations. Separate finding: keyless pairs are counted and contained but not produced by iter, and pop panics on them (C11_keyless_pair_refuted)."
  },
  {
   "property": "C12",
   "status": "partial",
   "theorems": [
    "C12_terminates",
    "C12_no_error",
    "C12_greatest_typing_partial",
    "C12_greatest_shex_typing_partial",
    "C12_cyclic_inheritance_refuted",
    "C12_hidden_reference_refuted"
   ],
   "note": "termination for all schemas with acyclic inheritance; verdict = greatest typing for negation-free schemas without inheritance whose references are conditions of their own; refuted for cyclic EXTENDS and for references accompanied by semantic actions"
  },
  {
   "property": "C13",
   "status": "partial",
   "theorems": [
    "C13_history_partial",
    "C13_fresh_answers",
    "C13_hidden_reference_refuted"
   ],
   "note": "history independence for schemas without inheritance whose references are conditions of their own; refuted when a triple constraint has both a reference and a semantic action"
  },
  {
   "property": "C14",
   "status": "partial",
   "theorems": [
    "C14_stratified_partial",
    "C14_complement_partial"
   ],
   "note": "stratified schemas without inheritance on which the matcher is exact"
  },
  {
   "property": "C15",
   "status": "partial",
   "theorems": [
    "C15_exact",
    "C15_all_insertions_partial",
    "C15_overwritten_refuted"
   ],
   "note": "Exact for the recorded graph, in which an edge has the weight of its last insertion; exact for all insertions when no edge is inserted with both signs; refuted otherwise (a later positive insertion hides a negative one). tarjan_scc is replaced by its documented result."
  },
  {
   "property": "C16",
   "status": "partial",
   "theorems": [
    "C16_terminates",
    "C16_sound",
    "C16_every_reference_partial",
    "C16_signs_partial",
    "C16_overwritten_refuted",
    "C16_skipped_refuted",
    "C16_unrecorded_refuted"
   ],
   "note": "Terminates; every edge is a reference with its sign; every reference has an edge on schemas without EXTENDS and without references in conjunctions, and the right sign when no pair of shapes has both. Refuted for the rest: overwritten sign, skipped structurally equal expression, reference next to a semantic action, EXTENDS."
  },
  {
   "property": "C17",
   "status": "proved",
   "theorems": [
    "C17_exhaustive",
    "C17_placed_items",
    "C17_joint_filter_refuted"
   ],
   "note": "Every list of values and every filter. A filter that needs several values together cannot see values it rejects alone (C17_joint_filter_refuted), which is the documented exclusion."
  },
  {
   "property": "C18",
   "status": "proved",
   "theorems": [
    "C18_sound_and_complete",
    "C18_matcher_accepted",
    "C18_deterministic"
   ],
   "note": "Every neighbourhood, every list of buckets of built tables and every iteration order of the hash maps. For the distributions the matcher accepts by ignoring neighbours there is a second theorem, for tables in the class where the matcher is exact (see C10)."
  },
  {
   "property": "C19",
   "status": "proved",
   "theorems": [
    "C19_permutations",
    "C19_permutation_successor",
    "C19_permutation_no_panic",
    "C19_compositions"
   ],
   "note": "Any multiset, any n and any e > 0."
  },
  {
   "property": "C20",
   "status": "proved",
   "theorems": [
    "C20_descendants",
    "C20_parents",
    "C20_has_cycles",
    "C20_edges"
   ],
   "note": "All finite inheritance graphs. petgraph's Dfs and toposort are part of the model."
  },
  {
   "property": "C21",
   "status": "partial",
   "theorems": [
    "C21_variant",
    "C21_shex_partial",
    "C21_extra_reference_refuted",
    "C21_closed_extra_refuted",
    "C21_inverse_refuted",
    "C21_unmatched_refuted"
   ],
   "note": "exact characterisation of the check (C21_variant) and agreement with ShEx 5.5.2 under same_remainder; four refutations where it differs"
  },
  {
   "property": "C22",
   "status": "proved",
   "theorems": [
    "C22_recorded",
    "C22_panics",
    "C22_no_silent_contradiction"
   ],
   "note": "Exact characterisation of what is recorded and of the panics (todo!) on contradictory statuses."
  },
  {
   "property": "C23",
   "status": "partial",
   "theorems": [
    "C23_round_trip_partial",
    "C23_colon_refuted",
    "C23_separator_refuted"
   ],
   "note": "Round trip characterised for local parts without a colon; refuted for local parts with a colon and for namespaces not ending in / or #."
  },
  {
   "property": "C24",
   "status": "proved",
   "theorems": [
    "C24_finite_map",
    "C24_history_exists",
    "C24_longest",
    "C24_qualify",
    "C24_length"
   ],
   "note": "Finite-map semantics over all histories, longest match, length."
  },
  {
   "property": "C25",
   "status": "partial",
   "theorems": [
    "C25_facets_partial",
    "C25_represented",
    "C25_no_decimal",
    "C25_infinity_refuted",
    "C25_large_integer_refuted",
    "C25_large_bound_refuted"
   ],
   "note": "Facets agree with the order of numbers for literals represented by their decimal (all decimals, integers below 2^96, floats converted exactly) and for two xsd:integers; the outcome for all other literals is given; refuted for infinity and for integers of 97 bits or more, which satisfy maxInclusive 5."
  },
  {
   "property": "C26",
   "status": "partial",
   "theorems": [
    "C26_equivalence",
    "C26_hash",
    "C26_order_partial",
    "C26_order_refuted",
    "C26_value_partial",
    "C26_value_refuted"
   ],
   "note": "Equivalence and hash compatibility proved for all literals; comparison reports Equal exactly for equal literals having a decimal; refuted for the others (an integer of 97 bits or NaN is equal to itself but not comparable, where Ord::cmp panics)."
  },
  {
   "property": "C27",
   "status": "partial",
   "theorems": [
    "C27_value_set_partial",
    "C27_integer_comparable",
    "C27_boolean",
    "C27_boolean_refuted",
    "C27_typed_refuted",
    "C27_wildcard_refuted",
    "C27_stem_refuted"
   ],
   "note": "membership for literals compared as terms and wildcards of the right kind; five refutations"
  },
  {
   "property": "C28",
   "status": "partial",
   "theorems": [
    "C28_exact_partial",
    "C28_terminates_partial",
    "C28_errors",
    "C28_total",
    "C28_order",
    "C28_literal_refuted",
    "C28_inverse_refuted"
   ],
   "note": "exact for paths whose inverses are of predicates and that do not leave literals; refuted otherwise (an error that drops the focus node, and a panic)"
  },
  {
   "property": "C29",
   "status": "partial",
   "theorems": [
    "C29_cached_partial",
    "C29_together_partial",
    "C29_nested_refuted",
    "C29_spelling_refuted",
    "C29_reifier_refuted",
    "C29_reifier_shape_refuted"
   ],
   "note": "Cached results equal recomputed ones for nodes that can be keyed and shapes evaluated on their own focus nodes (C29_cached_partial, C29_together_partial); refuted for results nested under another shape, for nodes with two spellings and for reifier shapes."
  },
  {
   "property": "C30",
   "status": "partial",
   "theorems": [
    "C30_accepts_iff_not_recursive_partial",
    "C30_schedule_partial",
    "C30_levels",
    "C30_schedule_uses_partial",
    "C30_siblings_refuted",
    "C30_reifiers_refuted",
    "C30_recursion_refuted"
   ],
   "note": "Proved for the references recorded in the graph; refuted for sibling shapes and reifier shapes, which are evaluated but not recorded."
  },
  {
   "property": "C31",
   "status": "partial",
   "theorems": [
    "C31_logical_partial",
    "C31_failing",
    "C31_or_refuted",
    "C31_not_refuted"
   ],
   "note": "Truth tables of sh:not, sh:and, sh:or, sh:xone when the inner evaluations succeed; what failing inner evaluations do is C31_failing; refuted for sh:or and sh:not with failing inner evaluations."
  },
  {
   "property": "C32",
   "status": "partial",
   "theorems": [
    "C32_components_partial",
    "C32_equals_partial",
    "C32_equals_refuted",
    "C32_literal_refuted"
   ],
   "note": "Counting and pair components for every value node set that is a set of nodes; sh:equals, sh:disjoint, sh:lessThan refuted on literal focus nodes and sh:equals in general."
  },
  {
   "property": "C33",
   "status": "partial",
   "theorems": [
    "C33_same",
    "C33_equivalent_partial",
    "C33_equal_partial",
    "C33_conforms",
    "C33_count_partial",
    "C33_symmetric_refuted"
   ],
   "note": "Equality is reflexive and transitive, holds for reports with the same results, and is the same as having the same results when no result of the left report occurs twice; refuted in general: not symmetric, and equal reports can differ in results."
  },
  {
   "property": "C34",
   "status": "partial",
   "theorems": [
    "C34_refused_only_for_negative_cycles",
    "C34_exact_partial",
    "C34_accepts_negative_cycle_refuted"
   ],
   "note": "Refusals are always justified; exact for the schemas with an exact dependency graph (C16); refuted in general by a schema with a negative cycle that is accepted."
  },
  {
   "property": "C35",
   "status": "proved",
   "theorems": [
    "C35_no_repeats",
    "C35_merge_is_union",
    "C35_firsts_keeps_all",
    "C35_merge_laws",
    "C35_cross_merge"
   ],
   "note": "All alternatives made with the public operations."
  },
  {
   "property": "C36",
   "status": "proved",
   "theorems": [
    "C36_lang_stem"
   ],
   "note": "language stems"
  },
  {
   "property": "C37",
   "status": "partial",
   "theorems": [
    "C37_no_panic",
    "C37_answers",
    "C37_shapemap_partial"
   ],
   "note": "Proved for schemas without negation and inheritance whose references are visible (plain, exact); the absence of panics holds for all."
  },
  {
   "property": "C38",
   "status": "partial",
   "theorems": [
    "C38_resolve",
    "C38_concatenation_partial",
    "C38_separator_refuted"
   ],
   "note": "Result characterised exactly; concatenation proved for namespaces ending in / or #, refuted otherwise."
  },
  {
   "property": "C39",
   "status": "proved",
   "theorems": [
    "C39_equality",
    "C39_hash"
   ],
   "note": "Equality of finite maps and hash compatibility."
  },
  {
   "property": "C40",
   "status": "partial",
   "theorems": [
    "C40_fraction_digits",
    "C40_total_digits_partial",
    "C40_total_digits_accepts",
    "C40_total_digits_refuted"
   ],
   "note": "fractionDigits proved; totalDigits proved for integers and decimals of absolute value at least 1, the accepted decimals characterised exactly, refuted for 0.5 (the zero before the point is counted)."
  },
  {
   "property": "C41",
   "status": "partial",
   "theorems": [
    "C41_integer_sound_partial",
    "C41_integer_complete_partial",
    "C41_boolean",
    "C41_strings",
    "C41_double",
    "C41_infinity_refuted",
    "C41_plus_infinity_refuted",
    "C41_literals_only",
    "C41_xsd_int_refuted",
    "C41_two_signs_refuted",
    "C41_minus_zero_refuted",
    "C41_large_refuted"
   ],
   "note": "Exact for booleans, strings and (up to Rust's own parser) doubles and floats; integers up to 128 bits without the refuted spellings; refuted for xsd:int, ++5, -0 as unsigned, large integers, infinity, +INF."
  },
  {
   "property": "C42",
   "status": "partial",
   "theorems": [
    "C42_length_partial",
    "C42_kept",
    "C42_kept_integer",
    "C42_bytes_refuted",
    "C42_normalised_refuted"
   ],
   "note": "ASCII texts of datatypes that are not normalised, and canonical integers; refuted for non-ASCII characters and 01 as xsd:byte."
  },
  {
   "property": "C43",
   "status": "partial",
   "theorems": [
    "C43_round_trip_partial",
    "C43_integer_value",
    "C43_integer_object",
    "C43_incoming_refuted",
    "C43_incoming_boolean_refuted",
    "C43_incoming"
   ],
   "note": "Datatypes that keep their text; value and type kept for the other integer types; refuted for 01 as xsd:byte and 1 as xsd:boolean."
  },
  {
   "property": "C44",
   "status": "partial",
   "theorems": [
    "C44_integer_partial",
    "C44_numbers_only",
    "C44_xsd_int_refuted"
   ],
   "note": "All integer types up to 96 bits; refuted for xsd:int."
  },
  {
   "property": "C45",
   "status": "partial",
   "theorems": [
    "C45_bound_partial",
    "C45_leading_zero_refuted",
    "C45_sign_refuted",
    "C45_unread_refuted"
   ],
   "note": "Refuted for 0.05, -0.5, .5 and fractions beyond 32 bits."
  },
  {
   "property": "C46",
   "status": "partial",
   "theorems": [
    "C46_antisymmetric",
    "C46_boolean",
    "C46_transitive_partial",
    "C46_transitive_refuted",
    "C46_equal_partial",
    "C46_equal_refuted",
    "C46_xsd_int_refuted"
   ],
   "note": "Antisymmetric; transitive on data literals; refuted in general, and Equal is coarser than equality."
  },
  {
   "property": "C47",
   "status": "partial",
   "theorems": [
    "C47_order_partial",
    "C47_both_less_refuted",
    "C47_self_refuted"
   ],
   "note": "Consistent on comparable nodes; refuted: two nodes each less than the other."
  },
  {
   "property": "C48",
   "status": "partial",
   "theorems": [
    "C48_range_partial",
    "C48_derived_refuted",
    "C48_language_refuted",
    "C48_less_than_refuted"
   ],
   "note": "integer, decimal, double, float; refuted for derived integer types, language tags, and sh:lessThan between IRIs and literals."
  },
  {
   "property": "C49",
   "status": "partial",
   "theorems": [
    "C49_compile_partial",
    "C49_no_panic_partial",
    "C49_panic_refuted"
   ],
   "note": "proved without prefixed exclusions; prefixed exclusions panic"
  },
  {
   "property": "C50",
   "status": "partial",
   "theorems": [
    "C50_truthful",
    "C50_complete",
    "C50_blame",
    "C50_star_refuted",
    "C50_choice_refuted"
   ],
   "note": "truthful and complete for every expression; blame exact for conjunctions of symbols, refuted below repetitions and choices"
  },
  {
   "property": "C51",
   "status": "partial",
   "theorems": [
    "C51_negative_recursion_rejected",
    "C51_needs_negation_partial",
    "C51_cycles_listed_partial",
    "C51_negation_missed_refuted",
    "C51_negation_invented_refuted",
    "C51_self_reference_refuted"
   ],
   "note": "Negative recursion is always rejected and the negative error needs a negation; the sign reported is refuted both ways, and a self reference lists no cycle."
  },
  {
   "property": "C52",
   "status": "partial",
   "theorems": [
    "C52_all_parts_partial",
    "C52_compiles_partial",
    "C52_bounded_integer_partial",
    "C52_invalid_pattern_refuted",
    "C52_pattern"
   ],
   "note": "Node constraints are satisfied part by part; exclusions with prefixed names excepted (C49). Refuted: a pattern that is not a regular expression compiles and rejects every node."
  },
  {
   "property": "C53",
   "status": "partial",
   "theorems": [
    "C53_schedule_partial"
   ],
   "note": "For every interleaving and every pair of schedules that respect the references, under the conditions of C29."
  },
  {
   "property": "C54",
   "status": "partial",
   "theorems": [
    "C54_validate_partial",
    "C54_report_partial",
    "C54_literal_refuted",
    "C54_closed_refuted"
   ],
   "note": "For every schedule and interleaving, under the conditions recorded in ShaclSpec.fine and plain; refuted for literal focus nodes and for sh:closed."
  },
  {
   "property": "C55",
   "status": "partial",
   "theorems": [
    "C55_round_trip_partial",
    "C55_conforms",
    "C55_details_refuted",
    "C55_sequence_refuted",
    "C55_severity_refuted",
    "C55_message_refuted",
    "C55_capture_refuted"
   ],
   "note": "For every report whose paths have no empty sequence, whose severities are not vocabulary IRIs in disguise, whose objects survive conversion, without details; each condition refuted; messages are lost; blank nodes of the data can be captured."
  },
  {
   "property": "C56",
   "status": "partial",
   "theorems": [
    "C56_reads_partial",
    "C56_writes",
    "C56_lists_end",
    "C56_ends_refuted",
    "C56_sound_refuted"
   ],
   "note": "Every well formed encoding is read, every path without empty sequence can be written and read, lists are always walked to an end; refuted: a cyclic path is read for ever, and a broken list is read as the path found where it breaks."
  },
  {
   "property": "C57",
   "status": "partial",
   "theorems": [
    "C57_check",
    "C57_types",
    "C57_specs",
    "C57_order",
    "C57_laws",
    "C57_or_refuted"
   ],
   "note": "Proved for every condition, value type and set of values, with the laws of De Morgan. Refuted: a value that satisfies one side of a disjunction is turned down when a comparison on the other side is between different kinds."
  },
  {
   "property": "C58",
   "status": "partial",
   "theorems": [
    "C58_conforms",
    "C58_combine_partial",
    "C58_commutes",
    "C58_open_refuted",
    "C58_star_refuted"
   ],
   "note": "Conformance proved exactly. Combination proved for closed types and shown commutative. Refuted: combining drops openness; a key that may have no values must still be present."
  },
  {
   "property": "C59",
   "status": "partial",
   "theorems": [
    "C59_sound_partial",
    "C59_parts_partial",
    "C59_exact_partial",
    "C59_unlabelled",
    "C59_or_refuted",
    "C59_optional_refuted",
    "C59_open_labels_refuted",
    "C59_open_keys_refuted",
    "C59_empty_refuted"
   ],
   "note": "Soundness, completeness and exactness where no alternative mixes labels and properties, nothing is open and every choice has a label; in general labels and properties are each right for some choice. Refuted: alternatives mix, optional labels, open labels, open properties, empty contents, nodes without labels."
  },
  {
   "property": "C60",
   "status": "partial",
   "theorems": [
    "C60_ends",
    "C60_only",
    "C60_for_ever",
    "C60_stable",
    "C60_loop_refuted"
   ],
   "note": "References that end are computed within as many steps as there are names; the answer does not depend on the fuel; references that do not end are followed for ever (refuted: a type that refers to itself)."
  },
  {
   "property": "C61",
   "status": "partial",
   "theorems": [
    "C61_intersection_partial",
    "C61_commutes",
    "C61_refuted",
    "C61_allows"
   ],
   "note": "The intersection never turns down what both allow and is commutative; exact for the pairs listed. Refuted: it allows more for other pairs."
  },
  {
   "property": "C62",
   "status": "partial",
   "theorems": [
    "C62_total_partial",
    "C62_order_refuted"
   ],
   "note": "Total order within strings, integers and dates. Refuted across kinds and for booleans."
  },
  {
   "property": "C63",
   "status": "partial",
   "theorems": [
    "C63_succeeds",
    "C63_well_formed",
    "C63_nodes_partial",
    "C63_edges_partial",
    "C63_names",
    "C63_twice_refuted",
    "C63_unnamed_edges_refuted"
   ],
   "note": "Success, well-formedness and names proved for all statements; nodes and edges as stated when no name is declared twice, refuted otherwise."
  },
  {
   "property": "C64",
   "status": "partial",
   "theorems": [
    "C64_succeeds",
    "C64_merged",
    "C64_chain",
    "C64_files_partial",
    "C64_panics_refuted",
    "C64_empty_refuted",
    "C64_twice_refuted"
   ],
   "note": "Success exactly when all ends are named, and the union, proved for all well-formed graphs; refuted: panic after a name declared twice, keys without values, merging twice."
  },
  {
   "property": "C65",
   "status": "partial",
   "theorems": [
    "C65_edge_partial",
    "C65_validate_partial",
    "C65_missing",
    "C65_compare_partial",
    "C65_expected_refuted",
    "C65_opposite_refuted",
    "C65_hidden_refuted"
   ],
   "note": "Answers and comparison proved for schemas in the fragment of C59 and consistent maps; refuted: expected failures, opposite associations, an edge hidden by a node."
  },
  {
   "property": "C66",
   "status": "partial",
   "theorems": [
    "C66_accepts_partial",
    "C66_nodes_partial",
    "C66_edges_partial",
    "C66_validates_partial",
    "C66_third_refuted",
    "C66_unlabelled_refuted",
    "C66_again_refuted",
    "C66_graph_types_refuted",
    "C66_escape_refuted"
   ],
   "note": "Acceptance, names and meaning proved for texts with labels beside properties, at most two types per property, no escaped quotes and no graph types; refuted in each of these cases and for node types declared twice."
  },
  {
   "property": "C67",
   "status": "partial",
   "theorems": [
    "C67_labels",
    "C67_solutions",
    "C67_determined",
    "C67_complete",
    "C67_greatest_partial",
    "C67_validates_partial",
    "C67_defined",
    "C67_extends",
    "C67_abstract",
    "C67_once_consistent",
    "C67_start_inclusion_refuted",
    "C67_nested_label_refuted",
    "C67_duplicate_label_refuted",
    "C67_cyclic_inclusion_refuted",
    "C67_group_actions_refuted"
   ],
   "note": "Solutions, determinacy and labels are proved for all schemas whose labels are declared once or repeatedly in the same way; the greatest typing without negation (C67_greatest_partial) and the verdicts in the fragment of C12 (C67_validates_partial). Inclusions in the start expression, labels inside value expressions, repeated labels, cyclic inclusions through value expressions and actions of groups are refuted."
  },
  {
   "property": "C68",
   "status": "partial",
   "theorems": [
    "C68_imports",
    "C68_ends",
    "C68_external",
    "C68_solutions",
    "C68_greatest_partial",
    "C68_validates_partial",
    "C68_same_imports",
    "C68_circular_refuted"
   ],
   "note": "Visits, termination, failures and external shapes proved for all documents; meaning as in C67. Refuted: a schema with labelled triple expressions that is imported by one of its own imports is rejected."
  },
  {
   "property": "C69",
   "status": "partial",
   "theorems": [
    "C69_accepts_iff",
    "C69_shapes",
    "C69_meaning_partial",
    "C69_negative_count_refuted",
    "C69_closed_twice_refuted",
    "C69_siblings_refuted",
    "C69_class_depth_refuted"
   ],
   "note": "Acceptance and numbering proved for all syntax trees with distinct names. Meaning (C69_meaning_partial): counts that are natural numbers, one sh:closed per shape, siblings only with disjointness, a subclass relation that is listed transitively; SPARQL constraints are left out. Refuted: sh:minCount -1, two sh:closed, siblings without disjointness, sh:class over two steps of rdfs:subClassOf."
  },
  {
   "property": "C70",
   "status": "partial",
   "theorems": [
    "C70_sound",
    "C70_exact_partial",
    "C70_index",
    "C70_sparql_partial",
    "C70_engines_agree_partial",
    "C70_panics",
    "C70_wrong",
    "C70_subclass_refuted",
    "C70_implicit_depth_refuted",
    "C70_class_implicit_refuted",
    "C70_engines_refuted",
    "C70_blank_node_refuted",
    "C70_blank_class_refuted"
   ],
   "note": "sound always; complete for shallow hierarchies (native) or IRI classes (SPARQL); refuted beyond"
  },
  {
   "property": "C71",
   "status": "partial",
   "theorems": [
    "C71_report_partial",
    "C71_one_meaning",
    "C71_rejects",
    "C71_wrong_target_refuted"
   ],
   "note": "end to end, for shapes within the reach of C54 and C69"
  },
  {
   "property": "C72",
   "status": "partial",
   "theorems": [
    "C72_reads_partial",
    "C72_names",
    "C72_order_refuted",
    "C72_parameters_refuted",
    "C72_name_refuted",
    "C72_language_refuted",
    "C72_members_refuted",
    "C72_ignored_refuted"
   ],
   "note": "proved for well-formed graphs with known booleans in which nothing that is read after sh:ignoredProperties stands beside it; refuted without each of these: two paths, parameters only, a failing list, a blank node in sh:in, an IRI in sh:languageIn, sh:hasValue beside sh:ignoredProperties"
  },
  {
   "property": "C73",
   "status": "partial",
   "theorems": [
    "C73_report_partial",
    "C73_ignored_refuted"
   ],
   "note": "proved under the conditions of C71 and C72 stated on the shapes graph; refuted for sh:hasValue beside sh:ignoredProperties"
  },
  {
   "property": "C74",
   "status": "partial",
   "theorems": [
    "C74_alternatives_partial",
    "C74_main_shape_refuted"
   ],
   "note": "proved for schemas whose declarations do not contain themselves and whose disjunctions are not empty; refuted: the other check takes another conjunct as the main shape"
  },
  {
   "property": "C75",
   "status": "partial",
   "theorems": [
    "C75_extends_partial",
    "C75_extra_refuted",
    "C75_unmentioned_refuted",
    "C75_shared_constraint_refuted",
    "C75_mixed_constraint_refuted",
    "C75_empty_disjunction_refuted",
    "C75_documented_refuted"
   ],
   "note": "proved, with termination, for well-extended shapes (exact shapes; restrictions without EXTRA that mention every predicate of their split, or judged on the whole node; one scope per constraint); refuted without: EXTRA in a restriction, a predicate that the restriction does not mention (the documented worked example), a constraint shared by two parents, a conjunction with a negation, an empty disjunction (panic)"
  },
  {
   "property": "C76",
   "status": "partial",
   "theorems": [
    "C76_plain_partial",
    "C76_main_shape_refuted",
    "C76_overlap_refuted",
    "C76_alias_refuted",
    "C76_grandparent_refuted",
    "C76_negation_refuted"
   ],
   "note": "soundness and termination proved when all ancestors are shapes, exactness when no two of them mention the same predicate; refuted: overlapping parents, a parent with two names, a grandparent behind a conjunction, a negation in a parent, a main shape behind a reference"
  },
  {
   "property": "C77",
   "status": "partial",
   "theorems": [
    "C77_inheritance_partial",
    "C77_greatest_partial",
    "C77_answers_partial",
    "C77_declaration_refuted"
   ],
   "note": "Verdicts are the stratified typing (greatest typing without negation), a fixpoint, and validation ends, for schemas whose extended shapes meet the conditions of C75 or C76. Refuted: only shapes are descendants, so a node can have an abstract label through one conjunct of a declaration."
  },
  {
   "property": "C78",
   "status": "partial",
   "theorems": [
    "C78_conforms_partial",
    "C78_ends_partial",
    "C78_determined",
    "C78_provenance",
    "C78_accepted_partial",
    "C78_choice_refuted",
    "C78_cardinality_refuted",
    "C78_inverse_refuted",
    "C78_conjunction_refuted",
    "C78_missing_value_refuted",
    "C78_recursion_refuted",
    "C78_blank_node_refuted"
   ],
   "note": "C78_conforms_partial: the root of a materialised graph has the start shape if the schema has no inclusions, groups allow a single pass, the map speaks about one alternative of each choice, offers as many values as each triple constraint allows, all satisfying it, no triple constraint is inverse and those of a shape have different predicates, and the root is not one of the numbered blank nodes; C78_accepted_partial: the engine then accepts it; C78_ends_partial: a graph is made if no shape calls itself; C78_determined and C78_provenance hold for every schema. Refuted in general: all alternatives of a choice are written, cardinalities, inverse and conjunctions are ignored, missing values are left out silently, recursion never ends, and a blank node given as root is taken for a new one."
  },
  {
   "property": "C79",
   "status": "partial",
   "theorems": [
    "C79_read_partial",
    "C79_ends",
    "C79_generated",
    "C79_repeated_refuted",
    "C79_short_row_refuted",
    "C79_blank_property_refuted",
    "C79_blank_constraint_refuted",
    "C79_placeholders_refuted"
   ],
   "note": "proved (iff) for complete, tidy tables; refuted otherwise: short rows keep the label of the shape before, blank property cells are properties, blank constraint cells are constraints; repeated identifiers give two shapes; placeholders may collide"
  },
  {
   "property": "C80",
   "status": "partial",
   "theorems": [
    "C80_names",
    "C80_converts",
    "C80_declares",
    "C80_means_partial",
    "C80_validates_partial",
    "C80_datatype_refuted",
    "C80_list_refuted",
    "C80_nodetype_refuted",
    "C80_mandatory_refuted",
    "C80_delimiter_refuted"
   ],
   "note": "meaning proved for statements that say whether they are mandatory, without node kinds and without a single datatype, about different properties, without extensions; the converter drops a single datatype (with the list beside it) and node kinds, takes unmarked properties as mandatory, and does not split at the delimiter (refuted)"
  },
  {
   "property": "C81",
   "status": "partial",
   "theorems": [
    "C81_sentences_read_partial",
    "C81_layout_partial",
    "C81_unambiguous_partial",
    "C81_expressions_read_partial",
    "C81_names_refuted",
    "C81_abstract_refuted",
    "C81_start_refuted",
    "C81_facets_refuted",
    "C81_inline_extends_refuted",
    "C81_bracketed_inclusion_refuted",
    "C81_cardinality_refuted",
    "C81_label_refuted",
    "C81_numbers_refuted",
    "C81_case_refuted",
    "C81_dangling_refuted"
   ],
   "note": "proved for plain sentences (facets of strings first, numbers that fit, brackets around expressions without attributes, no EXTENDS in triple constraints, prefixes that begin with no keyword); refuted with witnesses for names, facets, brackets, numbers, lower-case closed, inline EXTENDS, and a dangling AND that is accepted"
  },
  {
   "property": "C82",
   "status": "partial",
   "theorems": [
    "C82_round_trip_partial",
    "C82_identity_partial",
    "C82_injective_partial",
    "C82_spelling_partial",
    "C82_apart_partial",
    "C82_range_refuted",
    "C82_parentheses_refuted",
    "C82_group_refuted",
    "C82_label_refuted",
    "C82_choice_refuted",
    "C82_abstract_refuted",
    "C82_annotations_refuted",
    "C82_facet_refuted",
    "C82_extends_refuted",
    "C82_fused_refuted",
    "C82_default_refuted"
   ],
   "note": "Proved for printable schemas: C82_round_trip_partial, C82_identity_partial, C82_injective_partial, C82_apart_partial; keywords in other cases: C82_spelling_partial. The round trip of every schema that can be read is refuted: ranges and numeric facets are printed in a form that is not read, parentheses, group cardinalities, labels, ABSTRACT and actions of shapes are lost, alternatives and inclusions panic, EXTRA and EXTENDS run together. Contents of literals, value sets, patterns and codes are opaque."
  },
  {
   "property": "C83",
   "status": "partial",
   "theorems": [
    "C83_numbers",
    "C83_tags",
    "C83_white_space",
    "C83_strings_partial",
    "C83_iri_references_partial",
    "C83_prefixes_partial",
    "C83_local_names_partial",
    "C83_labels_partial",
    "C83_iris_partial",
    "C83_literals_partial",
    "C83_regexps_partial",
    "C83_code_partial",
    "C83_printed_partial",
    "C83_long_string_refuted",
    "C83_surrogate_refuted",
    "C83_dot_refuted",
    "C83_foreign_refuted",
    "C83_local_escape_refuted",
    "C83_prefix_refuted",
    "C83_regexp_refuted",
    "C83_code_refuted",
    "C83_integer_refuted",
    "C83_printed_refuted"
   ],
   "note": "numbers, language tags and white space in full; the others up to the differences that are refuted: quotes inside long strings, surrogate escapes, dots behind names, letters beyond ASCII at the start of names, escapes in names, double dots in prefixes, backslashes by number in patterns, white space in codes; printing without escapes"
  },
  {
   "property": "C84",
   "status": "partial",
   "theorems": [
    "C84_read_partial",
    "C84_sound",
    "C84_no_panic",
    "C84_one_pair_partial",
    "C84_more_pairs",
    "C84_literals",
    "C84_printing_refuted",
    "C84_panic_refuted",
    "C84_query_refuted",
    "C84_empty_refuted",
    "C84_status_refuted",
    "C84_blank_node_refuted",
    "C84_language_refuted",
    "C84_focus_refuted",
    "C84_rest_refuted"
   ],
   "note": "sentences read and nothing else, one printed pair read back; the official grammar and printing of several pairs refuted"
  },
  {
   "property": "C85",
   "status": "partial",
   "theorems": [
    "C85_read_back_partial",
    "C85_read_back_refuted",
    "C85_readable_refuted",
    "C85_injective_partial",
    "C85_injective_refuted",
    "C85_stable_partial",
    "C85_stable_refuted",
    "C85_facets_partial",
    "C85_facets_refuted",
    "C85_panic_partial",
    "C85_panic_refuted"
   ],
   "note": "exact characterisation of the schemas that are read back, stability, facets, panics; the unconditional round trip refuted"
  },
  {
   "property": "C86",
   "status": "partial",
   "theorems": [
    "C86_converts",
    "C86_meaning_partial",
    "C86_no_class_partial",
    "C86_sound_partial",
    "C86_complete_partial",
    "C86_counts_refuted",
    "C86_components_refuted",
    "C86_closed_refuted",
    "C86_deactivated_refuted",
    "C86_class_refuted",
    "C86_or_refuted",
    "C86_total_refuted",
    "C86_separate_refuted"
   ],
   "note": "converts is full; meaning needs separate properties, soundness and completeness plain shapes; refuted otherwise"
  },
  {
   "property": "C87",
   "status": "partial",
   "theorems": [
    "C87_compare",
    "C87_symmetric",
    "C87_describes",
    "C87_properties_partial",
    "C87_shapes_partial",
    "C87_single",
    "C87_properties_refuted",
    "C87_shapes_refuted",
    "C87_equal_refuted",
    "C87_blind",
    "C87_first_refuted",
    "C87_no_prefixes",
    "C87_total_refuted",
    "C87_later_refuted"
   ],
   "note": "compare and describes are full; what is described is proved for groups and refuted for single constraints"
  },
  {
   "property": "C88",
   "status": "partial",
   "theorems": [
    "C88_converts",
    "C88_patterns",
    "C88_answers_have",
    "C88_answers_partial",
    "C88_found_partial",
    "C88_conform_partial",
    "C88_text_partial",
    "C88_answers_refuted",
    "C88_focus_refuted",
    "C88_found_refuted",
    "C88_conform_refuted",
    "C88_ends_refuted",
    "C88_total_refuted",
    "C88_text_refuted"
   ],
   "note": "converts, patterns and answers_have are full; the exact answers need local names that are apart, the meaning required or unrestricted shapes; refuted otherwise"
  },
  {
   "property": "C89",
   "status": "partial",
   "theorems": [
    "C89_reads",
    "C89_schema_partial",
    "C89_never_fails",
    "C89_read",
    "C89_accepts",
    "C89_schema_refuted",
    "C89_negation_refuted",
    "C89_values_refuted",
    "C89_nonliteral_refuted",
    "C89_ends_refuted",
    "C89_order_refuted",
    "C89_broken_refuted"
   ],
   "note": "what is read of every graph that describes a schema is characterised, and that reading never fails; that schemas are read as they are holds for a fragment, with refutations for the rest"
  },
  {
   "property": "C90",
   "status": "partial",
   "theorems": [
    "C90_count",
    "C90_relationships",
    "C90_conforms_partial",
    "C90_unbounded_refuted",
    "C90_reference_refuted",
    "C90_closed_refuted",
    "C90_choice_refuted",
    "C90_values_refuted",
    "C90_datatype_refuted",
    "C90_bounds_refuted",
    "C90_facets_refuted",
    "C90_several_refuted",
    "C90_group_refuted",
    "C90_weights_refuted",
    "C90_legacy_refuted"
   ],
   "note": "cardinalities proved for all; good data for easy schemas; the other cases are refuted"
  },
  {
   "property": "C91",
   "status": "partial",
   "theorems": [
    "C91_sorts",
    "C91_ends",
    "C91_schema",
    "C91_order_refuted",
    "C91_nested_refuted",
    "C91_declared_refuted"
   ],
   "note": "sorting proved for all graphs; dependencies first refuted"
  },
  {
   "property": "C92",
   "status": "partial",
   "theorems": [
    "C92_valid_partial",
    "C92_order_partial",
    "C92_percentage",
    "C92_loss",
    "C92_generated_partial",
    "C92_missing_refuted",
    "C92_default_refuted",
    "C92_types_refuted",
    "C92_twice_refuted",
    "C92_empty_refuted",
    "C92_closed_refuted"
   ],
   "note": "counting is exact for one type per node and properties once; percentages and loss proved for all; data of easy schemas have 100 percent; five refutations"
  },
  {
   "property": "C93",
   "status": "partial",
   "theorems": [
    "C93_conforms_partial",
    "C93_loss",
    "C93_class_refuted",
    "C93_node_refuted",
    "C93_twice_refuted",
    "C93_values_refuted",
    "C93_dropped_refuted",
    "C93_none_refuted",
    "C93_path_refuted",
    "C93_counted_refuted"
   ],
   "note": "Proved for shapes graphs with IRI names, property shapes with predicate paths, a known datatype, integer bounds and at most one required value; conformance of the whole graph if targets are the shapes themselves. The exactness of the count of losses is proved for all shapes graphs. Refuted: classes and nodes as targets, two required values (panic), values without datatype, dropped components, maxCount 0, complex paths, node-level constraints."
  },
  {
   "property": "C94",
   "status": "partial",
   "theorems": [
    "C94_origin_partial",
    "C94_requests_partial",
    "C94_localhost_partial",
    "C94_part",
    "C94_panics",
    "C94_configured",
    "C94_own_uri",
    "C94_evil_refuted",
    "C94_panic_refuted",
    "C94_case_refuted"
   ],
   "note": "serialised origins in full, and the guards for requests with them; other texts are refuted: brackets in a path or a port with user information are taken for the host, and ][ panics"
  },
  {
   "property": "C95",
   "status": "partial",
   "theorems": [
    "C95_one_call",
    "C95_test_partial",
    "C95_map",
    "C95_dispatch",
    "C95_condition_partial",
    "C95_refused",
    "C95_start_partial",
    "C95_unbound_refuted",
    "C95_before_refuted",
    "C95_registry_refuted"
   ],
   "note": "calls, messages, dispatch and Map in full; conditions and start actions where particles have values; refuted: particles without value are no error, actions run before the value is tested, and contexts without registry make constraints with actions fail"
  },
  {
   "property": "C96",
   "status": "partial",
   "theorems": [
    "C96_matching",
    "C96_neighs_partial",
    "C96_closed_partial",
    "C96_memory_closed",
    "C96_asked_once",
    "C96_closed_empty_refuted",
    "C96_closed_endpoint_refuted",
    "C96_blank_refuted",
    "C96_triples",
    "C96_triples_refuted",
    "C96_changed_refuted"
   ],
   "note": "exact for all histories of requests and failures unless blank nodes meet endpoints; closed shapes for data in memory with a direct predicate; refuted: closed shapes without direct predicates accept every node through the backend, closed shapes do not see endpoints, blank nodes are wildcards at endpoints, failing endpoints are silently left out of all triples, changes at endpoints are not seen"
  },
  {
   "property": "C97",
   "status": "partial",
   "theorems": [
    "C97_draws_partial",
    "C97_diagram_partial",
    "C97_around_partial",
    "C97_cardinality_refuted",
    "C97_exactly_refuted",
    "C97_inverse_refuted",
    "C97_group_refuted",
    "C97_not_refuted",
    "C97_oneof_refuted",
    "C97_nothing_refuted",
    "C97_names_refuted"
   ],
   "note": "proved for the cardinalities one, optional, star and plus: when schemas are drawn, that the diagram shows exactly their pictures, and what is drawn around a node; refuted: ranges become fixed numbers and exact numbers are errors, inverse, negated and repeated constraints are drawn as plain ones, NOT of a datatype is an error, alternatives panic, arrows to undeclared or differently written names lead to nothing"
  },
  {
   "property": "C98",
   "status": "partial",
   "theorems": [
    "C98_outgoing_partial",
    "C98_incoming_partial",
    "C98_arranged",
    "C98_build_partial",
    "C98_zero_refuted",
    "C98_zero_partial",
    "C98_filter_refuted"
   ],
   "note": "proved for depths from 1: the outgoing tree has exactly the walks of allowed predicates up to the depth and each arc once, the incoming tree all walks to the node, and arranging keeps the tree and orders predicates; refuted: depth 0 overflows (exactly at nodes with an arc to a non-literal), the list of predicates does not limit incoming arcs"
  },
  {
   "property": "C99",
   "status": "partial",
   "theorems": [
    "C99_read_partial",
    "C99_depth_refuted",
    "C99_lines_refuted",
    "C99_predicate_refuted"
   ],
   "note": "proved for texts on one line without characters of the tree: all arcs are read in order with predicate and target, never too deep, and with the right depth unless below the last arc of a node; refuted: the depth below a last arc, literals with line breaks lose, move and make arcs, predicates with characters of the tree are altered"
  },
  {
   "property": "C100",
   "status": "partial",
   "theorems": [
    "C100_draws_partial",
    "C100_picture_partial",
    "C100_apart_partial",
    "C100_diagram",
    "C100_nested_refuted",
    "C100_apart_refuted",
    "C100_asserted_refuted",
    "C100_link_refuted"
   ],
   "note": "Proved which graphs are drawn, what their boxes, arrows and counts are when literals convert exactly, that the diagram shows all of them, and that different terms have different boxes when literals are shown apart; refuted for nested triple terms, literals shown alike, asserted triples whose literal changes, and the links of predicate boxes."
  },
  {
   "property": "C101",
   "status": "partial",
   "theorems": [
    "C101_merge_partial",
    "C101_replace_partial",
    "C101_failed_partial",
    "C101_panics_partial",
    "C101_query_partial",
    "C101_answers_partial",
    "C101_asked",
    "C101_endpoint_partial",
    "C101_pg_partial",
    "C101_malformed",
    "C101_catalog",
    "C101_replace_refuted",
    "C101_kind_refuted",
    "C101_failed_adds_refuted",
    "C101_failed_loses_refuted",
    "C101_failed_replace_refuted",
    "C101_panics_refuted",
    "C101_query_refuted",
    "C101_endpoint_refuted"
   ],
   "note": "merging loads of readable sources add exactly what they say, refused requests change nothing, panics only for TriG, N3 and prefixes without data, queries after all loads see everything; replacing with several sources, failed loads, loads after queries and similar endpoint IRIs refuted"
  },
  {
   "property": "C102",
   "status": "partial",
   "theorems": [
    "C102_prefixes_partial",
    "C102_keyword_refuted",
    "C102_turtle_refuted"
   ],
   "note": "proved for lines with a name, a colon and an IRI in angle brackets; the keyword PREFIX and Turtle declarations refuted"
  },
  {
   "property": "C103",
   "status": "partial",
   "theorems": [
    "C103_read_partial",
    "C103_one_partial",
    "C103_sound_partial",
    "C103_panics_partial",
    "C103_mie",
    "C103_partitions_refuted",
    "C103_counts_refuted",
    "C103_default_graph_refuted",
    "C103_dataset_refuted",
    "C103_panic_refuted",
    "C103_language_refuted"
   ],
   "note": "proved for graphs without counts of properties, entities and documents and without partitions inside partitions of classes; refuted in general"
  },
  {
   "property": "C104",
   "status": "partial",
   "theorems": [
    "C104_commands",
    "C104_failures",
    "C104_header_partial",
    "C104_string_refuted",
    "C104_alias_refuted",
    "C104_one_line_refuted",
    "C104_turtle_refuted"
   ],
   "note": "the commands are right for all sequences; the header for sources where declarations begin their line and for legal aliases; refuted in general"
  },
  {
   "property": "C105",
   "status": "partial",
   "theorems": [
    "C105_csv_partial",
    "C105_cells_partial",
    "C105_rows_partial",
    "C105_select",
    "C105_truth_partial",
    "C105_prefixes",
    "C105_empty_refuted",
    "C105_columns_refuted",
    "C105_width_refuted",
    "C105_kinds_refuted",
    "C105_datatype_refuted",
    "C105_markdown_refuted"
   ],
   "note": "proved for at least one solution, the same variables in all solutions and terms shown in full; refuted in general"
  },
  {
   "property": "C106",
   "status": "partial",
   "theorems": [
    "C106_lookup",
    "C106_set_path",
    "C106_settable",
    "C106_listed_partial",
    "C106_listed_refuted",
    "C106_set",
    "C106_get",
    "C106_set_partial",
    "C106_scalar_partial",
    "C106_scalar_refuted",
    "C106_reset",
    "C106_reset_unknown",
    "C106_all_partial",
    "C106_short",
    "C106_long",
    "C106_replace",
    "C106_merge",
    "C106_endpoint_partial",
    "C106_all_refuted",
    "C106_results_refuted",
    "C106_endpoint_refuted",
    "C106_keep_refuted",
    "C106_offer",
    "C106_complete_partial",
    "C106_extra_refuted",
    "C106_indent_refuted"
   ],
   "note": "lookup, set, settable keys, reset of targets, unknown targets, short forms, replace and merge, offers proved for all; listed keys without dots, settings read as written, texts that look like texts, reset all but prefixes and configuration, endpoint in sessions of endpoint and reset, completion of plain lines partial; dotted names, texts like numbers, leftovers of reset, endpoint out of step, lost data, extra and indented completion refuted"
  },
  {
   "property": "C107",
   "status": "partial",
   "theorems": [
    "C107_load",
    "C107_kept_partial",
    "C107_shex_partial",
    "C107_node_partial",
    "C107_shacl",
    "C107_shapes_partial",
    "C107_pg",
    "C107_check_partial",
    "C107_lax_partial",
    "C107_reset",
    "C107_reset_pg_partial",
    "C107_judged",
    "C107_compiled",
    "C107_shacl_judged",
    "C107_frame",
    "C107_panics_partial",
    "C107_results",
    "C107_pg_loaded",
    "C107_kept_refuted",
    "C107_shex_refuted",
    "C107_node_refuted",
    "C107_shapes_refuted",
    "C107_lax_refuted",
    "C107_config_refuted",
    "C107_check_refuted",
    "C107_reset_pg_refuted",
    "C107_stale_refuted",
    "C107_reset_maps_refuted"
   ],
   "note": "Loading, failed calls but adding a node, SHACL, property graphs, check without default prefixes and resets proved; the rest refuted (C107_*_refuted)"
  },
  {
   "property": "C108",
   "status": "partial",
   "theorems": [
    "C108_pages",
    "C108_page_size",
    "C108_cursor",
    "C108_level",
    "C108_sent",
    "C108_all_sent",
    "C108_rate_partial",
    "C108_rate_refuted",
    "C108_urgent_refuted",
    "C108_truncate",
    "C108_message_partial",
    "C108_message_refuted",
    "C108_field_refuted",
    "C108_count",
    "C108_load",
    "C108_restore_partial",
    "C108_tool_error",
    "C108_crash",
    "C108_full_partial",
    "C108_endpoint_refuted",
    "C108_unsaved_refuted",
    "C108_empty_refuted",
    "C108_pg_refuted",
    "C108_order_refuted",
    "C108_full_refuted",
    "C108_race_refuted"
   ],
   "note": "Pages, levels, crash safety, counting and restoring of graphs proved; limits, endpoints, failures, races and full disks refuted (C108_*_refuted)"
  },
  {
   "property": "C109",
   "status": "partial",
   "theorems": [
    "C109_shell_partial",
    "C109_shell_refuted",
    "C109_mounts_partial",
    "C109_colon_refuted",
    "C109_stream_partial",
    "C109_stream_refuted",
    "C109_build_partial",
    "C109_again",
    "C109_kept",
    "C109_failed_partial",
    "C109_refused",
    "C109_paths_partial",
    "C109_stale_refuted",
    "C109_index_dir_refuted",
    "C109_truncated_refuted",
    "C109_convert_refuted",
    "C109_reader_partial",
    "C109_reader_refuted"
   ],
   "note": "Proved for arguments that are not empty, folders without colons, inputs without named graphs, indexes that are made new, failures without packed inputs, and converted files with names of their own; refuted otherwise."
  },
  {
   "property": "C110",
   "status": "partial",
   "theorems": [
    "C110_settings",
    "C110_shell_partial",
    "C110_shell_refuted",
    "C110_created",
    "C110_kept",
    "C110_opened",
    "C110_deleted_partial",
    "C110_indexes",
    "C110_data_refuted",
    "C110_other_refuted",
    "C110_shared_refuted",
    "C110_left_refuted"
   ],
   "note": "Settings, kept indexes and opened ones in full; the shell for settings without empty texts, deleting for what is not in the folder of the index; refuted otherwise."
  },
  {
   "property": "C111",
   "status": "partial",
   "theorems": [
    "C111_size_partial",
    "C111_limits_partial",
    "C111_docker_refuted"
   ],
   "note": "Exactly which texts are taken and as what, for numbers taken as exact and without exponents; agreement with Docker refuted."
  }
 ]
}

{
 "claims": [
  {
   "property": "C01",
   "status": "proved",
   "theorems": [
    "C01_rational_canonical",
    "C01_rational_zero_denominator",
    "C01_integer_iff_divides",
    "C01_rational_idempotent",
    "C01_rational_unique"
   ],
   "note": ""
  },
  {
   "property": "C02",
   "status": "proved",
   "theorems": [
    "C02_exact_sum",
    "C02_exact_product",
    "C02_order_independent",
    "C02_grouping_independent"
   ],
   "note": ""
  },
  {
   "property": "C03",
   "status": "proved",
   "theorems": [
    "C03_complex_sum",
    "C03_complex_product",
    "C03_complex_evaluated_canonical"
   ],
   "note": ""
  },
  {
   "property": "C04",
   "status": "partial",
   "theorems": [
    "C04_collect_preserves_value_partial",
    "C04_plus_preserves_value_partial",
    "C04_times_preserves_value",
    "C04_plus_preserves_value_refuted"
   ],
   "note": "Plus compares the non-numeric parts of terms only by 64-bit hash, so the full claim is false (refuted with f[1/328199]+f[66053/7]); proved for every argument list without such a collision. Times is proved in full (arguments other than Infinity/ComplexInfinity/Indeterminate)."
  },
  {
   "property": "C05",
   "status": "proved",
   "theorems": [
    "C05_order_antisymmetric",
    "C05_order_range",
    "C05_order_reflexive",
    "C05_order_trichotomy_refuted"
   ],
   "note": "Antisymmetry, reflexivity, range proved for all well-formed expressions; the -2 answer for Complex with symbolic real part is exhibited as the documented failure."
  },
  {
   "property": "C06",
   "status": "partial",
   "theorems": [
    "C06_order_transitive_partial",
    "C06_order_transitive_refuted"
   ],
   "note": "False in general (3-cycle with bare Times as an argument); proved for all well-formed expressions in which Times is only the head of a non-empty product."
  },
  {
   "property": "C07",
   "status": "partial",
   "theorems": [
    "C07_order_zero_identical_partial",
    "C07_order_integers",
    "C07_order_rationals_partial",
    "C07_order_zero_identical_refuted",
    "C07_order_numeric_refuted"
   ],
   "note": "Refuted for rationals/complex (53-bit rounding, Im ignored). Proved: integers of any size; order 0 iff identical for expressions whose numbers are integers; rationals are weakly monotone."
  },
  {
   "property": "C08",
   "status": "partial",
   "theorems": [
    "C08_sort_ordered_permutation",
    "C08_sort_all_pairs_ordered_partial",
    "C08_sort_idempotent",
    "C08_orderless_canonical_partial",
    "C08_any_sort_canonical_partial",
    "C08_orderless_canonical_refuted"
   ],
   "note": "Ordered permutation and idempotence for all well-formed arguments; canonical form for arguments on which order 0 means identical; refuted in general."
  },
  {
   "property": "C09",
   "status": "partial",
   "theorems": [
    "C09_sameq_reflexive",
    "C09_sameq_symmetric",
    "C09_sameq_identical_partial",
    "C09_sameq_identical_refuted"
   ],
   "note": "SameQ compares hashes: reflexive/symmetric and injective on the hash input; refuted for rationals whose encodings coincide."
  },
  {
   "property": "C10",
   "status": "proved",
   "theorems": [
    "C10_sameq_one_ulp",
    "C10_sameq_not_transitive_refuted",
    "C10_sameq_congruence_refuted"
   ],
   "note": "The property as worded is proved; the theorems named _refuted prove the exceptions it names or show that a natural extension of it fails."
  },
  {
   "property": "C11",
   "status": "partial",
   "theorems": [
    "C11_equal_true_iff_identical",
    "C11_equal_numbers",
    "C11_equal_true_symmetric",
    "C11_unequal_is_negation",
    "C11_equal_symmetric_refuted",
    "C11_false_sound_refuted"
   ],
   "note": "True iff identical, True symmetric, Unequal the negation: proved. Symmetry of False/unevaluated and soundness of False are refuted."
  },
  {
   "property": "C12",
   "status": "partial",
   "theorems": [
    "C12_decides",
    "C12_small_integers_partial",
    "C12_strict_sound_partial",
    "C12_weak_complete_partial",
    "C12_integers_refuted",
    "C12_inequality_one_direction",
    "C12_inequality_split",
    "C12_inequality_refuted"
   ],
   "note": "Operands are first rounded to 53 bits: exact for integers up to 2^53, strict relations sound and weak ones complete for all exact numbers, converse refuted; mixed chains proved for one direction and split, chain starting with == refuted."
  },
  {
   "property": "C13",
   "status": "proved",
   "theorems": [
    "C13_extremum",
    "C13_extremum_flat",
    "C13_symbolic_max_refuted"
   ],
   "note": "Proved for all nested lists of integers; Max of two or more symbols never reaches a fixed point. The property as worded is proved; the theorems named _refuted prove the exceptions it names or show that a natural extension of it fails."
  },
  {
   "property": "C14",
   "status": "proved",
   "theorems": [
    "C14_gcd_greatest",
    "C14_gcd_order_independent",
    "C14_mod_positive",
    "C14_mod_zero",
    "C14_mod_negative_refuted"
   ],
   "note": "GCD proved for every list of integers; Mod proved for positive modulus, the Wolfram sign convention for negative modulus is refuted (Mod[5,-3]=2). The property as worded is proved; the theorems named _refuted prove the exceptions it names or show that a natural extension of it fails."
  },
  {
   "property": "C15",
   "status": "proved",
   "theorems": [
    "C15_prime_factors",
    "C15_factor_tally",
    "C15_nonpositive_diverges_refuted"
   ],
   "note": "Proved with termination for every n>=2 (trial division loop with sufficient fuel); for n<=0 the loop never ends. The property as worded is proved; the theorems named _refuted prove the exceptions it names or show that a natural extension of it fails."
  },
  {
   "property": "C16",
   "status": "proved",
   "theorems": [
    "C16_power_positive",
    "C16_power_negative",
    "C16_power_zero",
    "C16_zero_base"
   ],
   "note": ""
  },
  {
   "property": "C17",
   "status": "proved",
   "theorems": [
    "C17_nth_root",
    "C17_extract_power_value",
    "C17_power_rational_positive_base",
    "C17_negative_base_refuted",
    "C17_negative_base_radicand"
   ],
   "note": "Newton iteration proved to terminate and to be exact; the whole rewriting of x^(m/n) is value preserving for positive x; for negative x with m>1 it is wrong (refuted). The property as worded is proved; the theorems named _refuted prove the exceptions it names or show that a natural extension of it fails."
  },
  {
   "property": "C18",
   "status": "partial",
   "theorems": [
    "C18_argument_refuted",
    "C18_factorial_value"
   ],
   "note": "The value is proved. The second half is refuted: Factorial counts its Integer argument object down to 0, so x=5; x!; x gives 0."
  },
  {
   "property": "C19",
   "status": "partial",
   "theorems": [
    "C19_partitions_at_most_k",
    "C19_partitions_all",
    "C19_partitions_nonpositive",
    "C19_large_refuted"
   ],
   "note": "Proved for n,k below 2^63; larger arguments are truncated (refuted)."
  },
  {
   "property": "C20",
   "status": "partial",
   "theorems": [
    "C20_permutations_sound",
    "C20_permutations_complete_partial",
    "C20_empty_refuted"
   ],
   "note": "Soundness and absence of duplicates proved in full for non-empty lists; completeness needs that SameQ (hash based) tells the elements apart; empty list refuted."
  },
  {
   "property": "C21",
   "status": "proved",
   "theorems": [
    "C21_allocations_exact",
    "C21_ordered_splits_exact",
    "C21_no_forms_refuted"
   ],
   "note": "Proved for at least one form (termination, no duplicates, exact set); with no forms the allocator claims a solution for any number of expressions (refuted). The property as worded is proved; the theorems named _refuted prove the exceptions it names or show that a natural extension of it fails."
  },
  {
   "property": "C22",
   "status": "proved",
   "theorems": [
    "C22_orderless_assignments_exact"
   ],
   "note": "Proved for at least one form, for every candidate table; with no forms the orderless path indexes an empty slice."
  },
  {
   "property": "C23",
   "status": "partial",
   "theorems": [
    "C23_match_sound_partial",
    "C23_every_match_sound_partial",
    "C23_only_pattern_names_bound",
    "C23_empty_pattern_refuted",
    "C23_head_sequence_refuted"
   ],
   "note": "Sound w.r.t. the declarative semantics of S_Match.v for every pattern whose compound parts have an argument, whose head patterns stand for one expression, and whose excluded patterns are name-free; names of one match agree up to the equivalence generated by SameQ. f[] and __[1] break soundness (refuted). Binding only names of the pattern is proved for all patterns."
  },
  {
   "property": "C24",
   "status": "partial",
   "theorems": [
    "C24_match_complete_partial",
    "C24_matchq_complete_partial",
    "C24_matchq_decides_partial",
    "C24_named_compound_refuted",
    "C24_alternatives_refuted",
    "C24_failed_alternative_refuted",
    "C24_name_convention_refuted"
   ],
   "note": "Complete on the fragment frag (names on blanks anywhere, on other patterns in argument positions only; name-free Alternatives, Except, tests; no Optional/Condition); for name-free patterns MatchQ decides the declarative relation. Outside it solutions are missed (four counterexamples)."
  },
  {
   "property": "C25",
   "status": "partial",
   "theorems": [
    "C25_bindings_consistent",
    "C25_repeated_names_partial",
    "C25_drift_refuted"
   ],
   "note": "One value per name and preservation of earlier bindings up to the equivalence generated by SameQ, for all patterns; drift along non-transitive SameQ on reals refutes exact SameQ."
  },
  {
   "property": "C26",
   "status": "proved",
   "theorems": [
    "C26_replace_is_substitution",
    "C26_unbound_untouched",
    "C26_empty_identity"
   ],
   "note": "ReplacePD is exactly simultaneous substitution."
  },
  {
   "property": "C27",
   "status": "partial",
   "theorems": [
    "C27_top_down",
    "C27_constant_rule",
    "C27_no_occurrence",
    "C27_replace_all_call",
    "C27_rule_list_partial",
    "C27_sequential_refuted"
   ],
   "note": ""
  },
  {
   "property": "C28",
   "status": "partial",
   "theorems": [
    "C28_latest_definition_wins",
    "C28_no_stale_rule",
    "C28_definition_idempotent",
    "C28_variable_reads_back_partial",
    "C28_conditional_value_shadows_refuted",
    "C28_invalid_lhs_aborts_refuted"
   ],
   "note": "Proved for all reachable states (define/clear/attributes/module/freeze). Refuted: a conditional value rule shadows x=3 on read; invalid lhs aborts the process."
  },
  {
   "property": "C29",
   "status": "partial",
   "theorems": [
    "C29_rules_sorted_by_specificity_partial",
    "C29_lookup_in_stored_order",
    "C29_downvalues_assignment_unsorted_refuted"
   ],
   "note": "Proved under the hypothesis that no 64-bit hash collision identifies a conditional with an unconditional rhs; printed length of the lhs is a parameter. DownValues[f]=... can install any order (refuted there)."
  },
  {
   "property": "C30",
   "status": "partial",
   "theorems": [
    "C30_define_changes_only_target",
    "C30_target_unique",
    "C30_clear_changes_only_target",
    "C30_frozen_define_is_noop",
    "C30_cleared_symbol_evaluates_to_itself",
    "C30_clear_unknown_is_noop",
    "C30_frozen_clear_changes_refuted",
    "C30_clear_erases_attributes_refuted",
    "C30_protected_not_enforced_refuted",
    "C30_snapshot_drops_attributes_refuted",
    "C30_snapshot_keeps_rules"
   ],
   "note": "Frame, frozen Define, Clear proved. Refuted: Clear ignores frozen, erases attributes/builtins; Protected not enforced; snapshots drop attributes."
  },
  {
   "property": "C31",
   "status": "proved",
   "theorems": [
    "C31_attributes_round_trip",
    "C31_setting_attributes_keeps_rules"
   ],
   "note": "Full."
  },
  {
   "property": "C32",
   "status": "partial",
   "theorems": [
    "C32_module_names_not_defined_before",
    "C32_module_names_distinct_partial",
    "C32_two_modules_never_share",
    "C32_definedness_is_permanent",
    "C32_frozen_module_shares_names_refuted",
    "C32_reset_in_initialiser_shares_names_refuted"
   ],
   "note": "Freshness, pairwise distinctness, termination and non-sharing proved; distinctness needs unfrozen state and the standard integer $ModuleNumber rule. Refuted when frozen and when an initialiser resets $ModuleNumber."
  },
  {
   "property": "C33",
   "status": "partial",
   "theorems": [
    "C33_distinct_symbols_safe_partial",
    "C33_lost_update_refuted",
    "C33_lost_update_existing_refuted"
   ],
   "note": "Interleaving model of Define: safe for distinct symbols, lost update for the same symbol (refuted)."
  },
  {
   "property": "C34",
   "status": "partial",
   "theorems": [
    "C34_positions",
    "C34_function_call",
    "C34_hold_inert",
    "C34_unevaluated_stripped_refuted"
   ],
   "note": ""
  },
  {
   "property": "C35",
   "status": "partial",
   "theorems": [
    "C35_splice",
    "C35_no_sequence_identity",
    "C35_none_left",
    "C35_sequence_in_call",
    "C35_flat_not_merged_refuted",
    "C35_head_spliced_refuted"
   ],
   "note": ""
  },
  {
   "property": "C36",
   "status": "proved",
   "theorems": [
    "C36_thread_exactly",
    "C36_listable_call"
   ],
   "note": ""
  },
  {
   "property": "C37",
   "status": "proved",
   "theorems": [
    "C37_short_circuit",
    "C37_undecided",
    "C37_all_decided",
    "C37_not"
   ],
   "note": ""
  },
  {
   "property": "C38",
   "status": "partial",
   "theorems": [
    "C38_if",
    "C38_if_undecided",
    "C38_if_string_refuted",
    "C38_which",
    "C38_switch"
   ],
   "note": ""
  },
  {
   "property": "C39",
   "status": "partial",
   "theorems": [
    "C39_table",
    "C39_sum",
    "C39_product",
    "C39_do",
    "C39_range",
    "C39_negative_step_refuted",
    "C39_zero_step_refuted"
   ],
   "note": "Proved for any number of iterators with positive integer steps or explicit lists: Table, Do, Sum, Product, Range (any stored rules for Table/Plus/Times). Refuted: a negative step yields the empty list, step 0 never ends."
  },
  {
   "property": "C40",
   "status": "partial",
   "theorems": [
    "C40_table_partial",
    "C40_sum_partial",
    "C40_do_partial",
    "C40_do_return_refuted",
    "C40_early_exit_refuted",
    "C40_clear_refuted"
   ],
   "note": "Proved for Table, Sum and Do that run to the end, for variables with plain (unconditional) own values. Refuted: Do left by Return/Throw does not restore; a variable without own value is Cleared, which also removes its downvalues and attributes."
  },
  {
   "property": "C41",
   "status": "partial",
   "theorems": [
    "C41_integer_index",
    "C41_out_of_range",
    "C41_part",
    "C41_negative_refuted",
    "C41_huge_index_refuted",
    "C41_span_head_refuted"
   ],
   "note": "index semantics proved for machine-sized indices; negative, huge and 0;; indices refuted"
  },
  {
   "property": "C42",
   "status": "partial",
   "theorems": [
    "C42_delete_duplicates",
    "C42_delete_duplicates_set",
    "C42_complement",
    "C42_intersection",
    "C42_union_partial",
    "C42_union_refuted",
    "C42_different_heads"
   ],
   "note": "DeleteDuplicates/Complement/Intersection up to hash equality; Union for elements where order 0 means identical, refuted otherwise"
  },
  {
   "property": "C43",
   "status": "proved",
   "theorems": [
    "C43_join",
    "C43_join_only_same_heads",
    "C43_reverse",
    "C43_reverse_involution",
    "C43_append_prepend",
    "C43_lengths"
   ],
   "note": ""
  },
  {
   "property": "C44",
   "status": "partial",
   "theorems": [
    "C44_pad_right",
    "C44_pad_left",
    "C44_default_padding",
    "C44_huge_refuted"
   ],
   "note": "n machine-sized; huge n refuted"
  },
  {
   "property": "C45",
   "status": "proved",
   "theorems": [
    "C45_flatten_depth",
    "C45_flatten_unique",
    "C45_flatten_complete"
   ],
   "note": ""
  },
  {
   "property": "C46",
   "status": "partial",
   "theorems": [
    "C46_map_partial",
    "C46_map_indexed_partial",
    "C46_apply_partial",
    "C46_count_partial",
    "C46_map_two_arguments",
    "C46_apply_two_arguments_partial",
    "C46_level_zero_refuted",
    "C46_mixed_levels_refuted",
    "C46_map_indexed_two_arguments_refuted",
    "C46_apply_two_arguments_refuted"
   ],
   "note": "proved for every function, expression and level specification except four families (the hypothesis 'exact'): {1,0}, {n1,-1} with n1>=2, {-n1,n2} with finite n2>=1, and depth specifications on atoms; the code is wrong there (refuted theorems)."
  },
  {
   "property": "C47",
   "status": "partial",
   "theorems": [
    "C47_unwinds",
    "C47_catch_thrown",
    "C47_catch_value_thrown",
    "C47_catch_nothing",
    "C47_and_continues_refuted",
    "C47_loop_refuted"
   ],
   "note": ""
  },
  {
   "property": "C48",
   "status": "partial",
   "theorems": [
    "C48_read",
    "C48_session_partial",
    "C48_unassigned_refuted",
    "C48_delayed_refuted",
    "C48_rational_refuted"
   ],
   "note": "Object-heap model of evaluation with in-place updates and the EvaledHash/CachedHash fields, for inert heads, Factorial and Rational. While definitions are fixed, evaluation yields the value and preserves the value of every object (C48_read). Sessions that assign variables before use behave like a store of values (partial). Refuted in general: x={y};y=5;x, x:={y} read before y changes, and Rational[x,y] changing x and y. Outcome ZeroHash (a 64-bit hash equal to 0) is excluded."
  },
  {
   "property": "C49",
   "status": "proved",
   "theorems": [
    "C49_distribute_choices",
    "C49_choices_spec",
    "C49_distribute_value",
    "C49_distribute_trivial",
    "C49_distribute_atom"
   ],
   "note": "Distribute is modelled as in builtin_manip.go (recursion over the arguments with the collected prefix). Hypothesis: no head of an argument collides with the hash of p. Expand itself (rules in resources/manip.m) is not modelled."
  },
  {
   "property": "C50",
   "status": "partial",
   "theorems": [
    "C50_dimensions_full",
    "C50_dimensions_partial",
    "C50_dimensions_refuted",
    "C50_transpose",
    "C50_transpose_twice",
    "C50_transpose_twice_refuted",
    "C50_transpose_ragged_refuted",
    "C50_dot_matrix",
    "C50_dot_value",
    "C50_dot_assoc",
    "C50_vector_matrix",
    "C50_dot_mismatch",
    "C50_dot_vectors"
   ],
   "note": "Full arrays of any shape; ragged arrays only up to two levels (refuted beyond). The Dot rule for matrix.vector in resources/matrix.m is not modelled."
  },
  {
   "property": "C51",
   "status": "partial",
   "theorems": [
    "C51_slots_partial",
    "C51_named",
    "C51_call_partial",
    "C51_named_call",
    "C51_sequential_refuted",
    "C51_closure_refuted",
    "C51_no_argument_refuted"
   ],
   "note": ""
  },
  {
   "property": "C52",
   "status": "partial",
   "theorems": [
    "C52_history_partial"
   ],
   "note": "Proved under absence of hash collisions between HoldPattern[In[i]] for the lines used."
  },
  {
   "property": "C53",
   "status": "partial",
   "theorems": [
    "C53_resolution",
    "C53_names_unique",
    "C53_consistent",
    "C53_reread",
    "C53_chain_partial",
    "C53_comparisons_partial",
    "C53_parenthesised",
    "C53_no_marker",
    "C53_chain_refuted",
    "C53_pattern",
    "C53_pattern_optional"
   ],
   "note": "Modelled: resolution of names against contexts, the conversion of syntax trees into expressions, chains of infix operators, removal of parentheses, patterns. The lexer and grammar of the external wolfram parser are not modelled. Chains are partial: the leftmost operand must not already be headed by the operator (C53_chain_refuted shows Plus[a, b] + c is flattened too)."
  },
  {
   "property": "C54",
   "status": "partial",
   "theorems": [
    "C54_fullform_partial",
    "C54_number_text",
    "C54_fullform_numbers_partial",
    "C54_symbol_roundtrip",
    "C54_string_refuted",
    "C54_shadow_refuted",
    "C54_wrapper_refuted"
   ],
   "note": "Modelled: FullForm text of all atoms and expressions. Injectivity for symbols, integers, quote-free strings, compounds, and (C54_fullform_numbers_partial) rationals and complex numbers with integer parts; strings containing quotes, clashing short names and FullForm wrappers are refuted. Text of reals is a parameter."
  },
  {
   "property": "C55",
   "status": "partial",
   "theorems": [
    "C55_fold_list",
    "C55_fold_list_length",
    "C55_nest_list_partial",
    "C55_array_partial",
    "C55_array_refuted"
   ],
   "note": "NestList and Array only for counts that fit in int64; Array beyond that is refuted."
  },
  {
   "property": "C56",
   "status": "proved",
   "theorems": [
    "C56_infix_value"
   ],
   "note": "For every valuation into a commutative semiring; the grammar (precedences) is outside the model, the theorem starts from the syntax tree."
  },
  {
   "property": "C57",
   "status": "partial",
   "theorems": [
    "C57_cases_delete_cases",
    "C57_delete_cases",
    "C57_memberq",
    "C57_declarative_partial",
    "C57_cases_rule",
    "C57_rule_delayed_refuted"
   ],
   "note": "Cases/DeleteCases/MemberQ relative to the modelled MatchQ for every pattern; the declarative reading (C57_declarative_partial) for patterns without names. Refuted: Cases with :>."
  },
  {
   "property": "C58",
   "status": "proved",
   "theorems": [
    "C58_length",
    "C58_leaf_count",
    "C58_leaf_positions_finite",
    "C58_depth"
   ],
   "note": "Counts are naturals in the model (no int64 overflow). headed: no empty compound expression, which the program never builds."
  },
  {
   "property": "C59",
   "status": "proved",
   "theorems": [
    "C59_sameq_chain",
    "C59_unsameq",
    "C59_unsameq_order",
    "C59_sameq_pairwise",
    "C59_sameq_order",
    "C59_real_order_refuted"
   ],
   "note": "Everything for arguments that are not bare machine reals; order dependence for reals is refuted. The property as worded is proved; the theorems named _refuted prove the exceptions it names or show that a natural extension of it fails."
  },
  {
   "property": "C60",
   "status": "partial",
   "theorems": [
    "C60_lists_rules",
    "C60_lists_definitions_partial",
    "C60_round_trip",
    "C60_copy",
    "C60_own_value_lost_refuted"
   ],
   "note": "C60_lists_definitions_partial inherits the no-collision hypothesis of C29. Refuted: an own value is lost."
  },
  {
   "property": "C61",
   "status": "partial",
   "theorems": [
    "C61_with_one",
    "C61_with_partial",
    "C61_sequential_refuted",
    "C61_value_not_evaluated_refuted",
    "C61_inner_variable_refuted"
   ],
   "note": "C61_with_one is full for one variable up to 64-bit hash collisions (explicit hypotheses); several variables under the condition that no value contains a later variable. Refuted: sequential replacement, unevaluated values, inner scopes."
  },
  {
   "property": "C62",
   "status": "proved",
   "theorems": [
    "C62_join",
    "C62_join_unevaluated",
    "C62_join_assoc",
    "C62_join_length",
    "C62_length",
    "C62_length_characters_refuted",
    "C62_take",
    "C62_take_out_of_range",
    "C62_take_join",
    "C62_take_huge_refuted",
    "C62_take_characters_refuted"
   ],
   "note": "C62_length characterises StringLength against UTF-8 characters; refutations: characters vs bytes, indices modulo 2^64. The property as worded is proved; the theorems named _refuted prove the exceptions it names or show that a natural extension of it fails."
  },
  {
   "property": "C63",
   "status": "proved",
   "theorems": [
    "C63_replace",
    "C63_replace_absent",
    "C63_replace_self",
    "C63_replace_empty",
    "C63_replace_empty_bytes",
    "C63_chunks_unique"
   ],
   "note": "Leftmost non-overlapping replacement; empty pattern at character boundaries."
  },
  {
   "property": "C64",
   "status": "proved",
   "theorems": [
    "C64_base64",
    "C64_base64_injective",
    "C64_other"
   ],
   "note": "Shape, length, decodability, injectivity."
  },
  {
   "property": "C65",
   "status": "partial",
   "theorems": [
    "C65_input_form_partial",
    "C65_negative_base_refuted",
    "C65_fraction_exponent_refuted",
    "C65_fraction_base_refuted",
    "C65_low64_refuted",
    "C65_double_minus_refuted",
    "C65_stripped_sign_refuted",
    "C65_compound_head_refuted",
    "C65_fraction_in_sum"
   ],
   "note": "Proved for the fragment 'faithful' (S_InputForm.v), which contains every evaluated product; each excluded shape has its own refutation."
  },
  {
   "property": "C66",
   "status": "proved",
   "theorems": [
    "C66_integer_digits",
    "C66_from_digits",
    "C66_round_trip",
    "C66_base_one_refuted"
   ],
   "note": "IntegerDigits and FromDigits as transcribed from numbertheory.m; base 1, which the rule accepts, is proved to loop for ever. The property as worded is proved; the theorems named _refuted prove the exceptions it names or show that a natural extension of it fails."
  },
  {
   "property": "C67",
   "status": "proved",
   "theorems": [
    "C67_factor_integer",
    "C67_factor_units",
    "C67_factor_rational"
   ],
   "note": "All integers and all reduced rationals; integers compared by value (hash collisions are the subject of C09)."
  },
  {
   "property": "C68",
   "status": "proved",
   "theorems": [
    "C68_euler_phi",
    "C68_zero"
   ],
   "note": "Equality with the count of coprime residues for every integer."
  },
  {
   "property": "C69",
   "status": "proved",
   "theorems": [
    "C69_fibonacci",
    "C69_negative_refuted"
   ],
   "note": "Proved for every memo table reachable by earlier calls; negative arguments are proved to recurse for ever. The property as worded is proved; the theorems named _refuted prove the exceptions it names or show that a natural extension of it fails."
  },
  {
   "property": "C70",
   "status": "proved",
   "theorems": [
    "C70_rational_gcd",
    "C70_rational_gcd_defined",
    "C70_lcm",
    "C70_lcm_refuted",
    "C70_mod_rational",
    "C70_parts",
    "C70_parity",
    "C70_sign"
   ],
   "note": "GCD over every matcher choice; LCM can be negative and LCM[0,0] is undefined (refuted as a nonnegative LCM). The property as worded is proved; the theorems named _refuted prove the exceptions it names or show that a natural extension of it fails."
  },
  {
   "property": "C71",
   "status": "proved",
   "theorems": [
    "C71_rules_preserve_meaning",
    "C71_simplify_preserves_truth",
    "C71_decided",
    "C71_terminates"
   ],
   "note": "Rules of simplify.m / boolean.m as a rewrite relation on formulas; truth preservation for every assignment, termination."
  },
  {
   "property": "C72",
   "status": "proved",
   "theorems": [
    "C72_inverse",
    "C72_only_small_square"
   ],
   "note": "Over an abstract field with a valuation of the symbolic entries."
  },
  {
   "property": "C73",
   "status": "partial",
   "theorems": [
    "C73_recombine",
    "C73_division_partial",
    "C73_exact_partial",
    "C73_refuted"
   ],
   "note": "Recombination a = q b + r for all degrees; smaller remainder and uniqueness when deg a <= deg b + 18; refuted beyond by the iteration limit (x^20 by x+1). Polynomials are mathcomp {poly F}."
  },
  {
   "property": "C74",
   "status": "partial",
   "theorems": [
    "C74_gcd_partial",
    "C74_gcd_when_finished_partial",
    "C74_squarefree_partial",
    "C74_gcd_refuted"
   ],
   "note": "GCD and square-freeness for the degrees that the loops can finish; refuted beyond: PolynomialGCD[x^n, x+1], n >= 192, gives a multiple of x+1."
  },
  {
   "property": "C75",
   "status": "proved",
   "theorems": [
    "C75_locals",
    "C75_initialisers_in_outer_scope",
    "C75_body"
   ],
   "note": "Over an arbitrary evaluation function for the initialisers that does not touch the generated names."
  },
  {
   "property": "C76",
   "status": "partial",
   "theorems": [
    "C76_multinomial",
    "C76_exponents_partial",
    "C76_exponents_small_partial",
    "C76_power_partial",
    "C76_power_small_partial",
    "C76_distribute",
    "C76_step_partial",
    "C76_value_partial",
    "C76_normal_form",
    "C76_terminates_partial",
    "C76_no_infinite_partial"
   ],
   "note": "Proved: Multinomial, the exponent lists, the value of the power rule and of the distribution rule, any sequence of steps, termination of the two rules (bounded number of applications, no infinite sequence), and what is left where no rule applies. The theorems named _partial assume that SameQ (a 64-bit hash comparison) tells the integers 0..n apart, which is proved for n <= 255; exponents and lengths are below 2^63. The arithmetic that evaluates the new terms is taken as steps that keep the value; the termination theorem does not include those simplification steps."
  },
  {
   "property": "C77",
   "status": "proved",
   "theorems": [
    "C77_derivative",
    "C77_total",
    "C77_unambiguous",
    "C77_list",
    "C77_grad",
    "C77_abs_refuted",
    "C77_higher_refuted"
   ],
   "note": "Proved over the standard library's real numbers (its axioms are listed in DESIGN.md). Refuted: D[Abs[2 x], x] lacks the chain factor; D[x^2, {x, 2}] is 0. The simplification of the result is not part of the model. The property as worded is proved; the theorems named _refuted prove the exceptions it names or show that a natural extension of it fails."
  },
  {
   "property": "C78",
   "status": "partial",
   "theorems": [
    "C78_value",
    "C78_cot_negation_partial",
    "C78_cot_negation_refuted"
   ],
   "note": "every rule of trig.m over the reals (complex arguments, Indeterminate and TrigToExp not modelled); the Cot[-a+b___] rule is proved for one further term and refuted for two"
  },
  {
   "property": "C79",
   "status": "proved",
   "theorems": [
    "C79_arctan2",
    "C79_arctan2_origin",
    "C79_rotation_plane",
    "C79_rotation_space"
   ],
   "note": "exact x, y; the comparisons of symbolic arguments are not modelled"
  },
  {
   "property": "C80",
   "status": "partial",
   "theorems": [
    "C80_compound",
    "C80_while",
    "C80_break_in_sequence_refuted"
   ],
   "note": "sequence and While proved for every program; Break[] inside a sequence (also the body of For) is refuted: the remaining statements run and the loop goes on"
  },
  {
   "property": "C81",
   "status": "proved",
   "theorems": [
    "C81_select",
    "C81_select_first",
    "C81_select_pure",
    "C81_scan"
   ],
   "note": "M_Callback.v: select_loop and scan_loop call the evaluator of M_Eval.v. C81_select, C81_select_first, C81_scan: the call evaluates to the value of h[kept] when the traversal (relations selects / scans, defined from evals_to only) does; C81_select_pure: for a side effect free f the kept list is the filter. Hypotheses hash_ok/no_clash exclude 64 bit hash accidents."
  },
  {
   "property": "C82",
   "status": "proved",
   "theorems": [
    "C82_fixed_point",
    "C82_is_fixed",
    "C82_fixed_point_diverges",
    "C82_nest_while",
    "C82_nest_while_refuted"
   ],
   "note": "C82_fixed_point, C82_is_fixed, C82_fixed_point_diverges (no consecutive SameQ values: never ends); C82_nest_while for every form of the optional arguments; C82_nest_while_refuted: the start value is not tested and max = 0 still applies f once. The property as worded is proved; the theorems named _refuted prove the exceptions it names or show that a natural extension of it fails."
  },
  {
   "property": "C83",
   "status": "partial",
   "theorems": [
    "C83_sound_partial",
    "C83_complete_partial",
    "C83_cuts"
   ],
   "note": "C83_sound_partial and C83_complete_partial inherit the pattern fragments of C23/C24 (partial); C83_cuts is unconditional in the list for the cut pattern."
  },
  {
   "property": "C84",
   "status": "partial",
   "theorems": [
    "C84_replaced",
    "C84_kept",
    "C84_call",
    "C84_rule_partial",
    "C84_no_rule",
    "C84_bound_position_refuted"
   ],
   "note": "C84_replaced and C84_kept determine the result for all expressions and rules given which rule applies to a position (part_rule); C84_rule_partial and C84_no_rule characterise that by MatchQ (partial: no name bound to the position as a whole, rules whose right hand side is not a Condition); C84_bound_position_refuted: the position list is one mutable object that is empty in the end."
  },
  {
   "property": "C85",
   "status": "partial",
   "theorems": [
    "C85_value",
    "C85_nested_rational_partial",
    "C85_nested_rational_refuted",
    "C85_numeric_factor_partial",
    "C85_numeric_factor_refuted",
    "C85_equal_exponents_partial",
    "C85_equal_exponents_refuted"
   ],
   "note": "C85_value covers every rule of power_rule (M_LibPower) in polar semantics (S_Polar). The nested-rational, numeric-factor and equal-exponents rules are proved under the side condition that makes them sound (_partial) and refuted without it: ((-1)^(3/2))^(2/3), ((-2) x)^(1/2) at x = -1, (-2)^(1/2) (-3)^(1/2)."
  },
  {
   "property": "C86",
   "status": "partial",
   "theorems": [
    "C86_value",
    "C86_log_exp_partial",
    "C86_log_exp_refuted",
    "C86_log_rational_refuted"
   ],
   "note": "All rules of complex_rule (M_LibComplex) in C86_value; Log[E^p] needs -Pi < Im p <= Pi (C86_log_exp_partial, refuted for 7 I); the Log[1/b] rule with its unbound symbol is refuted. Machine reals and the conditions after ';/' (a typo for '/;') are not modelled."
  },
  {
   "property": "C87",
   "status": "partial",
   "theorems": [
    "C87_power_expand_partial",
    "C87_log_refuted",
    "C87_sqrt_refuted"
   ],
   "note": "Positive values only (C87_power_expand_partial); C87_log_refuted and C87_sqrt_refuted show the general statement false (as documented for PowerExpand in Mathematica)."
  },
  {
   "property": "C88",
   "status": "partial",
   "theorems": [
    "C88_quadratic",
    "C88_cubic_partial",
    "C88_quartic_partial",
    "C88_quartic_short",
    "C88_system_two",
    "C88_system_tri",
    "C88_cubic_refuted",
    "C88_quartic_refuted"
   ],
   "note": "Quadratic, short quartic and both linear systems: exact. Cubic and quartic: exact when the inner cube root (and for degree 4 the inner square root) is not zero; C88_cubic_refuted and C88_quartic_refuted show equations with solutions where the formula divides by zero."
  },
  {
   "property": "C89",
   "status": "partial",
   "theorems": [
    "C89_isolate",
    "C89_isolate_free",
    "C89_pow",
    "C89_pow_zero",
    "C89_pow_other_partial",
    "C89_pow_other_refuted",
    "C89_root_partial",
    "C89_root_refuted",
    "C89_log",
    "C89_abs_partial",
    "C89_abs_refuted",
    "C89_power_expand_refuted",
    "C89_sin",
    "C89_cos",
    "C89_tan",
    "C89_sec",
    "C89_csc"
   ],
   "note": "C89_isolate covers sums, products and the powers -1, 2..5 at any depth; the other inverses are proved for one step. Refuted: completeness for a symbolic base, soundness for roots (Sqrt[x] == y), completeness for Abs over the complex numbers, PowerExpand inside the square root."
  },
  {
   "property": "C90",
   "status": "partial",
   "theorems": [
    "C90_simple_patterns",
    "C90_call",
    "C90_call_undefined",
    "C90_return",
    "C90_return_unevaluated_refuted",
    "C90_factorial_partial"
   ],
   "note": "The patterns covered have distinct variables and no Optional/PatternTest/sequence blanks; bodies that begin with With/Module around a condition are not covered. C90_factorial_partial assumes that no accident of the 64 bit hashes happens in the n steps (fact_quiet)."
  },
  {
   "property": "C91",
   "status": "proved",
   "theorems": [
    "C91_goroutine_is_eval",
    "C91_schedules",
    "C91_tasks",
    "C91_parallel_table",
    "C91_not_table_refuted",
    "C91_goroutine_is_table_loop",
    "C91_inner_iterator_race_refuted"
   ],
   "note": "Goroutines are interleaved between the iterations of the evaluation loop of each body (and, for the loop of Table, between its statements), not inside one pass; data races on shared expression nodes are not modelled. NoDup: the iteration variables are distinct. The property as worded is proved; the theorems named _refuted prove the exceptions it names or show that a natural extension of it fails."
  },
  {
   "property": "C92",
   "status": "proved",
   "theorems": [
    "C92_replace_repeated",
    "C92_is_normal",
    "C92_diverges",
    "C92_constant_rule"
   ],
   "note": "Loop of ReplaceRepeated over the evaluator model; rounds given by ReplaceAll (C27)."
  },
  {
   "property": "C93",
   "status": "proved",
   "theorems": [
    "C93_lines",
    "C93_success",
    "C93_scope",
    "C93_opacity_refuted",
    "C93_bare_color_refuted",
    "C93_integer_points_refuted"
   ],
   "note": "Full statement of drawing order, style scoping and success. Refuted: independence of opacity and colour (Opacity before RGBColor is lost), bare colours in lists (skipped), integer coordinates (error). Chart library and float32 level computation are parameters. The property as worded is proved; the theorems named _refuted prove the exceptions it names or show that a natural extension of it fails."
  },
  {
   "property": "C94",
   "status": "partial",
   "theorems": [
    "C94_write",
    "C94_order",
    "C94_ignored_partial",
    "C94_stderr_refuted",
    "C94_wrap_refuted",
    "C94_streams"
   ],
   "note": "Proved for both streams and all histories. Partial: the no-effect part assumes indices of 64 bits (refuted otherwise). Refuted: \"stderr\" by name is silently lost (fillMissingIndex knows \"stdin\" instead)."
  },
  {
   "property": "C95",
   "status": "partial",
   "theorems": [
    "C95_names",
    "C95_all",
    "C95_dollar_refuted"
   ],
   "note": "Filters of plain characters and *. Refuted for names beginning with $: they cannot be found by their own name."
  },
  {
   "property": "C96",
   "status": "proved",
   "theorems": [
    "C96_set_var",
    "C96_set",
    "C96_increment",
    "C96_decrement",
    "C96_pre_increment",
    "C96_pre_decrement",
    "C96_add_to",
    "C96_subtract_from",
    "C96_increment_real_refuted",
    "C96_increment_unset_refuted"
   ],
   "note": "Set on a symbol for arbitrary right-hand sides; counters for integer values, through the library rules and the evaluator. Two refutations: x++ on a tiny real gives 0, x++ without a value diverges. The property as worded is proved; the theorems named _refuted prove the exceptions it names or show that a natural extension of it fails."
  },
  {
   "property": "C97",
   "status": "partial",
   "theorems": [
    "C97_for",
    "C97_sum_partial"
   ],
   "note": "C97_for for arbitrary bodies; C97_sum_partial proves a whole program by a loop invariant (n <= 2^53 because < rounds to machine numbers)."
  },
  {
   "property": "C98",
   "status": "proved",
   "theorems": [
    "C98_package",
    "C98_no_leak",
    "C98_inside",
    "C98_after",
    "C98_private",
    "C98_packages",
    "C98_block",
    "C98_nested_begin_refuted",
    "C98_nested_package_refuted",
    "C98_stray_end_refuted"
   ],
   "note": "C98_package, C98_packages, C98_block, C98_no_leak, C98_inside, C98_after and C98_private; nested Begin, nested BeginPackage and a stray EndPackage refuted. Not claimed: bodies that assign $Context themselves. The property as worded is proved; the theorems named _refuted prove the exceptions it names or show that a natural extension of it fails."
  },
  {
   "property": "C99",
   "status": "proved",
   "theorems": [
    "C99_quiet",
    "C99_variable",
    "C99_call",
    "C99_while",
    "C99_cleared",
    "C99_cleared_refuted",
    "C99_statements_refuted",
    "C99_hang_refuted"
   ],
   "note": "Positive: C99_quiet, C99_while, C99_call, C99_variable, C99_cleared. Refuted: continuing statements and corrupted assignments, an uninterruptible evaluation, the flag surviving an exception. Callback loops that do not read the flag (Do, Table, FixedPoint) are covered only by evaluating their bodies. The property as worded is proved; the theorems named _refuted prove the exceptions it names or show that a natural extension of it fails."
  },
  {
   "property": "C100",
   "status": "proved",
   "theorems": [
    "C100_save_answers",
    "C100_save_writes_one_file",
    "C100_round_trip",
    "C100_values_restored",
    "C100_missing_file",
    "C100_builtin_lost_refuted",
    "C100_silent_failure_refuted",
    "C100_shadowed_refuted",
    "C100_built_in_files"
   ],
   "note": "gob/zlib taken as lossless for exported fields; function field dropped (gob documentation). Refuted: built-in code lost, silent failure, shadowing by $Path The property as worded is proved; the theorems named _refuted prove the exceptions it names or show that a natural extension of it fails."
  },
  {
   "property": "C101",
   "status": "partial",
   "theorems": [
    "C101_script",
    "C101_script_ends",
    "C101_read_list",
    "C101_syntax_error_crash_refuted",
    "C101_text_unchanged",
    "C101_named_characters",
    "C101_prompt_partial",
    "C101_label_refuted"
   ],
   "note": "grammar and evaluator are parameters of the model; prompt theorem assumes no 64-bit hash collision of In/Out keys; refuted: crash on late syntax errors, labels after assigning $Line"
  },
  {
   "property": "C102",
   "status": "partial",
   "theorems": [
    "C102_read_back_partial",
    "C102_easy_run_partial",
    "C102_distinct_texts_partial",
    "C102_sum_signs_partial",
    "C102_negation_partial",
    "C102_absorbed_refuted",
    "C102_part_refuted",
    "C102_head_refuted",
    "C102_pattern_refuted",
    "C102_power_refuted",
    "C102_eq_alike_refuted"
   ],
   "note": "Partial: for the fragment writable (S_OpForm), whose conditions are each shown to be needed by a counterexample (absorbed, part, head, pattern, power). Precedences are arbitrary: wl.Precedence is a dependency."
  },
  {
   "property": "C103",
   "status": "partial",
   "theorems": [
    "C103_first",
    "C103_last",
    "C103_rest",
    "C103_nothing",
    "C103_first_rest",
    "C103_take_partial",
    "C103_take_range",
    "C103_take_too_many",
    "C103_take_zero_refuted",
    "C103_take_last_refuted",
    "C103_take_step_refuted"
   ],
   "note": "Take with 0, negative counts and steps is refuted: a Part expression is left (M_LibList transcribes the rules; Part is the model of C41)."
  },
  {
   "property": "C104",
   "status": "partial",
   "theorems": [
    "C104_total",
    "C104_mean",
    "C104_total_order",
    "C104_count",
    "C104_tally_partial",
    "C104_tally_refuted"
   ],
   "note": "Tally is proved for symbols, strings and integers; refuted when an element is a pattern (Tally[{_, 1}]). Mean of an empty list is not modelled."
  },
  {
   "property": "C105",
   "status": "partial",
   "theorems": [
    "C105_fold",
    "C105_fold_first",
    "C105_fold_empty_refuted",
    "C105_fold_atom_refuted",
    "C105_nest_partial",
    "C105_nest_negative_refuted",
    "C105_nest_huge_refuted"
   ],
   "note": "Refuted: Fold[f, {}], Fold of an atom, Nest with a negative or huge count."
  },
  {
   "property": "C106",
   "status": "proved",
   "theorems": [
    "C106_tuples",
    "C106_tuples_members"
   ],
   "note": "Evaluation of the elements and of the iteration variable elem is not part of this transcription."
  },
  {
   "property": "C107",
   "status": "partial",
   "theorems": [
    "C107_prime_q",
    "C107_prime_pi_partial",
    "C107_prime_pi_real_partial",
    "C107_prime_pi_refuted",
    "C107_prime_sound",
    "C107_prime_complete",
    "C107_prime_refuted",
    "C107_prime_unevaluated"
   ],
   "note": "PrimePi is partial: PrimePi[1] = 1 and arguments outside int64 are truncated (refuted); the library sieve, ProbablyPrime and the log-based bound are parameters with stated hypotheses"
  },
  {
   "property": "C108",
   "status": "proved",
   "theorems": [
    "C108_power_mod",
    "C108_inverse_refuted"
   ],
   "note": "the modular inverse reading for negative exponents is refuted The property as worded is proved; the theorems named _refuted prove the exceptions it names or show that a natural extension of it fails."
  },
  {
   "property": "C109",
   "status": "proved",
   "theorems": [
    "C109_quotient",
    "C109_integer_powers",
    "C109_atoms",
    "C109_no_reciprocals",
    "C109_complete_refuted"
   ],
   "note": "values in every field; completeness of the splitting is refuted (Numerator[1/b] = 1/b) The property as worded is proved; the theorems named _refuted prove the exceptions it names or show that a natural extension of it fails."
  },
  {
   "property": "C110",
   "status": "proved",
   "theorems": [
    "C110_together_value",
    "C110_constant_value"
   ],
   "note": "value preservation for every rule sequence; that a result has a single denominator is not claimed"
  },
  {
   "property": "C111",
   "status": "proved",
   "theorems": [
    "C111_constant"
   ],
   "note": "integer coefficients"
  },
  {
   "property": "C112",
   "status": "proved",
   "theorems": [
    "C112_set_attributes",
    "C112_clear_attributes",
    "C112_protect",
    "C112_unprotect",
    "C112_set_attributes_list"
   ],
   "note": "attribute names from the documented list; that Protected is not enforced by assignments is C30"
  },
  {
   "property": "C113",
   "status": "proved",
   "theorems": [
    "C113_list_value",
    "C113_append_to",
    "C113_prepend_to",
    "C113_append_all",
    "C113_unset_refuted"
   ],
   "note": "AppendTo/PrependTo proved through the evaluator for lists of evaluated elements (hash accidents excluded as everywhere); AppendTo on a symbol without a value diverges: refuted. The property as worded is proved; the theorems named _refuted prove the exceptions it names or show that a natural extension of it fails."
  },
  {
   "property": "C114",
   "status": "proved",
   "theorems": [
    "C114_sow",
    "C114_sow_outside",
    "C114_reap",
    "C114_order",
    "C114_nested_refuted",
    "C114_left_over_refuted"
   ],
   "note": "Full for Sow, Reap and sequences of Sow statements; nested Reap and collection after the end of a Reap refuted. The property as worded is proved; the theorems named _refuted prove the exceptions it names or show that a natural extension of it fails."
  },
  {
   "property": "C115",
   "status": "proved",
   "theorems": [
    "C115_nearest",
    "C115_error",
    "C115_structure",
    "C115_idempotent",
    "C115_definitions",
    "C115_everything_refuted",
    "C115_pi",
    "C115_e"
   ],
   "note": "M_N.v, S_N.v, T_N.v, T_N2.v. The claim with its exceptions is proved in full; C115_pi and C115_e use the standard library's real numbers."
  },
  {
   "property": "C116",
   "status": "proved",
   "theorems": [
    "C116_replacement",
    "C116_call",
    "C116_free",
    "C116_found",
    "C116_evaluated_refuted",
    "C116_dummy_refuted"
   ],
   "note": "M_FreeQ.v, T_FreeQ.v. Evaluator-level; hypotheses: the library is loaded, arguments are evaluated, no hash collisions among the expressions compared, the pattern's head is not Flat."
  },
  {
   "property": "C117",
   "status": "proved",
   "theorems": [
    "C117_moved_out",
    "C117_value",
    "C117_nothing_to_move",
    "C117_condition_simplified_refuted"
   ],
   "note": "the evaluations of a call with conditional arguments are exactly those of the conditional call; simplification of decided conditions, which other systems do, is refuted"
  },
  {
   "property": "C118",
   "status": "proved",
   "theorems": [
    "C118_module",
    "C118_local_value",
    "C118_local_plain",
    "C118_initialised",
    "C118_fatal",
    "C118_block_dynamic_refuted"
   ],
   "note": "C118_module: names, locals and body inside the full evaluator; Block's dynamic scoping is refuted by a concrete session"
  },
  {
   "property": "C119",
   "status": "proved",
   "theorems": [
    "C119_trig_to_exp",
    "C119_no_trig_left",
    "C119_exponentials"
   ],
   "note": "C119_trig_to_exp and C119_no_trig_left by induction on the expression for trig_to_exp (trig.m 98-104), C119_exponentials for the rules of power.m 79-81 and simplify.m 126-128, in the complex numbers as pairs of reals with the principal logarithm. The hypothesis 'standard z' fixes the values of Tan and Cosh and says other functions depend on the values of their arguments; other_values_standard shows it can be met for every assignment of the symbols. Calls of Expand are left out (C76). Real-number axioms of the standard library."
  },
  {
   "property": "C120",
   "status": "partial",
   "theorems": [
    "C120_flat_sound_partial",
    "C120_flat_complete_partial",
    "C120_not_inside_refuted",
    "C120_once_refuted"
   ],
   "note": "Soundness and completeness of flat_replace (replace.go 11-60) on top of C23 and C24: C120_flat_sound_partial for the patterns of C23, C120_flat_complete_partial for those of C24 (not Orderless). Values are kept up to the equivalence generated by SameQ, as in C25. Refuted: subexpressions of an expression with the Flat head of the rule are never looked at (C120_not_inside_refuted), only one group is replaced (C120_once_refuted)."
  },
  {
   "property": "C121",
   "status": "proved",
   "theorems": [
    "C121_held_arguments",
    "C121_arguments_evaluated",
    "C121_variable",
    "C121_define_and_call"
   ],
   "note": "C121_held_arguments, C121_arguments_evaluated, C121_variable for set_delayed_fn (builtin_system.go 559-585, which calls Define twice: idempotent by C28), C121_define_and_call composes with C90. 'assigned' says which rules and attributes the new state has."
  },
  {
   "property": "C122",
   "status": "partial",
   "theorems": [
    "C122_sum",
    "C122_product",
    "C122_two",
    "C122_drift",
    "C122_whole_numbers",
    "C122_order",
    "C122_grouping_refuted",
    "C122_rational_refuted",
    "C122_infinite_sum"
   ],
   "note": "C122_infinite_sum: sums with an infinite machine real."
  },
  {
   "property": "C123",
   "status": "partial",
   "theorems": [
    "C123_upto",
    "C123_between",
    "C123_half_open_refuted",
    "C123_draws",
    "C123_reproducible",
    "C123_seeds_refuted",
    "C123_other_arguments"
   ],
   "note": "Interval proved for every draw and all bounds that machine reals hold; half-openness and distinctness of seeds refuted."
  },
  {
   "property": "C124",
   "status": "partial",
   "theorems": [
    "C124_power_one",
    "C124_power_zero",
    "C124_zero_base",
    "C124_real",
    "C124_real_value",
    "C124_whole_power",
    "C124_total_refuted",
    "C124_crash_only",
    "C124_negative_base",
    "C124_others"
   ],
   "note": "Classification of all calls; totality refuted. mathbigext.Pow (external module, not in /repo) is a parameter assumed to return."
  },
  {
   "property": "C125",
   "status": "partial",
   "theorems": [
    "C125_math_functions",
    "C125_representable",
    "C125_log",
    "C125_total_refuted"
   ],
   "note": "Proved for every float64 function; totality refuted under three documented facts of Go's math package."
  },
  {
   "property": "C126",
   "status": "partial",
   "theorems": [
    "C126_infinity_absorbs_partial",
    "C126_absorbs_everything_refuted",
    "C126_indeterminate_refuted",
    "C126_opposite_infinities",
    "C126_power_of_infinity",
    "C126_integers_compared",
    "C126_rounded_base_refuted",
    "C126_machine_base_refuted"
   ],
   "note": "Rules of specialsyms.m and power.m. Limits as in the real analysis of the standard library. Refuted: Infinity absorbs Indeterminate and -2 Infinity; a base just below -1 is compared as a machine float and its power called 0; (-1.)^Infinity is 0 and 1.^Infinity gives UnexpectedInfinitePowerBase, because SameQ tells 1. from 1."
  },
  {
   "property": "C127",
   "status": "partial",
   "theorems": [
    "C127_closed_forms_partial",
    "C127_inverse_squares",
    "C127_negative_limit_refuted",
    "C127_bound_variable_refuted"
   ],
   "note": "Includes a proof of the Basel theorem (P_Basel.v), from the standard library's reals only. Partial: upper limits of at least -1, and a factor that does not contain the variable of the sum; both restrictions are shown necessary by the refuted theorems."
  },
  {
   "property": "C128",
   "status": "proved",
   "theorems": [
    "C128_measure",
    "C128_measure_leafcount",
    "C128_measure_monotone",
    "C128_never_larger",
    "C128_tried",
    "C128_value"
   ],
   "note": "ExpreduceLeafCountSimplify equals the size relation, is at least LeafCount and monotone; the search is never larger than its start and the forms it tried; value preserved if the rewriters preserve it. The rewriters are parameters."
  },
  {
   "property": "C129",
   "status": "partial",
   "theorems": [
    "C129_unique_is_new",
    "C129_unique_works",
    "C129_same_prefix_distinct",
    "C129_two_prefixes_refuted",
    "C129_frozen_refuted",
    "C129_hash_sameq",
    "C129_default"
   ],
   "note": "Freshness, success and distinctness for one prefix, Hash against SameQ, Default. Refuted: with different prefixes (Unique[\"x1\"], then Unique[\"x\"]) and with frozen definitions two calls can give the same symbol."
  },
  {
   "property": "C130",
   "status": "partial",
   "theorems": [
    "C130_transparent",
    "C130_effects",
    "C130_exception",
    "C130_form",
    "C130_append_only_partial",
    "C130_inert",
    "C130_nested_refuted",
    "C130_append_only_refuted"
   ],
   "note": "Transparency, form, inert expressions in full; append-only needs no exceptions, freezing and nested Trace (refuted otherwise). What an iteration does besides arguments is a parameter."
  },
  {
   "property": "C131",
   "status": "partial",
   "theorems": [
    "C131_text_reads_partial",
    "C131_undefined",
    "C131_restores",
    "C131_history",
    "C131_default_refuted"
   ],
   "note": "C131_restores and C131_history: the pieces, evaluated in a session where the symbol is unknown, restore attributes and rules in order (the symbol must not be Default itself). C131_text_reads_partial: each piece is read back as its assignment; partial because only writable expressions have a readable InputForm (C102). C131_default_refuted: the default is lost."
  },
  {
   "property": "C132",
   "status": "partial",
   "theorems": [
    "C132_clear_all_partial",
    "C132_value_kept_refuted",
    "C132_other_cleared_refuted",
    "C132_clear",
    "C132_set_attributes_refuted",
    "C132_evaluated_refuted"
   ],
   "note": "C132_clear_all_partial: partial because of the hypothesis that the symbols have no values; without it the claim is false (C132_value_kept_refuted, C132_other_cleared_refuted; C132_evaluated_refuted runs the library's own rule in the evaluator model). C132_clear: Clear has no such restriction."
  },
  {
   "property": "C133",
   "status": "partial",
   "theorems": [
    "C133_replace_part_partial",
    "C133_out_of_range",
    "C133_atom",
    "C133_plus_refuted"
   ],
   "note": "C133_replace_part_partial: partial because the head must not be rewritten by the evaluator; false otherwise (C133_plus_refuted)."
  },
  {
   "property": "C134",
   "status": "partial",
   "theorems": [
    "C134_fixed_point_list",
    "C134_last_is_fixed_point",
    "C134_held_refuted"
   ],
   "note": "The rule FixedPointList[f_, expr_] := NestWhileList[f, expr, UnsameQ, 2] run in the evaluator model: the call is matched, NestWhileList runs with UnsameQ as its test, and the list of calls is evaluated. The agreement with FixedPoint is refuted for functions that hold their argument."
  },
  {
   "property": "C135",
   "status": "partial",
   "theorems": [
    "C135_totals",
    "C135_report",
    "C135_order",
    "C135_merge_times",
    "C135_merge_counts_refuted",
    "C135_limit_refuted"
   ],
   "note": "Times range over any totally ordered type with an addition (float64 without NaN in the program). The map iteration order is an argument of the model and the theorems hold for all orders. Merging loses counts and the line limit is exceeded by ties (both refuted). The text of a line (fmt.Sprintf) is not modelled."
  },
  {
   "property": "C136",
   "status": "partial",
   "theorems": [
    "C136_value",
    "C136_agree_partial",
    "C136_shorter",
    "C136_progress"
   ],
   "note": "Exact numbers. C136_agree_partial assumes that no non-zero imaginary part has the hash of 0 in the final results (evalComplex drops an imaginary part that is SameQ to 0)."
  },
  {
   "property": "C137",
   "status": "partial",
   "theorems": [
    "C137_quiet",
    "C137_time_constrained",
    "C137_two_arguments",
    "C137_time_limit_refuted",
    "C137_condition_refuted"
   ],
   "note": "value kept for every argument that is not Condition, With or Module at its head and does not go through Return (first refuted in C137_condition_refuted); the time limit is refuted"
  },
  {
   "property": "C138",
   "status": "partial",
   "theorems": [
    "C138_pause",
    "C138_long_refuted",
    "C138_exact",
    "C138_period_refuted",
    "C138_overflow_refuted",
    "C138_negative_refuted",
    "C138_other"
   ],
   "note": "proved in the range of 64 bit nanoseconds; outside it is refuted for every integer"
  },
  {
   "property": "C139",
   "status": "partial",
   "theorems": [
    "C139_nested",
    "C139_accepted",
    "C139_names_refuted",
    "C139_negative_base_refuted",
    "C139_sum_base",
    "C139_terms"
   ],
   "note": "expressions without Times, List, strings, machine reals and the heads of M_InputForm.special; unique readability is refuted"
  }
 ]
}
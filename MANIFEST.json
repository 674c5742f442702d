{
 "claims": [
  {
   "property": "C01",
   "status": "proved",
   "theorems": [
    "C01_parse_terminates",
    "C01_nesting_linear"
   ],
   "note": "Termination with an explicit linear step budget; nesting bounded by the input length."
  },
  {
   "property": "C02",
   "status": "proved",
   "theorems": [
    "C02_plain_parse_panics_only_on_empty",
    "C02_optimised_parse_panics",
    "C02_double_bang_panics"
   ],
   "note": "The only panics are listed: the empty text, and (optimising parser) \"!!\" or a panicking user function."
  },
  {
   "property": "C03",
   "status": "proved",
   "theorems": [
    "C03_error_spans_inside_source"
   ],
   "note": ""
  },
  {
   "property": "C13",
   "status": "proved",
   "theorems": [
    "C13_variables_are_input_identifiers"
   ],
   "note": ""
  },
  {
   "property": "C15",
   "status": "proved",
   "theorems": [
    "C15_calls_have_declared_arity"
   ],
   "note": ""
  },
  {
   "property": "C16",
   "status": "proved",
   "theorems": [
    "C16_expected_variables"
   ],
   "note": ""
  },
  {
   "property": "C17",
   "status": "proved",
   "theorems": [
    "C17_vars_exact"
   ],
   "note": ""
  },
  {
   "property": "C20",
   "status": "proved",
   "theorems": [
    "C20_eval_ok_iff_variables_given",
    "C20_eval_error_names_leftmost_missing",
    "C20_eval_error_variable"
   ],
   "note": ""
  },
  {
   "property": "C21",
   "status": "proved",
   "theorems": [
    "C21_eval_is_meaning"
   ],
   "note": ""
  },
  {
   "property": "C22",
   "status": "proved",
   "theorems": [
    "C22_eval_depends_on_occurring_variables"
   ],
   "note": ""
  },
  {
   "property": "C23",
   "status": "proved",
   "theorems": [
    "C23_unchecked_agrees",
    "C23_unchecked_panics",
    "C23_missing_variable_panics"
   ],
   "note": ""
  },
  {
   "property": "C24",
   "status": "proved",
   "theorems": [
    "C24_eval_no_vars_closed",
    "C24_eval_no_vars_agrees"
   ],
   "note": ""
  },
  {
   "property": "C25",
   "status": "proved",
   "theorems": [
    "C25_eval_never_panics",
    "C25_double_bang_refuted"
   ],
   "note": "The exception (\"x!!y\") is a theorem of its own."
  },
  {
   "property": "C26",
   "status": "proved",
   "theorems": [
    "C26_bind_succeeds_iff_all_listed",
    "C26_many_missing_panics_in_debug",
    "C26_256_missing_accepted_in_release"
   ],
   "note": "For fewer than 256 missing variables; the behaviour beyond is proved too."
  },
  {
   "property": "C27",
   "status": "proved",
   "theorems": [
    "C27_bound_functions_compute_meaning",
    "C27_bound_functions_agree_with_eval"
   ],
   "note": ""
  },
  {
   "property": "C28",
   "status": "proved",
   "theorems": [
    "C28_bind_n_runtime_total"
   ],
   "note": ""
  },
  {
   "property": "C29",
   "status": "proved",
   "theorems": [
    "C29_bind_errors_list_missing"
   ],
   "note": ""
  },
  {
   "property": "C43",
   "status": "proved",
   "theorems": [
    "C43_repl_never_unreachable"
   ],
   "note": ""
  },
  {
   "property": "C45",
   "status": "proved",
   "theorems": [
    "C45_errors_truthful"
   ],
   "note": ""
  },
  {
   "property": "C31",
   "status": "proved",
   "theorems": [
    "C31_simplify_for_eliminates",
    "C31_simplify_for_total",
    "C31_vars_may_be_stale"
   ],
   "note": "Tree and vars lose the variable; vars may stay a strict superset (proved by example)."
  },
  {
   "property": "C32",
   "status": "proved",
   "theorems": [
    "C32_multiple_is_iteration",
    "C32_in_place_agrees",
    "C32_in_place_single"
   ],
   "note": ""
  },
  {
   "property": "C33",
   "status": "proved",
   "theorems": [
    "C33_substituting_all_closes"
   ],
   "note": ""
  },
  {
   "property": "C34",
   "status": "proved",
   "theorems": [
    "C34_closed_folds",
    "C34_closed_folds_without_minus",
    "C34_zero_minus_refuted"
   ],
   "note": "The exception (a difference whose left operand folds to zero) is explicit, and shown necessary."
  },
  {
   "property": "C35",
   "status": "proved",
   "theorems": [
    "C35_in_place_ownership",
    "C35_in_place_multiple_ownership",
    "C35_in_place_safe",
    "C35_panic_leaves_moved_out"
   ],
   "note": "Ownership is modelled by a slot that records whether the tree has been moved out."
  },
  {
   "property": "C42",
   "status": "proved",
   "theorems": [
    "C42_call_of_bound_expression",
    "C42_call_is_substitution",
    "C42_bound_expression_is_a_good_function"
   ],
   "note": ""
  },
  {
   "property": "C47",
   "status": "proved",
   "theorems": [
    "C47_simplify_never_grows",
    "C47_simplify_for_never_grows"
   ],
   "note": ""
  },
  {
   "property": "C36",
   "status": "proved",
   "theorems": [
    "C36_factorial_cases",
    "C36_factorial_safe"
   ],
   "note": ""
  },
  {
   "property": "C37",
   "status": "proved",
   "theorems": [
    "C37_table_recurrence",
    "C37_factorial_accuracy",
    "C37_not_always_nearest"
   ],
   "note": "Includes that 28! is not the nearest f64."
  },
  {
   "property": "C46",
   "status": "proved",
   "theorems": [
    "C46_sum_is_left_fold",
    "C46_mean_is_sum_over_count",
    "C46_min",
    "C46_max",
    "C46_min_max_of_nans"
   ],
   "note": "min/max: for lists with a non-NaN argument; all-NaN lists give the infinities."
  },
  {
   "property": "C48",
   "status": "proved",
   "theorems": [
    "C48_rounding_functions",
    "C48_fract_is_exact"
   ],
   "note": ""
  },
  {
   "property": "C49",
   "status": "proved",
   "theorems": [
    "C49_remainder_in_expressions",
    "C49_remainder_is_exact",
    "C49_remainder_special"
   ],
   "note": ""
  },
  {
   "property": "C38",
   "status": "proved",
   "theorems": [
    "C38_eq_decides_equality",
    "C38_eq_symmetric",
    "C38_eq_transitive",
    "C38_eq_reflexive_iff",
    "C38_commutative",
    "C38_parsed_eq_is_tree_eq",
    "C38_double_bang_eq_panics",
    "C38_witness_trees"
   ],
   "note": "Equality is decided against an independent inductive relation; symmetric, transitive, reflexive exactly without NaN literals. Trees with a binary factorial (input like x!!y) make == panic: proved as C38_double_bang_eq_panics."
  },
  {
   "property": "C39",
   "status": "proved",
   "theorems": [
    "C39_equal_expressions_evaluate_equally",
    "C39_same_literals_same_results",
    "C39_zero_sign_observable"
   ],
   "note": "Same value whenever zero signs are unobservable; identical results when no literal is -0; counterexample otherwise."
  },
  {
   "property": "C40",
   "status": "proved",
   "theorems": [
    "C40_equal_characterised",
    "C40_order_characterised",
    "C40_no_answer",
    "C40_total_without_nan",
    "C40_cmp_reverses",
    "C40_cmp_transitive",
    "C40_equal_implies_eq",
    "C40_swapped_operands_inconsistent",
    "C40_functions_compared_by_name"
   ],
   "note": "partial_cmp reverses and composes; Equal implies == without calls; the two inconsistencies are proved."
  },
  {
   "property": "C04",
   "status": "proved",
   "theorems": [
    "C04_default_accepted_texts_are_sentences",
    "C04_accepted_exactly",
    "C04_accepted_texts_are_sentences",
    "C04_number_after_number_refuted"
   ],
   "note": "Exact characterisation of accepted texts without optimisation; the documented grammar on texts without two special adjacencies, also for the default (optimising) configuration; the failure outside (\"1+2 3\") is a theorem."
  },
  {
   "property": "C05",
   "status": "proved",
   "theorems": [
    "C05_default_sentences_are_accepted",
    "C05_sentences_are_accepted",
    "C05_parser_decides_grammar"
   ],
   "note": "Also for the default (optimising) configuration, up to simplification."
  },
  {
   "property": "C06",
   "status": "proved",
   "theorems": [
    "C06_derivations_unique",
    "C06_sentences_unique",
    "C06_tokens_unique"
   ],
   "note": "For the documented grammar and for the one with the implementation's two extra productions; token sequences are unique too."
  },
  {
   "property": "C07",
   "status": "proved",
   "theorems": [
    "C07_only_tokens_matter",
    "C07_whitespace_between",
    "C07_padding"
   ],
   "note": "All configurations; equal tokens give the same expression, kind of error, or panic."
  },
  {
   "property": "C08",
   "status": "proved",
   "theorems": [
    "C08_juxtaposition_is_product",
    "C08_stars_explicit",
    "C08_folded_constant_refuted"
   ],
   "note": "All outcomes, with and without optimisation; the excluded adjacencies are shown necessary."
  },
  {
   "property": "C09",
   "status": "proved",
   "theorems": [
    "C09_precedences_agree",
    "C09_juxtaposition_differs"
   ],
   "note": "All outcomes and configurations; with juxtaposition the difference is a theorem."
  },
  {
   "property": "C10",
   "status": "proved",
   "theorems": [
    "C10_default_parentheses",
    "C10_parentheses_transparent",
    "C10_optimised_refuted"
   ],
   "note": "The optimising parser: accepted, not larger, same values on regular arguments, identical when irreducible; the difference on \"0-5\" is a theorem."
  },
  {
   "property": "C14",
   "status": "proved",
   "theorems": [
    "C14_only_used_names_exact",
    "C14_declarations_of_used_names",
    "C14_context_variable_first",
    "C14_context_function_first",
    "C14_builtins_second",
    "C14_variables_last",
    "C14_only_used_names_matter"
   ],
   "note": "context first, then built-in constants and functions, then variables, for a name alone and for calls; parsing depends on the context only through the names that occur and the expected variables"
  },
  {
   "property": "C41",
   "status": "proved",
   "theorems": [
    "C41_last_write_wins",
    "C41_untouched_names_keep_their_symbol",
    "C41_expected_variables",
    "C41_expected_variables_kept",
    "C41_set_is_with"
   ],
   "note": "over all sequences of updates"
  },
  {
   "property": "C44",
   "status": "proved",
   "theorems": [
    "C44_functions_exactly",
    "C44_constants_exactly",
    "C44_other_names_are_variables",
    "C44_unary_functions_compute",
    "C44_binary_functions_compute",
    "C44_no_empty_calls",
    "C44_upper_case_constants_refuted",
    "C44_pi_is_nearest_to_pi",
    "C44_e_is_nearest_to_e"
   ],
   "note": "names, arities, what each function computes (libm functions are oracles); no call without arguments is accepted, and the README's upper case PI and E are ordinary variables (refutation theorems)"
  },
  {
   "property": "C12",
   "status": "proved",
   "theorems": [
    "C12_literals_correctly_rounded",
    "C12_literals_in_expressions",
    "C12_rounding_is_a_function",
    "C12_trailing_e_is_the_constant",
    "C12_exponent_digits"
   ],
   "note": "literals of any length; correct rounding is specified directly (nearest, ties to even significand, overflow threshold)"
  },
  {
   "property": "C18",
   "status": "proved",
   "theorems": [
    "C18_optimised_accepts_less",
    "C18_same_verdict",
    "C18_plain_accepted",
    "C18_folded_parenthesis_rejected",
    "C18_folded_parenthesis_regroups",
    "C18_undeclared_may_vanish"
   ],
   "note": "Full statement as corrected by the theorems: optimised acceptance implies plain acceptance; equal verdicts where no number directly follows a closing parenthesis; refutations outside."
  },
  {
   "property": "C19",
   "status": "proved",
   "theorems": [
    "C19_optimised_value",
    "C19_simplify_value",
    "C19_conditions_needed"
   ],
   "note": "Regular domain spelled out in SpecRegular.v; each condition shown to be needed."
  },
  {
   "property": "C30",
   "status": "proved",
   "theorems": [
    "C30_simplify_for_value",
    "C30_simplify_for_multiple_value",
    "C30_conditions_needed"
   ],
   "note": "simplify_for and simplify_for_multiple, on the same regular domain."
  },
  {
   "property": "C11",
   "status": "proved",
   "theorems": [
    "C11_default_round_trip",
    "C11_default_parsed_expressions",
    "C11_default_stable",
    "C11_default_sign_refuted",
    "C11_text_is_read_back",
    "C11_round_trip",
    "C11_same_values",
    "C11_parsed_expressions",
    "C11_factorials_do_not_read_back",
    "C11_negative_bases_read_back_differently",
    "C11_infinities_read_back_as_names",
    "C11_shadowed_names_read_back_differently"
   ],
   "note": "Same tree for every printable tree, same values with minus-signed numbers, every factorial-free parsed expression; default configuration with negative numbers and after partial evaluation; refutations for factorials, negative bases, infinities, shadowed names and the sign left by \"0-5\"."
  },
  {
   "property": "C50",
   "status": "proved",
   "theorems": [
    "C50_shortest_text",
    "C50_reads_back",
    "C50_texts_distinct",
    "C50_special_texts"
   ],
   "note": "The standard library's f64 Display is modelled by exhaustive search for the shortest decimal; the theorems show that the model returns it."
  },
  {
   "property": "C51",
   "status": "proved",
   "theorems": [
    "C51_help_never_panics",
    "C51_help_counts_arguments",
    "C51_messages_count_arguments",
    "C51_undeclared_variable_texts",
    "C51_illegal_character_shown",
    "C51_illegal_character_mangled",
    "C51_every_message",
    "C51_every_help",
    "C51_messages_are_text",
    "C51_eval_error_text",
    "C51_bind_error_text"
   ],
   "note": ""
  },
  {
   "property": "C52",
   "status": "proved",
   "theorems": [
    "C52_default_verdict",
    "C52_verdict",
    "C52_verdict_fixes_error"
   ],
   "note": "Both without optimisation and, on texts without number adjacencies and \"!!\", with it."
  },
  {
   "property": "C53",
   "status": "proved",
   "theorems": [
    "C53_default_prefix_completable",
    "C53_every_configuration",
    "C53_prefix_completable"
   ],
   "note": "Every configuration; with optimisation for texts without two adjacent '!', where it can panic."
  },
  {
   "property": "C54",
   "status": "proved",
   "theorems": [
    "C54_default_no_way_on",
    "C54_every_configuration",
    "C54_no_way_on"
   ],
   "note": "Every configuration and every text."
  },
  {
   "property": "C55",
   "status": "proved",
   "theorems": [
    "C55_operators_correctly_rounded",
    "C55_special_values",
    "C55_all_operands_covered"
   ],
   "note": ""
  },
  {
   "property": "C56",
   "status": "proved",
   "theorems": [
    "C56_sqrt",
    "C56_recip"
   ],
   "note": ""
  },
  {
   "property": "C57",
   "status": "proved",
   "theorems": [
    "C57_macro_forms",
    "C57_unnamed_fixed_static_rejected",
    "C57_only_these_forms",
    "C57_arguments_passed_in_order",
    "C57_no_argument_function_uncallable"
   ],
   "note": "The macro's matching rules and the parameter types of the constructors are modelled; Rust's macro expander and type checker are not."
  },
  {
   "property": "C58",
   "status": "proved",
   "theorems": [
    "C58_parsed_is_simplified",
    "C58_partially_evaluated_is_simplified",
    "C58_no_trivial_operation_left",
    "C58_nightly_refuted",
    "C58_sign_left",
    "C58_power_zero_stays"
   ],
   "note": "Refuted on nightly (C58_nightly_refuted)."
  },
  {
   "property": "C59",
   "status": "proved",
   "theorems": [
    "C59_unchanged_iff_irreducible",
    "C59_each_pass_shrinks",
    "C59_passes_converge",
    "C59_second_pass_changes_nothing"
   ],
   "note": ""
  },
  {
   "property": "C60",
   "status": "proved",
   "theorems": [
    "C60_unchecked_slices_are_text",
    "C60_spans_between_characters",
    "C60_missing_argument_splits_a_character",
    "C60_reported_character"
   ],
   "note": ""
  },
  {
   "property": "C61",
   "status": "proved",
   "theorems": [
    "C61_replace_all",
    "C61_replace_some",
    "C61_default_replace_all",
    "C61_number_after_refuted"
   ],
   "note": "The exception is C61_number_after_refuted."
  },
  {
   "property": "C62",
   "status": "proved",
   "theorems": [
    "C62_constant_is_variable",
    "C62_variable_is_constant",
    "C62_default_constant_is_variable",
    "C62_number_after_refuted"
   ],
   "note": "The exception is C62_number_after_refuted."
  },
  {
   "property": "C63",
   "status": "proved",
   "theorems": [
    "C63_renaming",
    "C63_capital_refuted"
   ],
   "note": "The restriction on capitals is needed: C63_capital_refuted."
  },
  {
   "property": "C64",
   "status": "proved",
   "theorems": [
    "C64_size_linear",
    "C64_nesting_unbounded"
   ],
   "note": ""
  },
  {
   "property": "C65",
   "status": "proved",
   "theorems": [
    "C65_integers_exact",
    "C65_texts_exact",
    "C65_simplify_for_exact",
    "C65_bound_needed"
   ],
   "note": "Powers are excluded (the platform's pow is an arbitrary function in the model). The bound is needed: C65_bound_needed."
  },
  {
   "property": "C66",
   "status": "proved",
   "theorems": [
    "C66_counting_is_faithful",
    "C66_equality_steps",
    "C66_simplify_steps",
    "C66_simplify_for_steps",
    "C66_eval_steps",
    "C66_parse_steps",
    "C66_plain_parse_steps",
    "C66_optimised_parse_not_linear"
   ],
   "note": "Steps are counted by instrumented copies (Cost.v) proved to return what the model returns; allocation, hashing and the platform's math functions are not counted."
  },
  {
   "property": "C67",
   "status": "proved",
   "theorems": [
    "C67_reply",
    "C67_session",
    "C67_rounds_complete",
    "C67_asks_each_variable_once",
    "C67_reports_point_into_the_line",
    "C67_end_of_input_loops",
    "C67_end_of_input_panics"
   ],
   "note": "The text of {:#?} is the subject of C76; the layout of miette's report, and what miette does with a span outside the text (the end of the input), are not modelled (the event holds the error reported); input that is not UTF-8 and failing input/output are not modelled."
  },
  {
   "property": "C68",
   "status": "proved",
   "theorems": [
    "C68_contexts_are_proper",
    "C68_context_eq_iff",
    "C68_context_eq_symmetric",
    "C68_context_eq_transitive",
    "C68_context_eq_reflexive_iff",
    "C68_equal_parsers_parse_alike",
    "C68_equal_parsers_equal_results",
    "C68_same_names_parse_alike",
    "C68_equal_parsers_without_zero",
    "C68_zero_sign_refuted",
    "C68_optimised_acceptance_refuted",
    "C68_nan_refuted"
   ],
   "note": "The claim as one would like it (equal parsers give equal values in every build) is false: C68_zero_sign_refuted, C68_optimised_acceptance_refuted. Two static function pointers are taken to be equal exactly if they point to the same function; rustc may merge or duplicate functions."
  },
  {
   "property": "C69",
   "status": "proved",
   "theorems": [
    "C69_error_bound",
    "C69_linear_error_bound",
    "C69_relative_error_bound",
    "C69_cancellation_refuted",
    "C69_example_for_all_values"
   ],
   "note": "Powers, % and the platform's functions are not covered by the bound."
  },
  {
   "property": "C70",
   "status": "proved",
   "theorems": [
    "C70_signs",
    "C70_monotone",
    "C70_enclosure",
    "C70_without_nan_condition_refuted"
   ],
   "note": "Rules in SpecMonotone.v; signs (C70_signs), monotonicity (C70_monotone), interval enclosure in one variable (C70_enclosure); the NaN condition is shown necessary. Powers, remainders, transcendental and user functions are outside the rules."
  },
  {
   "property": "C71",
   "status": "proved",
   "theorems": [
    "C71_stages",
    "C71_remaining_variables",
    "C71_order_does_not_matter",
    "C71_order_refuted",
    "C71_equal_expressions_refuted"
   ],
   "note": "Stages, remaining variables and order-independence proved; the unrestricted claim and equality of the results are refuted."
  },
  {
   "property": "C72",
   "status": "proved",
   "theorems": [
    "C72_nan_sources",
    "C72_infinity_sources",
    "C72_nan_has_a_source",
    "C72_infinity_has_a_source",
    "C72_no_source_finite",
    "C72_nan_spreads",
    "C72_spreads_everywhere_refuted"
   ],
   "note": "nan_source and infinity_source are each proved equivalent to 'bad value with good operands'; that NaN always spreads is refuted by min and max."
  },
  {
   "property": "C73",
   "status": "proved",
   "theorems": [
    "C73_exact_rearrangement",
    "C73_rearrangement_but_for_zero",
    "C73_same_variables",
    "C73_other_laws_refuted"
   ],
   "note": "One NaN: payload and sign of a NaN result are not modelled."
  },
  {
   "property": "C74",
   "status": "proved",
   "theorems": [
    "C74_identity_at_values",
    "C74_near_difference_exact",
    "C74_mean_of_two_between",
    "C74_conditions_needed"
   ],
   "note": "The laws sum(a) = a and mean(a) = a ask for a nonzero value because std's sum may start from either zero."
  },
  {
   "property": "C75",
   "status": "proved",
   "theorems": [
    "C75_total_orders",
    "C75_text_order",
    "C75_documented_order",
    "C75_one_sorted_list",
    "C75_symbols",
    "C75_symbols_order",
    "C75_symbols_equal_by_name",
    "C75_symbols_transitive"
   ],
   "note": "Chars are bytes, as everywhere in the model of errors. The derived Hash is C79."
  },
  {
   "property": "C76",
   "status": "proved",
   "theorems": [
    "C76_number_reads_back",
    "C76_number_texts_distinct",
    "C76_dump_determines_expression",
    "C76_dump_is_indented",
    "C76_compact_is_one_line",
    "C76_number_notation",
    "C76_special_numbers",
    "C76_shadowed_functions_look_alike",
    "C76_dump_text",
    "C76_same_words_on_several_lines"
   ],
   "note": "The derived implementations and the standard library's DebugStruct/DebugTuple/DebugList/DebugSet/PadAdapter are modelled; escapes in str's Debug are not, names in expressions have none. Debug of errors, contexts and parsers is not modelled."
  },
  {
   "property": "C77",
   "status": "proved",
   "theorems": [
    "C77_eval_runs",
    "C77_unchecked_runs",
    "C77_calls_in_order",
    "C77_calls_before_missing_variable",
    "C77_calls_before_panic",
    "C77_plain_parse_calls_nothing",
    "C77_parse_calls",
    "C77_at_most_once",
    "C77_without_state"
   ],
   "note": "The functions that can reach a call are modelled again with the history of calls as a state; the others are shared. Concurrent calls from several threads are not modelled."
  },
  {
   "property": "C78",
   "status": "proved",
   "theorems": [
    "C78_metering_is_faithful",
    "C78_evaluation",
    "C78_simplification",
    "C78_comparison",
    "C78_parsing",
    "C78_parsed_height",
    "C78_openers",
    "C78_deep_evaluation",
    "C78_flat_sums",
    "C78_print_clone_drop",
    "C78_ordering",
    "C78_parsed_print_clone_drop",
    "C78_flat_drop"
   ],
   "note": "Counted are the calls of the recursive functions; each stands for a fixed number of machine frames. Printing and dropping an expression also recurse to its height but are not metered. The size of a machine frame is not modelled."
  },
  {
   "property": "C79",
   "status": "proved",
   "theorems": [
    "C79_equality",
    "C79_parse_errors",
    "C79_kinds",
    "C79_bind_errors",
    "C79_eval_errors",
    "C79_operators",
    "C79_reported_errors",
    "C79_reported_errors_hash"
   ],
   "note": "The feeds are those of a 64-bit little-endian target; miette::SourceSpan and str are hashed as their libraries do."
  },
  {
   "property": "C80",
   "status": "proved",
   "theorems": [
    "C80_conversation",
    "C80_without_state",
    "C80_own_state",
    "C80_as_alone",
    "C80_calls_in_order",
    "C80_no_waiting",
    "C80_ends"
   ],
   "note": "Sequentially consistent threads; one call of a user function is one step. simplify_for_in_place needs exclusive access and is not part of the threads' programs."
  },
  {
   "property": "C81",
   "status": "proved",
   "theorems": [
    "C81_change_of_unit",
    "C81_pure_number",
    "C81_example_for_all_values",
    "C81_other_units_refuted"
   ],
   "note": "No range condition is needed for %, sqrt, min, max, abs and signs, and no lower one for + and -."
  },
  {
   "property": "C82",
   "status": "proved",
   "theorems": [
    "C82_script_reads_the_values",
    "C82_result_as_answer",
    "C82_result_typed_again",
    "C82_infinite_results_are_names",
    "C82_result_behind_questions"
   ],
   "note": "The text of miette's report is an arbitrary function of the error; the session's errors are assumed to be reported without a line that looks like a result (a report quotes the line typed, so typing 'Evaluated: 5' may break this)."
  },
  {
   "property": "C83",
   "status": "proved",
   "theorems": [
    "C83_signs",
    "C83_compared",
    "C83_example",
    "C83_limits_refuted"
   ],
   "note": "For sin, tan, ... of libm the rule has the parity of the function as a premise, as libm is not modelled."
  },
  {
   "property": "C84",
   "status": "proved",
   "theorems": [
    "C84_advice_is_the_help",
    "C84_advice_helps",
    "C84_label_marks_the_place",
    "C84_no_circles",
    "C84_advice_given",
    "C84_advice_leads_on",
    "C84_limits_refuted"
   ],
   "note": ""
  },
  {
   "property": "C85",
   "status": "proved",
   "theorems": [
    "C85_rules_in_order",
    "C85_one_result",
    "C85_some_result",
    "C85_order_matters",
    "C85_power_zero_stays"
   ],
   "note": ""
  },
  {
   "property": "C86",
   "status": "proved",
   "theorems": [
    "C86_default_reads_exactly",
    "C86_every_text",
    "C86_plain_is_the_grammar",
    "C86_one_reading",
    "C86_example",
    "C86_no_reading"
   ],
   "note": ""
  },
  {
   "property": "C87",
   "status": "proved",
   "theorems": [
    "C87_lean_text_is_read_back",
    "C87_fewest_brackets",
    "C87_accepted_texts",
    "C87_default_round_trip",
    "C87_juxtaposition_refuted"
   ],
   "note": "Minimality is stated for texts without '!!' and without a number after a number, constant or ')', and with pejmdas for texts without implicit products; the exceptions are shown to be real."
  },
  {
   "property": "C88",
   "status": "proved",
   "theorems": [
    "C88_evaluation",
    "C88_partial_evaluation",
    "C88_plain_parsing",
    "C88_parsing",
    "C88_text_to_value",
    "C88_sine_refuted",
    "C88_power_and_zero_refuted"
   ],
   "note": "IEEE arithmetic itself is taken to be the same everywhere (Flocq's binary64)."
  },
  {
   "property": "C89",
   "status": "proved",
   "theorems": [
    "C89_debug_or_release",
    "C89_empty_text_refuted",
    "C89_unoptimised",
    "C89_without_minus",
    "C89_values",
    "C89_nightly_refuted"
   ],
   "note": ""
  },
  {
   "property": "C90",
   "status": "proved",
   "theorems": [
    "C90_default_arguments",
    "C90_always_accepted",
    "C90_lean_join",
    "C90_read_as_written",
    "C90_in_brackets",
    "C90_value",
    "C90_list",
    "C90_arguments",
    "C90_default_accepted",
    "C90_default_value",
    "C90_bare_join_refuted"
   ],
   "note": "the brackets theorem is sufficient, not exact: a text that already carries its brackets may be read as written without more"
  },
  {
   "property": "C91",
   "status": "proved",
   "theorems": [
    "C91_part_of_the_whole",
    "C91_exchange",
    "C91_stays_rejected",
    "C91_default",
    "C91_escape_refuted",
    "C91_number_after_refuted"
   ],
   "note": ""
  },
  {
   "property": "C92",
   "status": "proved",
   "theorems": [
    "C92_strings_as_literals",
    "C92_characters_as_literals",
    "C92_literals_read_back",
    "C92_plain_text_unchanged",
    "C92_parse_error_told",
    "C92_same_message_same_text",
    "C92_message_contains_the_text",
    "C92_eval_error_told",
    "C92_bind_error_told",
    "C92_one_line",
    "C92_display_tells_less"
   ],
   "note": "which characters beyond ASCII are shown unescaped is a table of the standard library and left arbitrary"
  },
  {
   "property": "C93",
   "status": "proved",
   "theorems": [
    "C93_values",
    "C93_parsing",
    "C93_binding",
    "C93_answers_by_name",
    "C93_sessions_with_single_variables",
    "C93_two_variables_refuted"
   ],
   "note": "the last sentence of the statement is C93_two_variables_refuted"
  },
  {
   "property": "C94",
   "status": "proved",
   "theorems": [
    "C94_only_the_reading_matters",
    "C94_accepted_alike",
    "C94_underscores",
    "C94_leading_zero",
    "C94_capital_e",
    "C94_trailing_zeros",
    "C94_first_digit_matters_refuted"
   ],
   "note": "the sentence on x .5 is C94_first_digit_matters_refuted"
  },
  {
   "property": "C95",
   "status": "proved",
   "theorems": [
    "C95_accepts_exactly",
    "C95_accepts_exactly_optimised",
    "C95_as_any_parser",
    "C95_as_any_declaring_parser",
    "C95_nothing_to_declare"
   ],
   "note": ""
  },
  {
   "property": "C96",
   "status": "proved",
   "theorems": [
    "C96_dump_tells_context",
    "C96_dump_tells_parser",
    "C96_same_dump_same_answers",
    "C96_dump_text",
    "C96_one_line",
    "C96_functions_not_told_refuted"
   ],
   "note": ""
  },
  {
   "property": "C97",
   "status": "proved",
   "theorems": [
    "C97_in_brackets",
    "C97_settled",
    "C97_difference_cancels",
    "C97_quotient_cancels",
    "C97_remainder_cancels",
    "C97_zero_factor",
    "C97_documented_example",
    "C97_accepted_is_settled",
    "C97_conditions_needed"
   ],
   "note": "C97_in_brackets (the general reading), C97_settled, C97_difference_cancels, C97_quotient_cancels, C97_remainder_cancels, C97_zero_factor, C97_documented_example; C97_accepted_is_settled says when the condition holds on stable; C97_conditions_needed shows the conditions cannot be dropped."
  },
  {
   "property": "C98",
   "status": "proved",
   "theorems": [
    "C98_same_answer",
    "C98_regrouped",
    "C98_same_on_paper",
    "C98_same_sentences",
    "C98_default_same_answer",
    "C98_division_differs",
    "C98_rounding_differs",
    "C98_declared_refuted"
   ],
   "note": "C98_same_answer (all texts), C98_regrouped, C98_same_on_paper (texts without the parser's own productions), C98_same_sentences, C98_default_same_answer; C98_division_differs, C98_rounding_differs and C98_declared_refuted show that the conditions are needed."
  },
  {
   "property": "C99",
   "status": "proved",
   "theorems": [
    "C99_written_out",
    "C99_number_after_name_refuted",
    "C99_default_refuted",
    "C99_unused_argument_refuted"
   ],
   "note": "C99_written_out; the conditions are shown necessary by C99_number_after_name_refuted, C99_unused_argument_refuted and C99_default_refuted."
  },
  {
   "property": "C100",
   "status": "proved",
   "theorems": [
    "C100_text",
    "C100_tame_functions",
    "C100_stages",
    "C100_default_build",
    "C100_conditions_needed"
   ],
   "note": "C100_text, C100_stages, C100_default_build; C100_conditions_needed shows the limits."
  },
  {
   "property": "C101",
   "status": "proved",
   "theorems": [
    "C101_modules",
    "C101_remainder_refuted"
   ],
   "note": "C101_modules; C101_witness meets all hypotheses; C101_remainder_refuted shows a limit."
  },
  {
   "property": "C102",
   "status": "proved",
   "theorems": [
    "C102_same_text_iff_alike",
    "C102_text_is_a_key",
    "C102_stored_results",
    "C102_same_text_equal",
    "C102_limits"
   ],
   "note": "C102_same_text_iff_alike is exact; C102_witness meets the hypotheses in the default build; C102_limits shows the limits."
  },
  {
   "property": "C103",
   "status": "proved",
   "theorems": [
    "C103_build",
    "C103_does_not_compile",
    "C103_pejmdas_without_defaults",
    "C103_order_irrelevant",
    "C103_added_dependent",
    "C103_effect_on_texts",
    "C103_silent_change"
   ],
   "note": "C103_build and C103_does_not_compile are exact; C103_effect_on_texts uses C18 and C19; C103_silent_change is the refutation; C103_witness meets the hypotheses."
  },
  {
   "property": "C104",
   "status": "proved",
   "theorems": [
    "C104_fits_iff",
    "C104_exact",
    "C104_texts",
    "C104_simplify_for",
    "C104_units",
    "C104_remainder_by_one"
   ],
   "note": "Extends C65 from whole numbers to all binary fractions; the exception for % 1 is shown to be needed."
  },
  {
   "property": "C105",
   "status": "proved",
   "theorems": [
    "C105_utf8",
    "C105_no_failure",
    "C105_writing_fails",
    "C105_reading_fails",
    "C105_exit_status",
    "C105_unreadable_expression",
    "C105_unreadable_answer",
    "C105_first_failure",
    "C105_fine_status"
   ],
   "note": "Closes the gap left by C67, which assumes readable UTF-8 lines and working output. Exit statuses 0, 1 and 101 are Rust's for Ok, Err and panic."
  },
  {
   "property": "C106",
   "status": "proved",
   "theorems": [
    "C106_clamp_default",
    "C106_bounds",
    "C106_stages",
    "C106_default_build",
    "C106_known_range",
    "C106_sine",
    "C106_clamp",
    "C106_divisors_refuted",
    "C106_clamp_text",
    "C106_reached",
    "C106_reached_default",
    "C106_reached_twice_refuted"
   ],
   "note": "C106_bounds: eval of the parsed tree. C106_stages: after simplify_for_multiple. C106_default_build: optimising parse, then simplification too. C106_clamp: min(max(e,a),b) for any e. C106_divisors_refuted: corner quotients do not bound a quotient when the divisor's interval crosses zero. C106_witness: a text with three variables, different trees in the two builds."
  }
 ]
}
# What `Print Assumptions` lists for each theorem of MANIFEST.json

Generated by running `Print Assumptions` on every theorem. Only axioms of the standard library occur.

## Closed under the global context

- `C38_eq_decides_equality`
- `C40_equal_characterised`
- `C40_order_characterised`
- `C40_equal_implies_eq`
- `C06_tokens_unique`
- `C41_last_write_wins`
- `C41_untouched_names_keep_their_symbol`
- `C41_expected_variables`
- `C41_expected_variables_kept`
- `C41_set_is_with`
- `C51_messages_count_arguments`
- `C51_every_message`
- `C52_verdict_fixes_error`
- `C57_macro_forms`
- `C57_unnamed_fixed_static_rejected`
- `C57_only_these_forms`
- `C60_unchecked_slices_are_text`
- `C66_equality_steps`
- `C68_contexts_are_proper`
- `C68_nan_refuted`
- `C75_total_orders`
- `C75_text_order`
- `C75_documented_order`
- `C75_one_sorted_list`
- `C75_symbols`
- `C75_symbols_order`
- `C75_symbols_equal_by_name`
- `C78_comparison`
- `C78_ordering`
- `C79_equality`
- `C79_parse_errors`
- `C79_kinds`
- `C79_bind_errors`
- `C79_eval_errors`
- `C79_operators`
- `C80_no_waiting`
- `C92_strings_as_literals`
- `C92_characters_as_literals`
- `C92_literals_read_back`
- `C92_plain_text_unchanged`
- `C92_parse_error_told`
- `C92_eval_error_told`
- `C92_bind_error_told`
- `C92_one_line`
- `C103_build`
- `C103_does_not_compile`
- `C103_pejmdas_without_defaults`
- `C103_order_irrelevant`
- `C103_added_dependent`
- `C105_utf8`

## `ClassicalDedekindReals.sig_forall_dec`, `FunctionalExtensionality.functional_extensionality_dep`

- `C55_all_operands_covered`
- `C73_same_variables`
- `C94_underscores`
- `C94_leading_zero`
- `C94_capital_e`
- `C94_trailing_zeros`

## `ClassicalDedekindReals.sig_forall_dec`, `ClassicalDedekindReals.sig_not_dec`, `Classical_Prop.classic`, `FunctionalExtensionality.functional_extensionality_dep`

- `C01_parse_terminates`
- `C01_nesting_linear`
- `C02_plain_parse_panics_only_on_empty`
- `C02_optimised_parse_panics`
- `C02_double_bang_panics`
- `C03_error_spans_inside_source`
- `C13_variables_are_input_identifiers`
- `C15_calls_have_declared_arity`
- `C16_expected_variables`
- `C17_vars_exact`
- `C20_eval_ok_iff_variables_given`
- `C20_eval_error_names_leftmost_missing`
- `C20_eval_error_variable`
- `C21_eval_is_meaning`
- `C22_eval_depends_on_occurring_variables`
- `C23_unchecked_agrees`
- `C23_unchecked_panics`
- `C23_missing_variable_panics`
- `C24_eval_no_vars_closed`
- `C24_eval_no_vars_agrees`
- `C25_eval_never_panics`
- `C25_double_bang_refuted`
- `C26_bind_succeeds_iff_all_listed`
- `C26_many_missing_panics_in_debug`
- `C26_256_missing_accepted_in_release`
- `C27_bound_functions_compute_meaning`
- `C27_bound_functions_agree_with_eval`
- `C28_bind_n_runtime_total`
- `C29_bind_errors_list_missing`
- `C43_repl_never_unreachable`
- `C45_errors_truthful`
- `C31_simplify_for_eliminates`
- `C31_simplify_for_total`
- `C31_vars_may_be_stale`
- `C32_multiple_is_iteration`
- `C32_in_place_agrees`
- `C32_in_place_single`
- `C33_substituting_all_closes`
- `C34_closed_folds`
- `C34_closed_folds_without_minus`
- `C34_zero_minus_refuted`
- `C35_in_place_ownership`
- `C35_in_place_multiple_ownership`
- `C35_in_place_safe`
- `C35_panic_leaves_moved_out`
- `C42_call_of_bound_expression`
- `C42_call_is_substitution`
- `C42_bound_expression_is_a_good_function`
- `C47_simplify_never_grows`
- `C47_simplify_for_never_grows`
- `C36_factorial_cases`
- `C36_factorial_safe`
- `C37_table_recurrence`
- `C37_factorial_accuracy`
- `C37_not_always_nearest`
- `C46_sum_is_left_fold`
- `C46_mean_is_sum_over_count`
- `C46_min`
- `C46_max`
- `C46_min_max_of_nans`
- `C48_rounding_functions`
- `C48_fract_is_exact`
- `C49_remainder_in_expressions`
- `C49_remainder_is_exact`
- `C49_remainder_special`
- `C38_eq_symmetric`
- `C38_eq_transitive`
- `C38_eq_reflexive_iff`
- `C38_commutative`
- `C38_parsed_eq_is_tree_eq`
- `C38_double_bang_eq_panics`
- `C38_witness_trees`
- `C39_equal_expressions_evaluate_equally`
- `C39_same_literals_same_results`
- `C39_zero_sign_observable`
- `C40_no_answer`
- `C40_total_without_nan`
- `C40_cmp_reverses`
- `C40_cmp_transitive`
- `C40_swapped_operands_inconsistent`
- `C40_functions_compared_by_name`
- `C04_default_accepted_texts_are_sentences`
- `C04_accepted_exactly`
- `C04_accepted_texts_are_sentences`
- `C04_number_after_number_refuted`
- `C05_default_sentences_are_accepted`
- `C05_sentences_are_accepted`
- `C05_parser_decides_grammar`
- `C06_derivations_unique`
- `C06_sentences_unique`
- `C07_only_tokens_matter`
- `C07_whitespace_between`
- `C07_padding`
- `C08_juxtaposition_is_product`
- `C08_stars_explicit`
- `C08_folded_constant_refuted`
- `C09_precedences_agree`
- `C09_juxtaposition_differs`
- `C10_default_parentheses`
- `C10_parentheses_transparent`
- `C10_optimised_refuted`
- `C14_only_used_names_exact`
- `C14_declarations_of_used_names`
- `C14_context_variable_first`
- `C14_context_function_first`
- `C14_builtins_second`
- `C14_variables_last`
- `C14_only_used_names_matter`
- `C44_functions_exactly`
- `C44_constants_exactly`
- `C44_other_names_are_variables`
- `C44_unary_functions_compute`
- `C44_binary_functions_compute`
- `C44_no_empty_calls`
- `C44_upper_case_constants_refuted`
- `C44_pi_is_nearest_to_pi`
- `C44_e_is_nearest_to_e`
- `C12_literals_correctly_rounded`
- `C12_literals_in_expressions`
- `C12_rounding_is_a_function`
- `C12_trailing_e_is_the_constant`
- `C12_exponent_digits`
- `C18_optimised_accepts_less`
- `C18_same_verdict`
- `C18_plain_accepted`
- `C18_folded_parenthesis_rejected`
- `C18_folded_parenthesis_regroups`
- `C18_undeclared_may_vanish`
- `C19_optimised_value`
- `C19_simplify_value`
- `C19_conditions_needed`
- `C30_simplify_for_value`
- `C30_simplify_for_multiple_value`
- `C30_conditions_needed`
- `C11_default_round_trip`
- `C11_default_parsed_expressions`
- `C11_default_stable`
- `C11_default_sign_refuted`
- `C11_text_is_read_back`
- `C11_round_trip`
- `C11_same_values`
- `C11_parsed_expressions`
- `C11_factorials_do_not_read_back`
- `C11_negative_bases_read_back_differently`
- `C11_infinities_read_back_as_names`
- `C11_shadowed_names_read_back_differently`
- `C50_shortest_text`
- `C50_reads_back`
- `C50_texts_distinct`
- `C50_special_texts`
- `C51_help_never_panics`
- `C51_help_counts_arguments`
- `C51_undeclared_variable_texts`
- `C51_illegal_character_shown`
- `C51_illegal_character_mangled`
- `C51_every_help`
- `C51_messages_are_text`
- `C51_eval_error_text`
- `C51_bind_error_text`
- `C52_default_verdict`
- `C52_verdict`
- `C53_default_prefix_completable`
- `C53_every_configuration`
- `C53_prefix_completable`
- `C54_default_no_way_on`
- `C54_every_configuration`
- `C54_no_way_on`
- `C55_operators_correctly_rounded`
- `C55_special_values`
- `C56_sqrt`
- `C56_recip`
- `C57_arguments_passed_in_order`
- `C57_no_argument_function_uncallable`
- `C58_parsed_is_simplified`
- `C58_partially_evaluated_is_simplified`
- `C58_no_trivial_operation_left`
- `C58_nightly_refuted`
- `C58_sign_left`
- `C58_power_zero_stays`
- `C59_unchanged_iff_irreducible`
- `C59_each_pass_shrinks`
- `C59_passes_converge`
- `C59_second_pass_changes_nothing`
- `C60_spans_between_characters`
- `C60_missing_argument_splits_a_character`
- `C60_reported_character`
- `C61_replace_all`
- `C61_replace_some`
- `C61_default_replace_all`
- `C61_number_after_refuted`
- `C62_constant_is_variable`
- `C62_variable_is_constant`
- `C62_default_constant_is_variable`
- `C62_number_after_refuted`
- `C63_renaming`
- `C63_capital_refuted`
- `C64_size_linear`
- `C64_nesting_unbounded`
- `C65_integers_exact`
- `C65_texts_exact`
- `C65_simplify_for_exact`
- `C65_bound_needed`
- `C66_counting_is_faithful`
- `C66_simplify_steps`
- `C66_simplify_for_steps`
- `C66_eval_steps`
- `C66_parse_steps`
- `C66_plain_parse_steps`
- `C66_optimised_parse_not_linear`
- `C67_reply`
- `C67_session`
- `C67_rounds_complete`
- `C67_asks_each_variable_once`
- `C67_reports_point_into_the_line`
- `C67_end_of_input_loops`
- `C67_end_of_input_panics`
- `C68_context_eq_iff`
- `C68_context_eq_symmetric`
- `C68_context_eq_transitive`
- `C68_context_eq_reflexive_iff`
- `C68_equal_parsers_parse_alike`
- `C68_equal_parsers_equal_results`
- `C68_same_names_parse_alike`
- `C68_equal_parsers_without_zero`
- `C68_zero_sign_refuted`
- `C68_optimised_acceptance_refuted`
- `C69_error_bound`
- `C69_linear_error_bound`
- `C69_relative_error_bound`
- `C69_cancellation_refuted`
- `C69_example_for_all_values`
- `C70_signs`
- `C70_monotone`
- `C70_enclosure`
- `C70_without_nan_condition_refuted`
- `C71_stages`
- `C71_remaining_variables`
- `C71_order_does_not_matter`
- `C71_order_refuted`
- `C71_equal_expressions_refuted`
- `C72_nan_sources`
- `C72_infinity_sources`
- `C72_nan_has_a_source`
- `C72_infinity_has_a_source`
- `C72_no_source_finite`
- `C72_nan_spreads`
- `C72_spreads_everywhere_refuted`
- `C73_exact_rearrangement`
- `C73_rearrangement_but_for_zero`
- `C73_other_laws_refuted`
- `C74_identity_at_values`
- `C74_near_difference_exact`
- `C74_mean_of_two_between`
- `C74_conditions_needed`
- `C75_symbols_transitive`
- `C76_number_reads_back`
- `C76_number_texts_distinct`
- `C76_dump_determines_expression`
- `C76_dump_is_indented`
- `C76_compact_is_one_line`
- `C76_number_notation`
- `C76_special_numbers`
- `C76_shadowed_functions_look_alike`
- `C76_dump_text`
- `C76_same_words_on_several_lines`
- `C77_eval_runs`
- `C77_unchecked_runs`
- `C77_calls_in_order`
- `C77_calls_before_missing_variable`
- `C77_calls_before_panic`
- `C77_plain_parse_calls_nothing`
- `C77_parse_calls`
- `C77_at_most_once`
- `C77_without_state`
- `C78_metering_is_faithful`
- `C78_evaluation`
- `C78_simplification`
- `C78_parsing`
- `C78_parsed_height`
- `C78_openers`
- `C78_deep_evaluation`
- `C78_flat_sums`
- `C78_print_clone_drop`
- `C78_parsed_print_clone_drop`
- `C78_flat_drop`
- `C79_reported_errors`
- `C79_reported_errors_hash`
- `C80_conversation`
- `C80_without_state`
- `C80_own_state`
- `C80_as_alone`
- `C80_calls_in_order`
- `C80_ends`
- `C81_change_of_unit`
- `C81_pure_number`
- `C81_example_for_all_values`
- `C81_other_units_refuted`
- `C82_script_reads_the_values`
- `C82_result_as_answer`
- `C82_result_typed_again`
- `C82_infinite_results_are_names`
- `C82_result_behind_questions`
- `C83_signs`
- `C83_compared`
- `C83_example`
- `C83_limits_refuted`
- `C84_advice_is_the_help`
- `C84_advice_helps`
- `C84_label_marks_the_place`
- `C84_no_circles`
- `C84_advice_given`
- `C84_advice_leads_on`
- `C84_limits_refuted`
- `C85_rules_in_order`
- `C85_one_result`
- `C85_some_result`
- `C85_order_matters`
- `C85_power_zero_stays`
- `C86_default_reads_exactly`
- `C86_every_text`
- `C86_plain_is_the_grammar`
- `C86_one_reading`
- `C86_example`
- `C86_no_reading`
- `C87_lean_text_is_read_back`
- `C87_fewest_brackets`
- `C87_accepted_texts`
- `C87_default_round_trip`
- `C87_juxtaposition_refuted`
- `C88_evaluation`
- `C88_partial_evaluation`
- `C88_plain_parsing`
- `C88_parsing`
- `C88_text_to_value`
- `C88_sine_refuted`
- `C88_power_and_zero_refuted`
- `C89_debug_or_release`
- `C89_empty_text_refuted`
- `C89_unoptimised`
- `C89_without_minus`
- `C89_values`
- `C89_nightly_refuted`
- `C90_default_arguments`
- `C90_always_accepted`
- `C90_lean_join`
- `C90_read_as_written`
- `C90_in_brackets`
- `C90_value`
- `C90_list`
- `C90_arguments`
- `C90_default_accepted`
- `C90_default_value`
- `C90_bare_join_refuted`
- `C91_part_of_the_whole`
- `C91_exchange`
- `C91_stays_rejected`
- `C91_default`
- `C91_escape_refuted`
- `C91_number_after_refuted`
- `C92_same_message_same_text`
- `C92_message_contains_the_text`
- `C92_display_tells_less`
- `C93_values`
- `C93_parsing`
- `C93_binding`
- `C93_answers_by_name`
- `C93_sessions_with_single_variables`
- `C93_two_variables_refuted`
- `C94_only_the_reading_matters`
- `C94_accepted_alike`
- `C94_first_digit_matters_refuted`
- `C95_accepts_exactly`
- `C95_accepts_exactly_optimised`
- `C95_as_any_parser`
- `C95_as_any_declaring_parser`
- `C95_nothing_to_declare`
- `C96_dump_tells_context`
- `C96_dump_tells_parser`
- `C96_same_dump_same_answers`
- `C96_dump_text`
- `C96_one_line`
- `C96_functions_not_told_refuted`
- `C97_in_brackets`
- `C97_settled`
- `C97_difference_cancels`
- `C97_quotient_cancels`
- `C97_remainder_cancels`
- `C97_zero_factor`
- `C97_documented_example`
- `C97_accepted_is_settled`
- `C97_conditions_needed`
- `C98_same_answer`
- `C98_regrouped`
- `C98_same_on_paper`
- `C98_same_sentences`
- `C98_default_same_answer`
- `C98_division_differs`
- `C98_rounding_differs`
- `C98_declared_refuted`
- `C99_written_out`
- `C99_number_after_name_refuted`
- `C99_default_refuted`
- `C99_unused_argument_refuted`
- `C100_text`
- `C100_tame_functions`
- `C100_stages`
- `C100_default_build`
- `C100_conditions_needed`
- `C101_modules`
- `C101_remainder_refuted`
- `C102_same_text_iff_alike`
- `C102_text_is_a_key`
- `C102_stored_results`
- `C102_same_text_equal`
- `C102_limits`
- `C103_effect_on_texts`
- `C103_silent_change`
- `C104_fits_iff`
- `C104_exact`
- `C104_texts`
- `C104_simplify_for`
- `C104_units`
- `C104_remainder_by_one`
- `C105_no_failure`
- `C105_writing_fails`
- `C105_reading_fails`
- `C105_exit_status`
- `C105_unreadable_expression`
- `C105_unreadable_answer`
- `C105_first_failure`
- `C105_fine_status`
- `C106_clamp_default`
- `C106_bounds`
- `C106_stages`
- `C106_default_build`
- `C106_known_range`
- `C106_sine`
- `C106_clamp`
- `C106_divisors_refuted`
- `C106_clamp_text`
- `C106_reached`
- `C106_reached_default`
- `C106_reached_twice_refuted`

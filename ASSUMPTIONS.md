# What the property theorems assume

Written by `tools/assumptions.py` from the output of `Print Assumptions`.
803 theorems.

## ArProps.v

* `C129_values_come_back_partial`: Closed under the global context
* `C129_large_integers_come_back_refuted`: Closed under the global context
* `C129_other_values_come_back_refuted`: Closed under the global context
* `C130_formulas_come_back_partial`: Closed under the global context
* `C130_same_sheets`: Closed under the global context
* `C130_formulas_come_back_refuted`: Closed under the global context
* `C130_long_calls_come_back_refuted`: Closed under the global context
* `C131_same_node_same_formula`: Closed under the global context
* `C131_same_formula_same_node_partial`: Closed under the global context
* `C131_same_formula_same_node_refuted`: Closed under the global context

## AsProps.v

* `C97_sheet_follows_history`: Closed under the global context
* `C97_call_follows_layout`: Closed under the global context
* `C97_reads_layout`: Closed under the global context
* `C98_last_write_is_read`: Closed under the global context
* `C99_insert_rows_then_write_refuted`: Closed under the global context
* `C99_delete_columns_then_write_refuted`: Closed under the global context
* `C99_no_crash_partial`: Closed under the global context
* `C100_large_insertion_loses_value_refuted`: Closed under the global context
* `C100_large_insertion_any_store_refuted`: Closed under the global context
* `C100_written_value_kept_partial`: Closed under the global context
* `C101_computed_compaction_invisible`: Closed under the global context
* `C101_user_compaction_partial`: Closed under the global context
* `C101_user_compaction_refuted`: Closed under the global context
* `C102_stale_literal_refuted`: Closed under the global context
* `C102_result_shown_partial`: Closed under the global context
* `C103_runs_give_formats`: Closed under the global context
* `C103_slice_gives_formats`: Closed under the global context

## AyProps.v

* `C155_arguments`: Closed under the global context
* `C155_sorted`: Closed under the global context
* `C155_unique`: Closed under the global context
* `C155_idempotent`: Closed under the global context
* `C155_outside`: Closed under the global context
* `C155_index_refuted`: Closed under the global context
* `C155_overflow_refuted`: Closed under the global context
* `C155_order_refuted`: Closed under the global context
* `C155_mixed_refuted`: Closed under the global context
* `C156_columns`: Closed under the global context
* `C157_sortby`: Closed under the global context
* `C157_agrees`: Closed under the global context
* `C157_shape`: Closed under the global context
* `C158_kept`: Closed under the global context
* `C158_none`: Closed under the global context
* `C158_shape`: Closed under the global context
* `C158_determined`: Closed under the global context
* `C159_rows`: Closed under the global context
* `C159_distinct`: Closed under the global context
* `C159_columns`: Closed under the global context
* `C159_columns_refuted`: Closed under the global context
* `C160_transpose`: Closed under the global context
* `C160_twice`: Closed under the global context
* `C161_take`: Closed under the global context
* `C161_take_too_many`: Closed under the global context
* `C161_drop`: Closed under the global context
* `C161_together`: Closed under the global context
* `C161_columns_together`: Closed under the global context
* `C161_omitted_refuted`: Closed under the global context
* `C161_overflow_refuted`: Closed under the global context
* `C162_vstack`: Closed under the global context
* `C162_vstack_mismatch`: Closed under the global context
* `C162_hstack`: Closed under the global context
* `C162_hstack_mismatch`: Closed under the global context
* `C162_nothing`: Closed under the global context
* `C163_list`: Closed under the global context
* `C163_mode`: Closed under the global context
* `C164_rows`: Closed under the global context
* `C164_columns`: Closed under the global context
* `C164_outside`: Closed under the global context
* `C164_one_position`: Closed under the global context
* `C165_values`: Closed under the global context
* `C165_limits`: Closed under the global context
* `C165_small_refuted`: Closed under the global context
* `C156_only_true_is_true`: Closed under the global context
* `C165_limits_are`: Closed under the global context

## BcastProps.v

* `C42_shape`: Closed under the global context
* `C42_refused_iff`: Closed under the global context
* `C42_order_independent`: Closed under the global context
* `C42_projection_in_bounds`: Closed under the global context
* `C42_projection_identity`: Closed under the global context
* `C42_order_with_empty_axis_refuted`: Closed under the global context

## ConvProps.v

* `C46_decides`: Closed under the global context
* `C46_symmetric`: Closed under the global context
* `C46_reflexive`: Closed under the global context
* `C46_numbers`: Closed under the global context
* `C46_kinds`: Closed under the global context
* `C46_array`: Closed under the global context
* `C46_reported_delta`: Closed under the global context
* `C46_infinity_refuted`: Closed under the global context
* `C46_zero_tolerance_refuted`: Closed under the global context

## CoordProps.v

* `C01_coord_roundtrip`: Closed under the global context
* `C01_plain_coord_roundtrip`: Closed under the global context
* `C01_coord_injective`: Closed under the global context
* `C01_coord_refuses`: Closed under the global context
* `C01_with_abs`: Closed under the global context
* `C02_raw_exact`: Closed under the global context
* `C02_raw_relative_exact`: Closed under the global context
* `C02_normalize`: Closed under the global context
* `C03_letters_of_column`: Closed under the global context
* `C03_column_roundtrip`: Closed under the global context
* `C03_letters_roundtrip`: Closed under the global context
* `C03_letters_accept`: Closed under the global context
* `C03_columns_distinct`: Closed under the global context
* `C03_one_based_roundtrip`: Closed under the global context
* `C03_one_based_accept`: Closed under the global context
* `C03_one_based_never_panics_refuted`: Closed under the global context
* `C03_one_based_panic_exact`: Closed under the global context
* `C04_a1_roundtrip`: Closed under the global context
* `C04_a1_exact`: Closed under the global context
* `C04_a1_accepts_on_sheet`: Closed under the global context
* `C04_plain_parse_agrees`: Closed under the global context
* `C05_signed_conversion_refuted`: Closed under the global context
* `C05_signed_conversion_exact`: Closed under the global context
* `C05_signed_conversion_partial`: Closed under the global context
* `C06_rebase_exact`: Closed under the global context
* `C06_rebase_compose`: Closed under the global context
* `C06_rebase_undo`: Closed under the global context
* `C06_offset_exact`: Closed under the global context
* `C07_grid_decodes`: Closed under the global context
* `C07_symbol_decodes`: Closed under the global context
* `C07_invalid_decodes`: Closed under the global context
* `C07_disjoint`: Closed under the global context
* `C07_kinds_exclusive`: Closed under the global context
* `C07_order`: Closed under the global context

## CrProps.v

* `C138_wildcards_partial`: Closed under the global context
* `C138_translation`: Closed under the global context
* `C138_byte_refuted`: Closed under the global context
* `C138_escape_refuted`: Closed under the global context
* `C139_booleans`: Closed under the global context
* `C141_white_space`: Closed under the global context
* `C141_quoted`: Closed under the global context
* `C142_single_cell`: Closed under the global context
* `C139_numbers`: Closed under the global context
* `C139_equal_numbers`: Closed under the global context
* `C139_texts`: Closed under the global context
* `C139_agree_partial`: Closed under the global context
* `C139_blank_refuted`: Closed under the global context
* `C139_near_refuted`: Closed under the global context
* `C139_text_refuted`: Closed under the global context
* `C139_empty_refuted`: Closed under the global context
* `C139_special_refuted`: Closed under the global context
* `C140_number_refuted`: Closed under the global context
* `C140_boolean_refuted`: Closed under the global context
* `C140_storage_partial`: Closed under the global context
* `C141_ordering`: Closed under the global context
* `C141_opposite`: Closed under the global context
* `C141_number`: Closed under the global context
* `C141_spaces`: Closed under the global context
* `C141_equal_wildcard_refuted`: Closed under the global context
* `C141_order_text_refuted`: Closed under the global context
* `C141_boolean_refuted`: Closed under the global context
* `C141_zero_refuted`: Closed under the global context
* `C142_countif`: Closed under the global context
* `C142_countifs_partial`: Closed under the global context
* `C142_sumifs_partial`: Closed under the global context
* `C142_sumif`: Closed under the global context
* `C142_below_refuted`: Closed under the global context
* `C142_neighbour_refuted`: Closed under the global context
* `C143_order_partial`: Closed under the global context
* `C143_sum_order_partial`: Closed under the global context
* `C143_shape_refuted`: Closed under the global context

## DateProps.v

* `C08_leap_rule`: Closed under the global context
* `C08_date_serial_date`: Closed under the global context
* `C08_later_dates_larger_serials`: Closed under the global context
* `C08_next_day_next_serial`: Closed under the global context
* `C08_phantom_serial_unused`: Closed under the global context
* `C08_datetime_roundtrip`: Closed under the global context
* `C08_datetime_in_range`: Closed under the global context
* `C09_serial_accepted_iff`: Closed under the global context
* `C09_date_iff_accepted`: Closed under the global context
* `C09_display_starts`: Closed under the global context
* `C09_display_steps`: Closed under the global context
* `C09_display_order`: Closed under the global context
* `C09_display_total`: Closed under the global context
* `C10_edate`: Closed under the global context
* `C10_edate_only`: Closed under the global context
* `C10_edate_error`: Closed under the global context
* `C10_eomonth`: Closed under the global context
* `C10_eomonth_only`: Closed under the global context
* `C10_eomonth_two_steps`: Closed under the global context
* `C10_edate_two_steps_month`: Closed under the global context
* `C11_date_normalises`: Closed under the global context
* `C11_date_only`: Closed under the global context
* `C11_date_normalises_all_years_refuted`: Closed under the global context
* `C47_edate_returns_illegal_serial_refuted`: Closed under the global context
* `C47_eomonth_past_9999_refuted`: Closed under the global context
* `C47_date_returns_illegal_serial_refuted`: Closed under the global context
* `C47_workday_returns_illegal_serial_refuted`: Closed under the global context
* `C47_legal_result_decodes`: Closed under the global context
* `C48_years_complete`: Closed under the global context
* `C48_months_complete`: Closed under the global context
* `C48_months_split`: Closed under the global context
* `C48_days`: Closed under the global context
* `C48_accepted_in_order`: Closed under the global context
* `C48_md_negative_refuted`: Closed under the global context
* `C48_days_not_serial_difference_refuted`: Closed under the global context
* `C49_networkdays_counts`: Closed under the global context
* `C49_networkdays_additive`: Closed under the global context
* `C49_five_a_week`: Closed under the global context
* `C49_workday_forward`: Closed under the global context
* `C49_workday_backward`: Closed under the global context
* `C49_workday_zero`: Closed under the global context
* `C49_workday_terminates`: Closed under the global context
* `C49_weekend_code_leaves_workday`: Closed under the global context
* `C49_weekend_text_leaves_workday`: Closed under the global context
* `C50_weekday`: Closed under the global context
* `C50_weekdays_cycle`: Closed under the global context
* `C50_weekday_weekend_agree_refuted`: Closed under the global context
* `C50_weekday_accepts_illegal_refuted`: Closed under the global context
* `C51_time_wraps`: Closed under the global context
* `C51_time_overflow_refuted`: Closed under the global context

## DbProps.v

* `C191_selection`: Closed under the global context
* `C191_wanted_partial`: Closed under the global context
* `C191_blank_row_refuted`: Closed under the global context
* `C191_number_heading_refuted`: Closed under the global context
* `C191_failures`: Closed under the global context
* `C192_records`: Closed under the global context
* `C192_counts`: Closed under the global context
* `C192_criteria_rows`: Closed under the global context
* `C192_criteria_columns`: Closed under the global context
* `C192_append`: Closed under the global context
* `C192_more_rows_partial`: Closed under the global context
* `C193_field`: Closed under the global context
* `C193_no_field`: Closed under the global context
* `C193_frame`: Closed under the global context
* `C194_values`: Closed under the global context
* `C194_count_partial`: Closed under the global context
* `C194_text_counted_refuted`: Closed under the global context
* `C194_average_refuted`: Closed under the global context
* `C194_counta`: Closed under the global context
* `C194_empty_text_refuted`: Closed under the global context
* `C194_extremes`: Closed under the global context
* `C194_deviation`: Closed under the global context
* `C194_variance`: Closed under the global context
* `C195_dget`: Closed under the global context
* `C195_dget_counta`: Closed under the global context
* `C195_lookup`: Closed under the global context

## DirtyProps.v

* `C34_edit_schedules_exactly`: Closed under the global context
* `C34_spill_complete`: Closed under the global context
* `C34_spill_extra_refuted`: Closed under the global context
* `C35_deferred_equals_immediate`: Closed under the global context
* `C35_flush_exact`: Closed under the global context
* `C35_spill_refuted`: Closed under the global context
* `C73_name_update_refuted`: Closed under the global context
* `C73_no_readers_partial`: Closed under the global context
* `C74_insert_refuted`: Closed under the global context
* `C74_insert_marks_partial`: Closed under the global context

## EdgeProps.v

* `C17_store_exact`: Closed under the global context
* `C17_compaction_silent`: Closed under the global context
* `C17_no_repeats`: Closed under the global context
* `C17_edge_count`: Closed under the global context
* `C18_early_edge_refuted`: Closed under the global context
* `C70_second_load_refuted`: Closed under the global context
* `C70_load_partial`: Closed under the global context

## EvProps.v

* `C166_cells`: Closed under the global context
* `C166_compared_cells`: Closed under the global context
* `C166_operands`: Closed under the global context
* `C166_numbers`: Closed under the global context
* `C166_result`: Closed under the global context
* `C166_errors`: Closed under the global context
* `C166_errors_refuted`: Closed under the global context
* `C166_concat`: Closed under the global context
* `C166_concat_cells_refuted`: Closed under the global context
* `C166_evaluated`: Closed under the global context
* `C167_consistent`: Closed under the global context
* `C167_unequal`: Closed under the global context
* `C167_mirrored`: Closed under the global context
* `C167_texts`: Closed under the global context
* `C167_numbers`: Closed under the global context
* `C167_order_refuted`: Closed under the global context
* `C167_difference_refuted`: Closed under the global context
* `C168_coincidence`: Closed under the global context
* `C168_closed`: Closed under the global context
* `C168_usable`: Closed under the global context
* `C168_unused`: Closed under the global context
* `C168_bound`: Closed under the global context
* `C168_beta`: Closed under the global context
* `C168_registered_refuted`: Closed under the global context
* `C168_passed_refuted`: Closed under the global context
* `C168_at_refuted`: Closed under the global context
* `C168_range_refuted`: Closed under the global context
* `C169_tree`: Closed under the global context
* `C169_stored`: Closed under the global context
* `C169_more_fuel`: Closed under the global context
* `C170_same`: Closed under the global context
* `C170_unknown_refuted`: Closed under the global context
* `C170_colon_refuted`: Closed under the global context
* `C170_call_refuted`: Closed under the global context
* `C170_call`: Closed under the global context
* `C171_moved`: Closed under the global context
* `C171_template`: Closed under the global context
* `C171_at_refuted`: Closed under the global context
* `C172_reference`: Closed under the global context
* `C172_range`: Closed under the global context
* `C172_one_cell`: Closed under the global context
* `C172_arrays`: Closed under the global context
* `C172_single_refuted`: Closed under the global context

## EvProps2.v

* `C166_unary_cells`: Closed under the global context
* `C166_array_literal`: Closed under the global context
* `C168_nested`: Closed under the global context
* `C168_let`: Closed under the global context
* `C168_let_refused`: Closed under the global context
* `C168_lambda`: Closed under the global context
* `C168_call`: Closed under the global context

## EvProps3.v

* `C166_operand_values`: Closed under the global context
* `C166_unary_value`: Closed under the global context
* `C166_unary_any_cells`: Closed under the global context
* `C168_chosen_argument`: Closed under the global context
* `C172_expressions`: Closed under the global context

## FormulaProps.v

* `C79_displayed_formula_refuted`: Closed under the global context
* `C79_union_argument_refuted`: Closed under the global context
* `C79_display_unreadable_refuted`: Closed under the global context
* `C79_display_round_trip_partial`: Closed under the global context
* `C79_reference_is_one_operand`: Closed under the global context
* `C80_tokens_spell_the_formula`: Closed under the global context
* `C80_token_shapes`: Closed under the global context
* `C80_error_qualifier_refuted`: Closed under the global context
* `C81_brackets_match`: Closed under the global context
* `C82_parts_in_order`: Closed under the global context
* `C83_tokenizer_ends`: Closed under the global context
* `C83_parser_ends`: Closed under the global context
* `C83_formula_ends`: Closed under the global context
* `C84_range_to_call_refuted`: Closed under the global context
* `C84_range_from_call_partial`: Closed under the global context
* `C84_union_in_call_refuted`: Closed under the global context
* `C85_nesting_unbounded_refuted`: Closed under the global context
* `C85_depth_at_most_linear_partial`: Closed under the global context

## FpProps.v

* `C107_has`: Closed under the global context
* `C107_intersects`: Closed under the global context
* `C107_intersection`: Closed under the global context
* `C107_contains`: Closed under the global context
* `C107_normalized`: Closed under the global context
* `C107_shift_keeps`: Closed under the global context
* `C107_shift_none`: Closed under the global context
* `C107_shift_exact`: Closed under the global context
* `C108_query`: Closed under the global context
* `C108_query_bounded`: Closed under the global context
* `C109_budget_completes_partial`: Closed under the global context
* `C109_budget_kept`: Closed under the global context
* `C109_one_row_refuted`: Closed under the global context
* `C110_summary`: Closed under the global context
* `C110_read_regions`: Closed under the global context
* `C111_project_sound`: Closed under the global context
* `C111_supported`: Closed under the global context
* `C111_in_result`: Closed under the global context
* `C112_project_exact_partial`: Closed under the global context
* `C112_whole_columns_refuted`: Closed under the global context
* `C113_closure_sound`: Closed under the global context
* `C113_no_fallback`: Closed under the global context
* `C114_closure_exact_partial`: Closed under the global context
* `C114_whole_columns_refuted`: Closed under the global context
* `C115_merge`: Closed under the global context
* `C115_demanded`: Closed under the global context

## GramProps.v

* `C104_grammar_is_parsed`: Closed under the global context
* `C104_one_reading`: Closed under the global context
* `C105_words_and_operators`: Closed under the global context
* `C106_blank_is_intersection`: Closed under the global context
* `C106_colon_between_sheets`: Closed under the global context

## InProps.v

* `C196_one_kind`: Closed under the global context
* `C196_errors`: Closed under the global context
* `C196_na`: Closed under the global context
* `C196_failure`: Closed under the global context
* `C196_iserror_refuted`: Closed under the global context
* `C196_arity`: Closed under the global context
* `C197_iferror_partial`: Closed under the global context
* `C197_ifna_partial`: Closed under the global context
* `C197_failure_refuted`: Closed under the global context
* `C197_one_cell_refuted`: Closed under the global context
* `C198_type_partial`: Closed under the global context
* `C198_type_of_error_refuted`: Closed under the global context
* `C198_n`: Closed under the global context
* `C198_t`: Closed under the global context
* `C198_n_or_t`: Closed under the global context
* `C198_range_refuted`: Closed under the global context
* `C198_failure`: Closed under the global context
* `C199_parity_partial`: Closed under the global context
* `C199_next_partial`: Closed under the global context
* `C199_others`: Closed under the global context
* `C199_failure`: Closed under the global context
* `C199_whole_partial`: Closed under the global context
* `C199_large_refuted`: Closed under the global context
* `C199_dates_refuted`: Closed under the global context
* `C200_numbers`: Closed under the global context
* `C200_tells_apart`: Closed under the global context
* `C200_error_type`: Closed under the global context

## InProps2.v

* `C199_rounding`: Closed under the global context

## IntervalProps.v

* `C19_query_exact`: Closed under the global context
* `C19_remove_tells`: Closed under the global context
* `C19_no_interval_twice`: Closed under the global context
* `C19_size`: Closed under the global context
* `C20_index_exact`: Closed under the global context
* `C21_never_overlap`: Closed under the global context
* `C21_refused_exactly_partial`: Closed under the global context
* `C21_granted_holds`: Closed under the global context
* `C21_refused_changes_nothing`: Closed under the global context
* `C21_release_exact`: Closed under the global context
* `C21_own_region_refuted`: Closed under the global context
* `C71_rows_partial`: Closed under the global context
* `C71_columns_refuted`: Closed under the global context

## LeaseProps.v

* `C33_not_lost`: Closed under the global context
* `C33_ack_exact`: Closed under the global context
* `C33_stale_lease`: Closed under the global context
* `C33_lease_all`: Closed under the global context
* `C33_nothing_invented`: Closed under the global context

## LgProps.v

* `C184_and_partial`: Closed under the global context
* `C184_or_partial`: Closed under the global context
* `C184_order_partial`: Closed under the global context
* `C184_short_circuit`: Closed under the global context
* `C184_failure_hides_refuted`: Closed under the global context
* `C184_failure`: Closed under the global context
* `C185_de_morgan`: Closed under the global context
* `C185_not_not`: Closed under the global context
* `C185_not`: Closed under the global context
* `C185_xor`: Closed under the global context
* `C186_xor_partial`: Closed under the global context
* `C186_xor_failure`: Closed under the global context
* `C186_last_error_refuted`: Closed under the global context
* `C186_arrays_in_xor`: Closed under the global context
* `C186_literals_in_and_or`: Closed under the global context
* `C186_computed_arrays_refuted`: Closed under the global context
* `C187_if_partial`: Closed under the global context
* `C187_if_error_refuted`: Closed under the global context
* `C187_ifs_first`: Closed under the global context
* `C187_ifs_none`: Closed under the global context
* `C187_ifs_is_if`: Closed under the global context
* `C187_failure`: Closed under the global context
* `C187_arity`: Closed under the global context
* `C188_iferror_partial`: Closed under the global context
* `C188_ifna_partial`: Closed under the global context
* `C188_one_cell_refuted`: Closed under the global context
* `C188_ifna_failure_refuted`: Closed under the global context
* `C189_first_equal`: Closed under the global context
* `C189_default`: Closed under the global context
* `C189_error`: Closed under the global context
* `C189_failure`: Closed under the global context
* `C189_failed_expression`: Closed under the global context
* `C189_equality`: Closed under the global context
* `C189_blank_refuted`: Closed under the global context
* `C189_transitive_refuted`: Closed under the global context
* `C190_choose`: Closed under the global context
* `C190_choose_is_switch`: Closed under the global context
* `C190_index`: Closed under the global context
* `C190_arity`: Closed under the global context

## LiveGraphProps.v

* `C15_live_graph`: Closed under the global context
* `C15_no_cycles`: Closed under the global context

## LookupProps.v

* `C43_wildcard`: Closed under the global context
* `C43_no_special_characters`: Closed under the global context
* `C43_escaped_text_matches_only_itself`: Closed under the global context
* `C43_lookup_text_cell`: Closed under the global context
* `C44_match_ascending`: Closed under the global context
* `C44_match_descending`: Closed under the global context
* `C44_match_unsorted_is_na`: Closed under the global context
* `C44_binary_search_ascending`: Closed under the global context
* `C44_lookup_ascending`: Closed under the global context
* `C44_xmatch_closest`: Closed under the global context
* `C44_xlookup_closest`: Closed under the global context
* `C44_xmatch_text_neighbour_refuted`: Closed under the global context
* `C44_xmatch_text_only_exact`: Closed under the global context
* `C53_clean_order`: Closed under the global context
* `C53_clean_transitive`: Closed under the global context
* `C53_text_cycle_refuted`: Closed under the global context
* `C53_reflexive_refuted`: Closed under the global context
* `C53_equality_not_transitive_refuted`: Closed under the global context
* `C54_index_agrees`: Closed under the global context
* `C54_tolerance_refuted`: Closed under the global context
* `C54_midnight_refuted`: Closed under the global context
* `C54_inf_text_refuted`: Closed under the global context
* `C55_text_both_directions`: Closed under the global context
* `C55_last_match`: Closed under the global context
* `C55_number_directions_refuted`: Closed under the global context
* `C56_error_reported_refuted`: Closed under the global context
* `C56_error_never_selected`: Closed under the global context
* `C57_same_on_sorted`: Closed under the global context
* `C57_unsorted_refuted`: Closed under the global context

## NuProps.v

* `C132_reading`: Closed under the global context
* `C132_writing`: Closed under the global context
* `C132_round_trip`: Closed under the global context
* `C133_cross`: Closed under the global context
* `C133_back`: Closed under the global context
* `C134_bits`: Closed under the global context
* `C134_refused`: Closed under the global context
* `C134_shift_partial`: Closed under the global context
* `C134_shift_refuted`: Closed under the global context
* `C135_roman`: Closed under the global context
* `C135_arabic`: Closed under the global context
* `C135_round_trip_partial`: Closed under the global context
* `C135_forms_refuted`: Closed under the global context
* `C135_syntax_refuted`: Closed under the global context
* `C136_gcd`: Closed under the global context
* `C136_lcm_partial`: Closed under the global context
* `C136_lcm_refuted`: Closed under the global context
* `C137_decimal`: Closed under the global context
* `C137_base`: Closed under the global context
* `C137_round_trip`: Closed under the global context
* `C137_large_refuted`: Closed under the global context

## NuProps2.v

* `C135_form_kinds`: Closed under the global context

## OvProps.v

* `C92_reads_follow_history`: Closed under the global context
* `C92_formats_follow_history`: Closed under the global context
* `C92_offsets_fit`: Closed under the global context
* `C93_iter_lists_the_map`: Closed under the global context
* `C93_len`: Closed under the global context
* `C93_is_empty`: Closed under the global context
* `C93_has_any_in_range`: Closed under the global context
* `C94_runs_read_back_refuted`: Closed under the global context
* `C94_runs_read_back_partial`: Closed under the global context
* `C94_runs_exact_partial`: Closed under the global context
* `C95_deltas_are_exact`: Closed under the global context
* `C95_constructors`: Closed under the global context
* `C96_estimate_exact_refuted`: Closed under the global context
* `C96_estimate_bound`: Closed under the global context
* `C96_estimate_exact_partial`: Closed under the global context
* `C96_estimate_cells_or_fragments_partial`: Closed under the global context

## OvProps2.v

* `C92_joined_runs`: Closed under the global context

## PkProps.v

* `C16_splice_refuted`: Closed under the global context
* `C16_newest_edge`: Closed under the global context
* `C16_clear_window_partial`: Closed under the global context
* `C16_step_partial`: Closed under the global context
* `C16_rebuild`: Closed under the global context
* `C16_refusal_exact`: Closed under the global context
* `C16_refusal_path`: Closed under the global context
* `C75_layers_partial`: Closed under the global context
* `C75_unregistered_refuted`: Closed under the global context
* `C75_zero_width_refuted`: Closed under the global context
* `C76_budget_refuted`: Closed under the global context
* `C76_never_ends`: Closed under the global context
* `C76_ends_partial`: Closed under the global context

## RcProps.v

* `C173_all_settled`: Closed under the global context
* `C173_clean_is_settled`: Closed under the global context
* `C174_pool_is_invisible`: Closed under the global context
* `C175_cells_like_all`: Closed under the global context
* `C176_content_decides`: Closed under the global context
* `C177_reader_of_array_refuted`: Closed under the global context
* `C177_stays_stale_refuted`: Closed under the global context
* `C178_volatile_stays_dirty_partial`: Closed under the global context
* `C178_former_volatile_refuted`: Closed under the global context

## RefProps.v

* `C28_insert_keeps_references`: Closed under the global context
* `C28_reported_change_is_one`: Closed under the global context
* `C29_delete_keeps_survivors`: Closed under the global context
* `C30_half_open_partial`: Closed under the global context
* `C30_half_open_refuted`: Closed under the global context
* `C31_copy_partial`: Closed under the global context
* `C31_lambda_call_refuted`: Closed under the global context
* `C31_array_literal_refuted`: Closed under the global context
* `C31_above_first_row_refuted`: Closed under the global context
* `C31_below_last_row_refuted`: Closed under the global context
* `C32_move_partial`: Closed under the global context
* `C32_lambda_call_refuted`: Closed under the global context
* `C32_sheet_name_case_refuted`: Closed under the global context
* `C45_names_partial`: Closed under the global context
* `C45_corner_deleted_refuted`: Closed under the global context
* `C68_delete_never_crashes_partial`: Closed under the global context
* `C68_insert_crashes_refuted`: Closed under the global context
* `C68_insert_leaves_sheet_refuted`: Closed under the global context
* `C69_moved_formula_partial`: Closed under the global context
* `C69_relative_reference_refuted`: Closed under the global context

## RfProps.v

* `C179_index_names_the_cell_partial`: Closed under the global context
* `C179_one_index_partial`: Closed under the global context
* `C179_row_then_column_partial`: Closed under the global context
* `C179_large_index_refuted`: Closed under the global context
* `C179_panic_refuted`: Closed under the global context
* `C179_open_range_refuted`: Closed under the global context
* `C179_open_range_sheet_partial`: Closed under the global context
* `C179_errors_pass`: Closed under the global context
* `C180_literal_as_range_partial`: Closed under the global context
* `C180_one_index_partial`: Closed under the global context
* `C180_literal_value`: Closed under the global context
* `C180_ragged_rows`: Closed under the global context
* `C180_other_index`: Closed under the global context
* `C180_large_index_refuted`: Closed under the global context
* `C181_offset_moves_partial`: Closed under the global context
* `C181_offset_off_the_top_partial`: Closed under the global context
* `C181_moves_add_partial`: Closed under the global context
* `C181_offset_as_index_partial`: Closed under the global context
* `C181_below_the_sheet_refuted`: Closed under the global context
* `C181_far_move_refuted`: Closed under the global context
* `C181_panic_refuted`: Closed under the global context
* `C182_place_and_size`: Closed under the global context
* `C182_of_offset`: Closed under the global context
* `C182_open_sides`: Closed under the global context
* `C183_indirect_of_address_partial`: Closed under the global context
* `C183_address_refuses`: Closed under the global context
* `C183_colon_refuted`: Closed under the global context
* `C183_r1c1_refuted`: Closed under the global context
* `C183_indirect_names`: Closed under the global context
* `C183_indirect_nothing`: Closed under the global context

## RtProps.v

* `C86_displayed_reference_partial`: Closed under the global context
* `C86_displayed_reference_refuted`: Closed under the global context
* `C86_external_workbook`: Closed under the global context
* `C86_blanks_before_items`: Closed under the global context
* `C87_reference_bounds_partial`: Closed under the global context
* `C87_entering_a_formula_panics_refuted`: Closed under the global context
* `C87_panics_exactly`: Closed under the global context
* `C87_cells_never_panic`: Closed under the global context
* `C88_dependencies_cover_the_range`: Closed under the global context
* `C88_corner_order_refuted`: Closed under the global context
* `C88_corners_out_of_order`: Closed under the global context
* `C89_quoted_separately_partial`: Closed under the global context
* `C89_quoted_together_refuted`: Closed under the global context
* `C90_escaped_column_partial`: Closed under the global context
* `C90_escaped_this_row_partial`: Closed under the global context
* `C90_exclamation_mark_refuted`: Closed under the global context
* `C91_open_cell_partial`: Closed under the global context
* `C91_open_range_partial`: Closed under the global context
* `C91_second_sheet_partial`: Closed under the global context
* `C91_mismatch_accepted_refuted`: Closed under the global context
* `C79_cell_and_range_references`: Closed under the global context

## SccProps.v

* `C58_exact`: Closed under the global context
* `C58_history_free`: Closed under the global context
* `C59_budget`: Closed under the global context
* `C60_no_missed_cycle`: Closed under the global context
* `C60_phantom_cycle_refuted`: Closed under the global context
* `C60_transient_array_refuted`: Closed under the global context
* `C61_error_partial`: Closed under the global context
* `C61_survivors_refuted`: Closed under the global context
* `C62_ends`: Closed under the global context
* `C62_passes`: Closed under the global context
* `C62_converged`: Closed under the global context
* `C62_enough`: Closed under the global context
* `C62_over_max_refuted`: Closed under the global context

## SchedProps.v

* `C12_components`: Closed under the global context
* `C12_circular`: Closed under the global context
* `C13_schedule`: Closed under the global context
* `C13_schedule_virtual`: Closed under the global context
* `C14_never_fails`: Closed under the global context
* `C14_virtual_self_refuted`: Closed under the global context
* `C14_unmirrored_refuted`: Closed under the global context

## SheetProps.v

* `C40_lookup_any_case`: Closed under the global context
* `C40_lookup_only_live`: Closed under the global context
* `C40_live_names_differ`: Closed under the global context
* `C40_create_fresh`: Closed under the global context
* `C40_live_ids_below_created`: Closed under the global context
* `C40_create_existing`: Closed under the global context
* `C40_remove_only_that_sheet`: Closed under the global context
* `C40_rename_only_that_sheet`: Closed under the global context
* `C40_rename_refused_iff_taken`: Closed under the global context
* `C40_positions`: Closed under the global context
* `C40_span_counts`: Closed under the global context
* `C40_listing`: Closed under the global context
* `C40_never_without_sheet`: Closed under the global context
* `C40_ids_never_reused_refuted`: Closed under the global context
* `C40_added_sheet_is_listed_refuted`: Closed under the global context
* `C52_rename_sheet`: Closed under the global context
* `C52_successful_rename_takes_effect_refuted`: Closed under the global context
* `C41_resolve_intern`: Closed under the global context
* `C41_handles_equal_iff`: Closed under the global context
* `C41_handles_stay_valid`: Closed under the global context
* `C41_intern_total`: Closed under the global context
* `C41_get_id_inverse`: Closed under the global context

## SpillProps.v

* `C37_commit`: Closed under the global context
* `C37_fault_values`: Closed under the global context
* `C37_fault_formulas_partial`: Closed under the global context
* `C37_fault_formulas_refuted`: Closed under the global context
* `C37_result_shown`: Closed under the global context
* `C37_result_blocked`: Closed under the global context
* `C37_plan_exact`: Closed under the global context
* `C38_one_owner`: Closed under the global context
* `C38_one_owner_editor`: Closed under the global context
* `C38_direct_edit_refuted`: Closed under the global context
* `C38_unplanned_refuted`: Closed under the global context
* `C77_typed_formula_refuted`: Closed under the global context
* `C77_typed_value_refuted`: Closed under the global context
* `C77_unowned_partial`: Closed under the global context
* `C78_editor_value`: Closed under the global context
* `C78_editor_formula`: Closed under the global context
* `C78_direct_refuted`: Closed under the global context
* `C78_direct_blocks_refuted`: Closed under the global context

## SsProps.v

* `C116_regions_move_as_their_cells`: Closed under the global context
* `C117_kept_and_moved_spans_follow`: Closed under the global context
* `C118_halves_follow_partial`: Closed under the global context
* `C118_shared_template_refuted`: Closed under the global context
* `C119_cut_spans_follow_partial`: Closed under the global context
* `C119_lagged_refuted`: Closed under the global context
* `C119_distant_refuted`: Closed under the global context
* `C119_other_sheet_refuted`: Closed under the global context
* `C119_total_refuted`: Closed under the global context
* `C119_origin_refuted`: Closed under the global context
* `C120_literals_stay_partial`: Closed under the global context
* `C120_slopes_refuted`: Closed under the global context
* `C121_histories_partial`: Closed under the global context
* `C122_untouched_spans`: Closed under the global context
* `C122_dirty_cells`: Closed under the global context
* `C123_fresh_summaries`: Closed under the global context

## SsProps2.v

* `C117_one_rewrite`: Closed under the global context

## StripeProps.v

* `C36_found_exactly`: Closed under the global context
* `C36_never_without_reason`: Closed under the global context
* `C72_whole_columns_refuted`: Closed under the global context
* `C72_bulk_refuted`: Closed under the global context
* `C72_bulk_partial`: Closed under the global context

## TfProps.v

* `C144_left_right`: Closed under the global context
* `C144_mid`: Closed under the global context
* `C144_reassemble`: Closed under the global context
* `C144_mid_panics_refuted`: Closed under the global context
* `C144_logical_refuted`: Closed under the global context
* `C144_same_text`: Closed under the global context
* `C145_replace`: Closed under the global context
* `C145_beyond`: Closed under the global context
* `C145_identity`: Closed under the global context
* `C145_end_refuted`: Closed under the global context
* `C146_find`: Closed under the global context
* `C146_mid_at`: Closed under the global context
* `C146_empty_refuted`: Closed under the global context
* `C147_search`: Closed under the global context
* `C147_case`: Closed under the global context
* `C147_case_refuted`: Closed under the global context
* `C147_tilde_refuted`: Closed under the global context
* `C148_substitute`: Closed under the global context
* `C148_instance`: Closed under the global context
* `C148_count`: Closed under the global context
* `C148_empty`: Closed under the global context
* `C149_around`: Closed under the global context
* `C149_which`: Closed under the global context
* `C149_last_refuted`: Closed under the global context

## TfProps2.v

* `C150_split`: Closed under the global context
* `C150_several`: Closed under the global context
* `C150_ignore_empty`: Closed under the global context
* `C150_rows`: Closed under the global context
* `C150_empty_row_refuted`: Closed under the global context
* `C150_case_partial`: Closed under the global context
* `C150_case_panics_refuted`: Closed under the global context
* `C150_case_loses_refuted`: Closed under the global context
* `C151_concat`: Closed under the global context
* `C151_concat_error`: Closed under the global context
* `C151_textjoin`: Closed under the global context
* `C151_textjoin_error`: Closed under the global context
* `C151_round_trip`: Closed under the global context
* `C151_round_trip_split`: Closed under the global context
* `C151_concatenate_unlimited`: Closed under the global context
* `C152_rept_partial`: Closed under the global context
* `C152_sound`: Closed under the global context
* `C152_bytes_refuted`: Closed under the global context
* `C152_panics_refuted`: Closed under the global context
* `C153_unichar`: Closed under the global context
* `C153_unicode`: Closed under the global context
* `C153_unichar_rejects`: Closed under the global context
* `C153_char_partial`: Closed under the global context
* `C153_char_refuted`: Closed under the global context
* `C153_char_rejects`: Closed under the global context
* `C154_trim`: Closed under the global context
* `C154_trim_again`: Closed under the global context
* `C154_clean`: Closed under the global context
* `C154_case`: Closed under the global context
* `C154_asc`: Closed under the global context
* `C154_exact`: Closed under the global context
* `C154_proper`: Closed under the global context
* `C154_proper_word`: Closed under the global context

## TfProps3.v

* `C144_integer_text`: Closed under the global context
* `C144_number_text`: Closed under the global context
* `C144_counts`: Closed under the global context
* `C146_start`: Closed under the global context
* `C149_first`: Closed under the global context
* `C151_flags`: Closed under the global context
* `C154_asc_chars`: Closed under the global context
* `C132_numbers`: Closed under the global context
* `C134_cut`: Closed under the global context
* `C135_form_argument`: Closed under the global context

## TkProps.v

* `C124_equal_keys_mean_copies`: Closed under the global context
* `C124_keys_decide_support`: Closed under the global context
* `C125_equal_parameterized_keys`: Closed under the global context
* `C125_slots_correspond`: Closed under the global context
* `C125_slots_are_literals`: Closed under the global context
* `C126_placement_evaluates_own_formula_partial`: Closed under the global context
* `C126_placement_evaluates_own_formula_refuted`: Closed under the global context
* `C127_span_values`: Closed under the global context
* `C127_equal_keys_equal_sight`: Closed under the global context
* `C128_every_placement_formatted_refuted`: Closed under the global context
* `C128_every_placement_formatted_partial`: Closed under the global context

## TkProps2.v

* `C124_supported_shape`: Closed under the global context
* `C127_references`: Closed under the global context

## TxProps.v

* `C26_textbook`: Closed under the global context
* `C26_rollback`: Closed under the global context
* `C26_one_at_a_time`: Closed under the global context
* `C26_links_refuted`: Closed under the global context
* `C26_clear_refuted`: Closed under the global context
* `C27_refuted`: Closed under the global context
* `C27_forgotten_refuted`: Closed under the global context
* `C27_savepoint_partial`: Closed under the global context

## UndoProps.v

* `C22_textbook`: Closed under the global context
* `C23_refuted`: Closed under the global context
* `C23_undo_available_partial`: Closed under the global context
* `C24_refuted`: Closed under the global context
* `C25_refuted`: Closed under the global context
* `C25_capped_partial`: Closed under the global context
* `C63_refuted`: Closed under the global context
* `C63_formula_over_value_partial`: Closed under the global context
* `C64_refuted_after_undo`: Closed under the global context
* `C64_refuted_capped`: Closed under the global context
* `C64_eager_partial`: Closed under the global context
* `C64_no_history_partial`: Closed under the global context
* `C65_refuted`: Closed under the global context
* `C65_undo_after_recalculation_partial`: Closed under the global context
* `C66_refuted`: Closed under the global context
* `C66_grouped_partial`: Closed under the global context
* `C67_refuted`: Closed under the global context
* `C67_linked_partial`: Closed under the global context
* `C22_nested_actions`: Closed under the global context

## VisProps.v

* `C39_one_call`: Closed under the global context
* `C39_session`: Closed under the global context
* `C39_either_source`: Closed under the global context
* `C39_flag_exact`: Closed under the global context
* `C39_version`: Closed under the global context
* `C39_canonical`: Closed under the global context
* `C39_empty_iff_all_visible`: Closed under the global context
* `C39_insert_delete`: Closed under the global context
* `C39_rows_hidden_pointwise`: Closed under the global context
* `C39_insert_delete_without_bound_refuted`: Closed under the global context

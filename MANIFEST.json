{
 "claims": [
  {
   "property": "C01",
   "status": "proved",
   "theorems": [
    "C01_coord_roundtrip",
    "C01_plain_coord_roundtrip",
    "C01_coord_injective",
    "C01_coord_refuses",
    "C01_with_abs"
   ],
   "note": ""
  },
  {
   "property": "C02",
   "status": "proved",
   "theorems": [
    "C02_raw_exact",
    "C02_raw_relative_exact",
    "C02_normalize"
   ],
   "note": ""
  },
  {
   "property": "C03",
   "status": "proved",
   "theorems": [
    "C03_letters_of_column",
    "C03_column_roundtrip",
    "C03_letters_roundtrip",
    "C03_letters_accept",
    "C03_columns_distinct",
    "C03_one_based_roundtrip",
    "C03_one_based_accept",
    "C03_one_based_never_panics_refuted",
    "C03_one_based_panic_exact"
   ],
   "note": "Also: one letter string (MWLQKWV, any case) overflows u32 in the one-based conversion; see C03_one_based_never_panics_refuted."
  },
  {
   "property": "C04",
   "status": "proved",
   "theorems": [
    "C04_a1_roundtrip",
    "C04_a1_exact",
    "C04_a1_accepts_on_sheet",
    "C04_plain_parse_agrees"
   ],
   "note": ""
  },
  {
   "property": "C05",
   "status": "partial",
   "theorems": [
    "C05_signed_conversion_refuted",
    "C05_signed_conversion_exact",
    "C05_signed_conversion_partial"
   ],
   "note": "False of the code: the i64->u32 casts truncate, so row 2^32 is accepted as row 0 (C05_signed_conversion_refuted). Exact acceptance and the sub-2^32 case are proved."
  },
  {
   "property": "C06",
   "status": "proved",
   "theorems": [
    "C06_rebase_exact",
    "C06_rebase_compose",
    "C06_rebase_undo",
    "C06_offset_exact"
   ],
   "note": ""
  },
  {
   "property": "C07",
   "status": "proved",
   "theorems": [
    "C07_grid_decodes",
    "C07_symbol_decodes",
    "C07_invalid_decodes",
    "C07_disjoint",
    "C07_kinds_exclusive",
    "C07_order"
   ],
   "note": ""
  },
  {
   "property": "C08",
   "status": "proved",
   "theorems": [
    "C08_leap_rule",
    "C08_date_serial_date",
    "C08_later_dates_larger_serials",
    "C08_next_day_next_serial",
    "C08_phantom_serial_unused",
    "C08_datetime_roundtrip",
    "C08_datetime_in_range"
   ],
   "note": ""
  },
  {
   "property": "C09",
   "status": "proved",
   "theorems": [
    "C09_serial_accepted_iff",
    "C09_date_iff_accepted",
    "C09_display_starts",
    "C09_display_steps",
    "C09_display_order",
    "C09_display_total"
   ],
   "note": ""
  },
  {
   "property": "C10",
   "status": "proved",
   "theorems": [
    "C10_edate",
    "C10_edate_only",
    "C10_edate_error",
    "C10_eomonth",
    "C10_eomonth_only",
    "C10_eomonth_two_steps",
    "C10_edate_two_steps_month"
   ],
   "note": ""
  },
  {
   "property": "C11",
   "status": "partial",
   "theorems": [
    "C11_date_normalises",
    "C11_date_only",
    "C11_date_normalises_all_years_refuted"
   ],
   "note": "False of the code for years that normalise below 0 (truncating division): refutation proved; proved for all other arguments."
  },
  {
   "property": "C12",
   "status": "proved",
   "theorems": [
    "C12_components",
    "C12_circular"
   ],
   "note": "tarjan_scc_impl and separate_cycles; virtual dependencies included in C12_components."
  },
  {
   "property": "C13",
   "status": "proved",
   "theorems": [
    "C13_schedule",
    "C13_schedule_virtual"
   ],
   "note": "create_schedule (without the dynamic-topology branch) and create_schedule_with_virtual, for any hash-map order. The reverse adjacency must mirror the forward one on the requested cells (edge-store invariant)."
  },
  {
   "property": "C14",
   "status": "proved",
   "theorems": [
    "C14_never_fails",
    "C14_virtual_self_refuted",
    "C14_unmirrored_refuted"
   ],
   "note": "Same scope as C13. The scheduler alone fails on a virtual self-dependency (C14_virtual_self_refuted); the engine's virtual-dependency builder never produces one."
  },
  {
   "property": "C15",
   "status": "proved",
   "theorems": [
    "C15_live_graph",
    "C15_no_cycles"
   ],
   "note": "Edge lists sorted by reader, endpoints in range, as the only caller passes them."
  },
  {
   "property": "C16",
   "status": "partial",
   "theorems": [
    "C16_splice_refuted",
    "C16_newest_edge",
    "C16_clear_window_partial",
    "C16_step_partial",
    "C16_rebuild",
    "C16_refusal_exact",
    "C16_refusal_path"
   ],
   "note": "False of the code: splice_after inserts the moved block at an index of the shortened list, so nodes right behind x slip in front of it (C16_splice_refuted). Proved: one place per node, the newest edge always the right way round, all edges kept when no node reached from y has a successor within px - py places behind x, refusals exact within the visit budget and backed by a real path, rebuild_full topological on acyclic graphs."
  },
  {
   "property": "C17",
   "status": "proved",
   "theorems": [
    "C17_store_exact",
    "C17_compaction_silent",
    "C17_no_repeats",
    "C17_edge_count"
   ],
   "note": "For all operation sequences whose edge sources are registered and whose bulk builds are handed all registered vertices; C70 shows what happens when a bulk load is not."
  },
  {
   "property": "C18",
   "status": "partial",
   "theorems": [
    "C18_early_edge_refuted"
   ],
   "note": "False of the code as a property of the store: compaction rewrites the base from the registered vertices only (apply_to_csr), so an edge added before its source is registered is lost; refutation proved. For registered sources see C17."
  },
  {
   "property": "C19",
   "status": "proved",
   "theorems": [
    "C19_query_exact",
    "C19_remove_tells",
    "C19_no_interval_twice",
    "C19_size"
   ],
   "note": "Intervals given must not be reversed; the query interval neither."
  },
  {
   "property": "C20",
   "status": "proved",
   "theorems": [
    "C20_index_exact"
   ],
   "note": "Removals and moves must name the position the vertex was last given, as every caller does."
  },
  {
   "property": "C21",
   "status": "partial",
   "theorems": [
    "C21_never_overlap",
    "C21_refused_exactly_partial",
    "C21_granted_holds",
    "C21_refused_changes_nothing",
    "C21_release_exact",
    "C21_own_region_refuted"
   ],
   "note": "The 'of another owner' clause is false of the code: an owner's own overlapping region is refused too (C21_own_region_refuted). Proved: no two held regions overlap, refusal exactly on overlap with any held region, grants and releases exact; for fewer than 2^64-1 reservations."
  },
  {
   "property": "C22",
   "status": "partial",
   "theorems": [
    "C22_textbook",
    "C22_nested_actions"
   ],
   "note": "C22_textbook: undo, redo, grouped actions, single edits and recalculations agree with a textbook editor for every fair history. Outside fair histories the claim is false of the code: see the refutations under C63, C65 and C66."
  },
  {
   "property": "C23",
   "status": "partial",
   "theorems": [
    "C23_refuted",
    "C23_undo_available_partial"
   ],
   "note": "False of the code (C23_refuted: a single edit after a grouped action, or after a redo, cannot be undone); proved for histories that do not mix the two."
  },
  {
   "property": "C24",
   "status": "partial",
   "theorems": [
    "C24_refuted"
   ],
   "note": "False of the code: new edits do not clear the redo stack; refutation proved."
  },
  {
   "property": "C25",
   "status": "partial",
   "theorems": [
    "C25_refuted",
    "C25_capped_partial"
   ],
   "note": "False of the code: the cap cuts inside an action and undo then reverts the kept part only; refutation proved. Proved that a cap which the history never exceeds changes nothing."
  },
  {
   "property": "C26",
   "status": "partial",
   "theorems": [
    "C26_textbook",
    "C26_rollback",
    "C26_one_at_a_time",
    "C26_links_refuted",
    "C26_clear_refuted"
   ],
   "note": "Formulas are restored exactly (C26_textbook, C26_rollback); false of the code for dependencies (rolling back a value written over a value cuts off the readers of the cell, C26_links_refuted) and when the log is cleared inside a transaction (C26_clear_refuted: panic). Names, spills and structural edits are not in the model."
  },
  {
   "property": "C27",
   "status": "partial",
   "theorems": [
    "C27_refuted",
    "C27_forgotten_refuted",
    "C27_savepoint_partial"
   ],
   "note": "False of the code for repeated names (the first savepoint wins) and for savepoints at the same position; refutations proved. Proved for names not reused while in use."
  },
  {
   "property": "C28",
   "status": "proved",
   "theorems": [
    "C28_insert_keeps_references",
    "C28_reported_change_is_one"
   ],
   "note": "For every formula tree, given that the edit pushes no referenced cell off the sheet (what happens then is C68). The denoted cells, the edges of ranges, dollar signs and sheet names are all covered."
  },
  {
   "property": "C29",
   "status": "proved",
   "theorems": [
    "C29_delete_keeps_survivors"
   ],
   "note": "For every formula tree whose ranges are bounded on the edited axis, on both axes; cells, ranges and sheet-qualified references."
  },
  {
   "property": "C30",
   "status": "partial",
   "theorems": [
    "C30_half_open_partial",
    "C30_half_open_refuted"
   ],
   "note": "False of the code: a range open above (=A:A5) whose last row is deleted ends up one row too long; refutation proved. Proved for every other half-open range."
  },
  {
   "property": "C31",
   "status": "partial",
   "theorems": [
    "C31_copy_partial",
    "C31_lambda_call_refuted",
    "C31_array_literal_refuted",
    "C31_above_first_row_refuted",
    "C31_below_last_row_refuted"
   ],
   "note": "False of the code: references inside lambda calls and array literals are not shifted, and a reference shifted off the sheet is clamped to row 1 or left past the last row; four refutations proved. Proved for formulas without calls and array literals whose shifted references stay on the sheet."
  },
  {
   "property": "C32",
   "status": "partial",
   "theorems": [
    "C32_move_partial",
    "C32_lambda_call_refuted",
    "C32_sheet_name_case_refuted"
   ],
   "note": "False of the code: references inside lambda calls, and references that spell the sheet name in another case, are not redirected; refutations proved. Proved for all other formulas."
  },
  {
   "property": "C33",
   "status": "proved",
   "theorems": [
    "C33_not_lost",
    "C33_ack_exact",
    "C33_stale_lease",
    "C33_lease_all",
    "C33_nothing_invented"
   ],
   "note": "For fewer than 2^64 leases (the generation counter wraps)."
  },
  {
   "property": "C34",
   "status": "partial",
   "theorems": [
    "C34_edit_schedules_exactly",
    "C34_spill_complete",
    "C34_spill_extra_refuted"
   ],
   "note": "Exact for mark_dirty_many over every graph built by edge and range histories, cycles included; on the path for spilled cells completeness is proved and the second clause is false of the code (bounding rectangle; refutation proved)."
  },
  {
   "property": "C35",
   "status": "partial",
   "theorems": [
    "C35_deferred_equals_immediate",
    "C35_flush_exact",
    "C35_spill_refuted"
   ],
   "note": "Proved for all edits through mark_dirty_many, also when the edits change what the edited formulas read; false of the code for spilled cells, where a deferred scope schedules less (refutation proved). Vertices deleted inside a scope are not covered."
  },
  {
   "property": "C36",
   "status": "proved",
   "theorems": [
    "C36_found_exactly",
    "C36_never_without_reason"
   ],
   "note": "For every history of formulas being given ranges and losing them, block indexing on or off; ranges with both rows or both columns given: closed, whole-row, whole-column and half-open ones. The parser also accepts a column and a row (A:3), which is not covered (Example C36_mixed_shape shows a miss)."
  },
  {
   "property": "C37",
   "status": "partial",
   "theorems": [
    "C37_commit",
    "C37_fault_values",
    "C37_fault_formulas_partial",
    "C37_fault_formulas_refuted",
    "C37_result_shown",
    "C37_result_blocked",
    "C37_plan_exact"
   ],
   "note": "False of the code in one respect: the rollback writes old values through set_cell_value, so a formula typed into a spilled cell is lost (refutation proved). Proved: a completed commit shows the whole array, empties the dropped cells and touches nothing else; an interrupted one restores every value and all ownership at any interruption point, and the formulas too when no rewritten cell but the anchor holds one; planning admits exactly the free rectangles; blocked results clear the old spill."
  },
  {
   "property": "C38",
   "status": "partial",
   "theorems": [
    "C38_one_owner",
    "C38_one_owner_editor",
    "C38_direct_edit_refuted",
    "C38_unplanned_refuted"
   ],
   "note": "Proved for all histories of results and edits that ownership and listing are inverse, and with edits through the editor that every owner is a formula within its own region. False for direct edits (owner no longer a formula) and for commits made without planning, as VertexEditor::commit_spill_region, undo and replay do; both refutations proved."
  },
  {
   "property": "C39",
   "status": "partial",
   "theorems": [
    "C39_one_call",
    "C39_session",
    "C39_either_source",
    "C39_flag_exact",
    "C39_version",
    "C39_canonical",
    "C39_empty_iff_all_visible",
    "C39_insert_delete",
    "C39_rows_hidden_pointwise",
    "C39_insert_delete_without_bound_refuted"
   ],
   "note": "False of the code only when an insertion pushes a hidden row past u32::MAX (saturation merges rows): refuted in C39_insert_delete_without_bound_refuted; proved for every session in which no hidden row is pushed off the end."
  },
  {
   "property": "C40",
   "status": "partial",
   "theorems": [
    "C40_lookup_any_case",
    "C40_lookup_only_live",
    "C40_live_names_differ",
    "C40_create_fresh",
    "C40_live_ids_below_created",
    "C40_create_existing",
    "C40_remove_only_that_sheet",
    "C40_rename_only_that_sheet",
    "C40_rename_refused_iff_taken",
    "C40_positions",
    "C40_span_counts",
    "C40_listing",
    "C40_never_without_sheet",
    "C40_ids_never_reused_refuted",
    "C40_added_sheet_is_listed_refuted"
   ],
   "note": "False of the code at the 65537th creation (u16 id wraps) and for the empty name: both refuted; proved for all histories with non-empty names and at most 65536 creations."
  },
  {
   "property": "C41",
   "status": "proved",
   "theorems": [
    "C41_resolve_intern",
    "C41_handles_equal_iff",
    "C41_handles_stay_valid",
    "C41_intern_total",
    "C41_get_id_inverse"
   ],
   "note": ""
  },
  {
   "property": "C42",
   "status": "proved",
   "theorems": [
    "C42_shape",
    "C42_refused_iff",
    "C42_order_independent",
    "C42_projection_in_bounds",
    "C42_projection_identity",
    "C42_order_with_empty_axis_refuted"
   ],
   "note": ""
  },
  {
   "property": "C43",
   "status": "proved",
   "theorems": [
    "C43_wildcard",
    "C43_no_special_characters",
    "C43_escaped_text_matches_only_itself",
    "C43_lookup_text_cell"
   ],
   "note": ""
  },
  {
   "property": "C44",
   "status": "partial",
   "theorems": [
    "C44_match_ascending",
    "C44_match_descending",
    "C44_match_unsorted_is_na",
    "C44_binary_search_ascending",
    "C44_lookup_ascending",
    "C44_xmatch_closest",
    "C44_xlookup_closest",
    "C44_xmatch_text_neighbour_refuted",
    "C44_xmatch_text_only_exact"
   ],
   "note": "MATCH, VLOOKUP's search, LOOKUP, XMATCH and XLOOKUP proved for clean data (no NaN/infinity, texts that do not read as numbers, numbers equal or at least 1e-12 apart). False of the code for XMATCH/XLOOKUP next smaller/larger with a text needle: refutation and the general statement of what happens are proved."
  },
  {
   "property": "C45",
   "status": "partial",
   "theorems": [
    "C45_names_partial",
    "C45_corner_deleted_refuted"
   ],
   "note": "False of the code: if one corner of a named range is deleted the whole name becomes #REF! although cells survive; refutation proved. Proved when both corners survive, and for names bound to a cell."
  },
  {
   "property": "C46",
   "status": "partial",
   "theorems": [
    "C46_decides",
    "C46_symmetric",
    "C46_reflexive",
    "C46_numbers",
    "C46_kinds",
    "C46_array",
    "C46_reported_delta",
    "C46_infinity_refuted",
    "C46_zero_tolerance_refuted"
   ],
   "note": "False of the code for infinities and for a zero tolerance (refutations; Pending likewise is never equal to itself). Proved: exact characterisation of the test on IEEE binary64, symmetry of the whole outcome, reflexivity for values without infinities and a positive tolerance, kinds never mix."
  },
  {
   "property": "C47",
   "status": "partial",
   "theorems": [
    "C47_edate_returns_illegal_serial_refuted",
    "C47_eomonth_past_9999_refuted",
    "C47_date_returns_illegal_serial_refuted",
    "C47_workday_returns_illegal_serial_refuted",
    "C47_legal_result_decodes"
   ],
   "note": "False of the code: refutation proved (some date functions return serials outside the legal range); proved for the functions and ranges stated in the theorems."
  },
  {
   "property": "C48",
   "status": "partial",
   "theorems": [
    "C48_years_complete",
    "C48_months_complete",
    "C48_months_split",
    "C48_days",
    "C48_accepted_in_order",
    "C48_md_negative_refuted",
    "C48_days_not_serial_difference_refuted"
   ],
   "note": "False of the code: DATEDIF \"MD\" can be negative and \"D\" is not the serial difference across the phantom day, both refuted; the remaining units are proved."
  },
  {
   "property": "C49",
   "status": "proved",
   "theorems": [
    "C49_networkdays_counts",
    "C49_networkdays_additive",
    "C49_five_a_week",
    "C49_workday_forward",
    "C49_workday_backward",
    "C49_workday_zero",
    "C49_workday_terminates",
    "C49_weekend_code_leaves_workday",
    "C49_weekend_text_leaves_workday"
   ],
   "note": ""
  },
  {
   "property": "C50",
   "status": "partial",
   "theorems": [
    "C50_weekday",
    "C50_weekdays_cycle",
    "C50_weekday_weekend_agree_refuted",
    "C50_weekday_accepts_illegal_refuted"
   ],
   "note": "False of the code before 1 March 1900 and for serials past 9999 (WEEKDAY accepts them): refutation proved; agreement proved elsewhere."
  },
  {
   "property": "C51",
   "status": "partial",
   "theorems": [
    "C51_time_wraps",
    "C51_time_overflow_refuted"
   ],
   "note": "False of the code for arguments that overflow i32 (panic): refutation proved; proved for all arguments without overflow."
  },
  {
   "property": "C52",
   "status": "partial",
   "theorems": [
    "C52_rename_sheet",
    "C52_successful_rename_takes_effect_refuted"
   ],
   "note": "False of the code: a change of capitalisation reports success and does nothing (refuted); proved whenever the new name is not yet known."
  },
  {
   "property": "C53",
   "status": "partial",
   "theorems": [
    "C53_clean_order",
    "C53_clean_transitive",
    "C53_text_cycle_refuted",
    "C53_reflexive_refuted",
    "C53_equality_not_transitive_refuted"
   ],
   "note": "False of the code: numeric-looking texts give a cycle, 'inf' is not equal to itself and near-equality is not transitive (three refutations). Proved: on clean data it is exactly the key order."
  },
  {
   "property": "C54",
   "status": "partial",
   "theorems": [
    "C54_index_agrees",
    "C54_tolerance_refuted",
    "C54_midnight_refuted",
    "C54_inf_text_refuted"
   ],
   "note": "False of the code for numbers within 1e-12, for a zero time against blanks and for the text 'inf' (refutations). Proved for clean data."
  },
  {
   "property": "C55",
   "status": "partial",
   "theorems": [
    "C55_text_both_directions",
    "C55_last_match",
    "C55_number_directions_refuted"
   ],
   "note": "False of the code for numbers against booleans (refutation). Proved for every text needle that does not read as a number."
  },
  {
   "property": "C56",
   "status": "partial",
   "theorems": [
    "C56_error_reported_refuted",
    "C56_error_never_selected"
   ],
   "note": "False of the code: the error is skipped (refutation). Proved: an error cell is never the one selected."
  },
  {
   "property": "C57",
   "status": "partial",
   "theorems": [
    "C57_same_on_sorted",
    "C57_unsorted_refuted"
   ],
   "note": "False of the code on unsorted data (refutation). Proved equal on ascending data."
  },
  {
   "property": "C58",
   "status": "proved",
   "theorems": [
    "C58_exact",
    "C58_history_free"
   ],
   "note": "Runtime cycle detection (opt-in). Second part for components in which no member returns an array."
  },
  {
   "property": "C59",
   "status": "proved",
   "theorems": [
    "C59_budget"
   ],
   "note": "For components in which no member returns an array."
  },
  {
   "property": "C60",
   "status": "partial",
   "theorems": [
    "C60_no_missed_cycle",
    "C60_phantom_cycle_refuted",
    "C60_transient_array_refuted"
   ],
   "note": "False of the code in one direction; refutations proved (phantom cycle from mixed reads, transient array). Proved: a formula that runs into itself is never reported settled."
  },
  {
   "property": "C61",
   "status": "partial",
   "theorems": [
    "C61_error_partial",
    "C61_survivors_refuted"
   ],
   "note": "False of the code in general; refutation proved (C61_survivors_refuted). Proved for formulas whose reads do not depend on values."
  },
  {
   "property": "C62",
   "status": "proved",
   "theorems": [
    "C62_ends",
    "C62_passes",
    "C62_converged",
    "C62_enough",
    "C62_over_max_refuted"
   ],
   "note": "The number of passes can exceed max_iterations itself (C62_over_max_refuted); the proved bound is max(1, limit) + members + 1."
  },
  {
   "property": "C63",
   "status": "partial",
   "theorems": [
    "C63_refuted",
    "C63_formula_over_value_partial"
   ],
   "note": "False of the code in eager mode (no old value is recorded); refutation proved. Proved for deferred graph building."
  },
  {
   "property": "C64",
   "status": "partial",
   "theorems": [
    "C64_refuted_after_undo",
    "C64_refuted_capped",
    "C64_eager_partial",
    "C64_no_history_partial"
   ],
   "note": "False of the code in two ways (an undone value leaves an overlay entry that masks a later formula; a full capped log suppresses the overlay update); both refutations proved. Proved for eager mode with undo and redo, and for any mode without undo and redo, uncapped."
  },
  {
   "property": "C65",
   "status": "partial",
   "theorems": [
    "C65_refuted",
    "C65_undo_after_recalculation_partial"
   ],
   "note": "False of the code for formulas still pending at the recalculation; refutation proved. Proved when nothing is pending."
  },
  {
   "property": "C66",
   "status": "partial",
   "theorems": [
    "C66_refuted",
    "C66_grouped_partial"
   ],
   "note": "False of the code for a value typed over a pending formula (two ungrouped log entries); refutation proved. Proved for grouped edits."
  },
  {
   "property": "C67",
   "status": "partial",
   "theorems": [
    "C67_refuted",
    "C67_linked_partial"
   ],
   "note": "False of the code: undoing a value typed in an empty cell removes the vertex and its dependents' edges; refutation proved. Proved for histories without undo."
  },
  {
   "property": "C68",
   "status": "partial",
   "theorems": [
    "C68_delete_never_crashes_partial",
    "C68_insert_crashes_refuted",
    "C68_insert_leaves_sheet_refuted"
   ],
   "note": "False of the code: a formula =A1048576 makes every row insertion above it panic, and A1:A1048576 is pushed past the last row; refutations proved. Proved for deletions (no crash)."
  },
  {
   "property": "C69",
   "status": "partial",
   "theorems": [
    "C69_moved_formula_partial",
    "C69_relative_reference_refuted"
   ],
   "note": "False of the code: the relative references of a moved formula are shifted as by a copy; refutation proved. Proved for formulas whose references are all absolute, moved within a sheet."
  },
  {
   "property": "C70",
   "status": "partial",
   "theorems": [
    "C70_second_load_refuted",
    "C70_load_partial"
   ],
   "note": "False of the code: BulkIngestBuilder::finish hands build_from_adjacency only the cells created by this load as vertex list, so the next compaction drops the edges of every older vertex; refutation proved. Proved: the answers are exact right after the load, and stay exact when each load creates no cell or is the first (C17_store_exact)."
  },
  {
   "property": "C71",
   "status": "partial",
   "theorems": [
    "C71_rows_partial",
    "C71_columns_refuted"
   ],
   "note": "False of the code: moving a vertex never updates the sheet index, so after a column insertion a range lookup misses formulas (C71_columns_refuted). Proved exact while only rows are inserted or deleted."
  },
  {
   "property": "C72",
   "status": "partial",
   "theorems": [
    "C72_whole_columns_refuted",
    "C72_bulk_refuted",
    "C72_bulk_partial"
   ],
   "note": "False of the code: a block of whole columns loaded in bulk is found from the first row only (proved for every such block), a half-open range from its first row only; proved for closed ranges, one whole column and one whole row."
  },
  {
   "property": "C73",
   "status": "partial",
   "theorems": [
    "C73_name_update_refuted",
    "C73_no_readers_partial"
   ],
   "note": "False of the code: the readers of the users of a redefined name are not scheduled (refutation proved); proved when the users have no readers."
  },
  {
   "property": "C74",
   "status": "partial",
   "theorems": [
    "C74_insert_refuted",
    "C74_insert_marks_partial"
   ],
   "note": "False of the code: a formula above the insertion reading an adjusted formula is not scheduled (refutation proved); what is scheduled is characterised exactly."
  },
  {
   "property": "C75",
   "status": "partial",
   "theorems": [
    "C75_layers_partial",
    "C75_unregistered_refuted",
    "C75_zero_width_refuted"
   ],
   "note": "False of the code: formulas never registered with the order (bulk entry without dependencies) make layers_for index a missing key, and a width of zero never ends (both refuted). Proved for registered formulas and a positive or absent width."
  },
  {
   "property": "C76",
   "status": "partial",
   "theorems": [
    "C76_budget_refuted",
    "C76_never_ends",
    "C76_ends_partial"
   ],
   "note": "False of the code: past the visit budget the call rebuilds and starts over without a limit (C76_budget_refuted, C76_never_ends). Proved when the budget is at least the number of nodes."
  },
  {
   "property": "C77",
   "status": "partial",
   "theorems": [
    "C77_typed_formula_refuted",
    "C77_typed_value_refuted",
    "C77_unowned_partial"
   ],
   "note": "False of the code: a formula or value typed into a cell the array formula already fills is overwritten silently at the next recalculation; refutations proved. Proved for every cell the formula does not own."
  },
  {
   "property": "C78",
   "status": "partial",
   "theorems": [
    "C78_editor_value",
    "C78_editor_formula",
    "C78_direct_refuted",
    "C78_direct_blocks_refuted"
   ],
   "note": "False of the code for the engine's direct setters: the old cells stay filled, owned and blocking; refutations proved. Proved for both edits through the editor."
  },
  {
   "property": "C79",
   "status": "partial",
   "theorems": [
    "C79_displayed_formula_refuted",
    "C79_union_argument_refuted",
    "C79_display_unreadable_refuted",
    "C79_display_round_trip_partial",
    "C79_reference_is_one_operand",
    "C79_cell_and_range_references"
   ],
   "note": "False of the code: =FALSE=(1=2) is displayed as =false = 1 = 2, which has another value; a parenthesised union argument is displayed as two arguments; (foo) B1 and #GETTING_DATA are displayed as text that is rejected. Refutations proved. For every other tree (predicate faithful, RoundSpec.v) the round trip through printer, tokenizer and parser is proved, for all number and reference formats that read back on their own."
  },
  {
   "property": "C80",
   "status": "proved",
   "theorems": [
    "C80_tokens_spell_the_formula",
    "C80_token_shapes",
    "C80_error_qualifier_refuted"
   ],
   "note": "Spelling with the one stated exception, and the shape of every token. C80_error_qualifier_refuted shows that the exception occurs (Sheet1!#REF!)."
  },
  {
   "property": "C81",
   "status": "proved",
   "theorems": [
    "C81_brackets_match"
   ],
   "note": ""
  },
  {
   "property": "C82",
   "status": "proved",
   "theorems": [
    "C82_parts_in_order"
   ],
   "note": "Strict mode of the tokenizer; the best-effort mode is not modelled."
  },
  {
   "property": "C83",
   "status": "proved",
   "theorems": [
    "C83_tokenizer_ends",
    "C83_parser_ends",
    "C83_formula_ends"
   ],
   "note": "Fuel linear in the length always suffices in the model; the model's recursion follows the loops of the code."
  },
  {
   "property": "C84",
   "status": "partial",
   "theorems": [
    "C84_range_to_call_refuted",
    "C84_range_from_call_partial",
    "C84_union_in_call_refuted"
   ],
   "note": "False of the code: a range whose end is a call (A1:INDEX(..)) becomes a call of a function named \"A1:INDEX\", proved for all cells and names; a union inside the arguments of a call on a value is rejected. Proved for ranges that start in a call, a parenthesised expression or a range."
  },
  {
   "property": "C85",
   "status": "partial",
   "theorems": [
    "C85_nesting_unbounded_refuted",
    "C85_depth_at_most_linear_partial"
   ],
   "note": "False of the code: the recursive-descent parser has no depth limit, so for every stack depth some accepted formula needs more (refutation proved for all depths). Proved: the depth is at most linear in the number of tokens."
  },
  {
   "property": "C86",
   "status": "partial",
   "theorems": [
    "C86_displayed_reference_partial",
    "C86_displayed_reference_refuted",
    "C86_external_workbook",
    "C86_blanks_before_items"
   ],
   "note": "False of the code for some structured references, empty sheet names and 3D names with control bytes; refutation proved; proved for every displayable reference in both dialects."
  },
  {
   "property": "C87",
   "status": "partial",
   "theorems": [
    "C87_reference_bounds_partial",
    "C87_entering_a_formula_panics_refuted",
    "C87_panics_exactly",
    "C87_cells_never_panic"
   ],
   "note": "False of the code: rows of ranges may exceed the sheet and planning a small such range panics; refutation proved. Cells are proved to be on the sheet and never to panic, and the panicking ranges are characterised exactly."
  },
  {
   "property": "C88",
   "status": "partial",
   "theorems": [
    "C88_dependencies_cover_the_range",
    "C88_corner_order_refuted",
    "C88_corners_out_of_order"
   ],
   "note": "Coverage proved for all ranges whose corners are in order; writing the rectangle from another corner loses all dependencies (refutation proved)."
  },
  {
   "property": "C89",
   "status": "partial",
   "theorems": [
    "C89_quoted_separately_partial",
    "C89_quoted_together_refuted"
   ],
   "note": "Proved for separately quoted names; the form quoted together is always read as one sheet (proved for all names as a refutation)."
  },
  {
   "property": "C90",
   "status": "partial",
   "theorems": [
    "C90_escaped_column_partial",
    "C90_escaped_this_row_partial",
    "C90_exclamation_mark_refuted"
   ],
   "note": "Proved for all names without an exclamation mark; with one the text is read as a defined name (refutation proved)."
  },
  {
   "property": "C91",
   "status": "partial",
   "theorems": [
    "C91_open_cell_partial",
    "C91_open_range_partial",
    "C91_second_sheet_partial",
    "C91_mismatch_accepted_refuted"
   ],
   "note": "Proved for all sheets without a colon; malformed references are read as table columns (refutation proved)."
  },
  {
   "property": "C92",
   "status": "proved",
   "theorems": [
    "C92_reads_follow_history",
    "C92_formats_follow_history",
    "C92_offsets_fit",
    "C92_joined_runs"
   ],
   "note": "For offsets that fit in a u32, as rows do."
  },
  {
   "property": "C93",
   "status": "proved",
   "theorems": [
    "C93_iter_lists_the_map",
    "C93_len",
    "C93_is_empty",
    "C93_has_any_in_range"
   ],
   "note": "For offsets that fit in a u32."
  },
  {
   "property": "C94",
   "status": "partial",
   "theorems": [
    "C94_runs_read_back_refuted",
    "C94_runs_read_back_partial",
    "C94_runs_exact_partial"
   ],
   "note": "False of the code for a zero next to a zero of the other sign; refutation proved; proved up to the sign of a zero, and exactly for lists whose equal values are identical."
  },
  {
   "property": "C95",
   "status": "proved",
   "theorems": [
    "C95_deltas_are_exact",
    "C95_constructors"
   ],
   "note": "The memory size of the arrays of a fragment is an arbitrary function."
  },
  {
   "property": "C96",
   "status": "partial",
   "theorems": [
    "C96_estimate_exact_refuted",
    "C96_estimate_bound",
    "C96_estimate_exact_partial",
    "C96_estimate_cells_or_fragments_partial"
   ],
   "note": "False of the code: overwriting a single cell while a fragment is present subtracts the old cell twice; refutation proved; proved that the counter is never too large, and exact for the histories described in the theorem."
  },
  {
   "property": "C97",
   "status": "proved",
   "theorems": [
    "C97_sheet_follows_history",
    "C97_call_follows_layout",
    "C97_reads_layout"
   ],
   "note": "For histories whose row insertions are at most one chunk, that do not insert or delete rows while the sheet has rows but no column, and whose rows fit in u32 (C99 and C100 show that the first two are needed). Sheets start empty; the ingest builder is not modelled."
  },
  {
   "property": "C98",
   "status": "proved",
   "theorems": [
    "C98_last_write_is_read"
   ],
   "note": "Same histories as C97. A computed value written over a literal leaves the cell open."
  },
  {
   "property": "C99",
   "status": "partial",
   "theorems": [
    "C99_insert_rows_then_write_refuted",
    "C99_delete_columns_then_write_refuted",
    "C99_no_crash_partial"
   ],
   "note": "False of the code: two row insertions into a sheet without columns, or deleting the only column and inserting a row, make the next write panic; refutations proved. Proved for the histories of C97."
  },
  {
   "property": "C100",
   "status": "partial",
   "theorems": [
    "C100_large_insertion_loses_value_refuted",
    "C100_large_insertion_any_store_refuted",
    "C100_written_value_kept_partial"
   ],
   "note": "False of the code: after an insertion of 40000 rows, a value in A40000 is lost when A50000 is written; refutation proved. Proved for insertions of at most one chunk."
  },
  {
   "property": "C101",
   "status": "partial",
   "theorems": [
    "C101_computed_compaction_invisible",
    "C101_user_compaction_partial",
    "C101_user_compaction_refuted"
   ],
   "note": "False of the code for maybe_compact_chunk: a cell held by both overlays shows the computed value after compaction and the user value before; refutation proved. Proved for cells that are not held by both, and in full for compact_computed_overlay_chunk."
  },
  {
   "property": "C102",
   "status": "partial",
   "theorems": [
    "C102_stale_literal_refuted",
    "C102_result_shown_partial"
   ],
   "note": "False of the code: the literal is compacted into the base and reappears when the results are dropped by a row insertion, until the next recalculation; refutation proved. Proved: the result of a formula is shown as soon as it is written, whatever the cell held."
  },
  {
   "property": "C103",
   "status": "proved",
   "theorems": [
    "C103_runs_give_formats",
    "C103_slice_gives_formats"
   ],
   "note": ""
  },
  {
   "property": "C104",
   "status": "proved",
   "theorems": [
    "C104_grammar_is_parsed",
    "C104_one_reading"
   ],
   "note": "For calls of functions with written arguments, parentheses, signs, postfix and binary operators; lambda calls, arrays and omitted arguments are covered by C82 only. Excel itself groups ^ to the left; the code and its documentation to the right."
  },
  {
   "property": "C105",
   "status": "proved",
   "theorems": [
    "C105_words_and_operators"
   ],
   "note": ""
  },
  {
   "property": "C106",
   "status": "proved",
   "theorems": [
    "C106_blank_is_intersection",
    "C106_colon_between_sheets"
   ],
   "note": ""
  },
  {
   "property": "C107",
   "status": "proved",
   "theorems": [
    "C107_has",
    "C107_intersects",
    "C107_intersection",
    "C107_contains",
    "C107_normalized",
    "C107_shift_keeps",
    "C107_shift_none",
    "C107_shift_exact"
   ],
   "note": ""
  },
  {
   "property": "C108",
   "status": "proved",
   "theorems": [
    "C108_query",
    "C108_query_bounded"
   ],
   "note": ""
  },
  {
   "property": "C109",
   "status": "partial",
   "theorems": [
    "C109_budget_completes_partial",
    "C109_budget_kept",
    "C109_one_row_refuted"
   ],
   "note": "False of the code for one whole row or column and for half-open queries, which have no case in visit_bounded_candidates; refutation proved; proved for all other queries."
  },
  {
   "property": "C110",
   "status": "proved",
   "theorems": [
    "C110_summary",
    "C110_read_regions"
   ],
   "note": ""
  },
  {
   "property": "C111",
   "status": "proved",
   "theorems": [
    "C111_project_sound",
    "C111_supported",
    "C111_in_result"
   ],
   "note": ""
  },
  {
   "property": "C112",
   "status": "partial",
   "theorems": [
    "C112_project_exact_partial",
    "C112_whole_columns_refuted"
   ],
   "note": "False of the code for rules that read whole columns; refutation proved; proved for cell and range rules."
  },
  {
   "property": "C113",
   "status": "proved",
   "theorems": [
    "C113_closure_sound",
    "C113_no_fallback"
   ],
   "note": ""
  },
  {
   "property": "C114",
   "status": "partial",
   "theorems": [
    "C114_closure_exact_partial",
    "C114_whole_columns_refuted"
   ],
   "note": "False of the code for rules that read whole columns; refutation proved; proved for cell and range rules."
  },
  {
   "property": "C115",
   "status": "proved",
   "theorems": [
    "C115_merge",
    "C115_demanded"
   ],
   "note": ""
  },
  {
   "property": "C116",
   "status": "proved",
   "theorems": [
    "C116_regions_move_as_their_cells"
   ],
   "note": ""
  },
  {
   "property": "C117",
   "status": "proved",
   "theorems": [
    "C117_kept_and_moved_spans_follow",
    "C117_one_rewrite"
   ],
   "note": "For insertions that push nothing the span holds, reads or names off the sheet, and spans that no deletion cuts (C118, C119)."
  },
  {
   "property": "C118",
   "status": "partial",
   "theorems": [
    "C118_halves_follow_partial",
    "C118_shared_template_refuted"
   ],
   "note": "False of the code when the template was written for another cell than the shown formula: the lower half is computed from other columns than it shows (refutation proved). Proved for spans whose shown origin is the template's."
  },
  {
   "property": "C119",
   "status": "partial",
   "theorems": [
    "C119_cut_spans_follow_partial",
    "C119_lagged_refuted",
    "C119_distant_refuted",
    "C119_other_sheet_refuted",
    "C119_total_refuted",
    "C119_origin_refuted"
   ],
   "note": "False of the code for reads at a distance, reads of other sheets by row, absolute ranges that the deletion cuts, and templates written below the deletion (five refutations proved). Proved for reads of the own row and of fixed ones before the deletion."
  },
  {
   "property": "C120",
   "status": "partial",
   "theorems": [
    "C120_literals_stay_partial",
    "C120_slopes_refuted"
   ],
   "note": "False of the code for literals that rise with the row or column: the origin of the slope is not moved (refutation proved). Proved for all other encodings."
  },
  {
   "property": "C121",
   "status": "partial",
   "theorems": [
    "C121_histories_partial"
   ],
   "note": "Holds for the histories that avoid the faults of C118 and C119; proved for those."
  },
  {
   "property": "C122",
   "status": "proved",
   "theorems": [
    "C122_untouched_spans",
    "C122_dirty_cells"
   ],
   "note": ""
  },
  {
   "property": "C123",
   "status": "proved",
   "theorems": [
    "C123_fresh_summaries"
   ],
   "note": ""
  },
  {
   "property": "C124",
   "status": "proved",
   "theorems": [
    "C124_equal_keys_mean_copies",
    "C124_keys_decide_support",
    "C124_supported_shape"
   ],
   "note": "For formulas the plane supports; identities of functions are lists of bytes and numbers below 2^64."
  },
  {
   "property": "C125",
   "status": "proved",
   "theorems": [
    "C125_equal_parameterized_keys",
    "C125_slots_correspond",
    "C125_slots_are_literals"
   ],
   "note": "For formulas the plane supports; identities of functions are lists of bytes and numbers below 2^64."
  },
  {
   "property": "C126",
   "status": "partial",
   "theorems": [
    "C126_placement_evaluates_own_formula_partial",
    "C126_placement_evaluates_own_formula_refuted"
   ],
   "note": "False of the code: equal texts, booleans, errors and small integers of the template are one node of the arena, and the slot of a node is the last that mentions it (build_template_slot_map); refutation proved with IF(A1=\"x\",\"x\",\"\"). Proved when placements give equal literals of the template equal values and there are at most 65536 literals."
  },
  {
   "property": "C127",
   "status": "proved",
   "theorems": [
    "C127_span_values",
    "C127_equal_keys_equal_sight",
    "C127_references"
   ],
   "note": "The interpreter is any function of the template with its references at their places (values where the contract takes values) and of the literals of the placement."
  },
  {
   "property": "C128",
   "status": "partial",
   "theorems": [
    "C128_every_placement_formatted_refuted",
    "C128_every_placement_formatted_partial"
   ],
   "note": "False of the code: memoised and constant spans record the format of one placement per group; refutation proved. Proved for spans evaluated one by one."
  },
  {
   "property": "C129",
   "status": "partial",
   "theorems": [
    "C129_values_come_back_partial",
    "C129_large_integers_come_back_refuted",
    "C129_other_values_come_back_refuted"
   ],
   "note": "False of the code in general; refutation proved: integers are cast to 32 bits before the test for the short form (2^32+5 comes back as 5) and integers outside 28 bits always stop the program, dates and times come back as date-times, durations lose fractions of a second, errors their context, uneven arrays stop the program or come back reshaped. Proved for all other values, in all histories with at most 2^28 entries."
  },
  {
   "property": "C130",
   "status": "partial",
   "theorems": [
    "C130_formulas_come_back_partial",
    "C130_same_sheets",
    "C130_formulas_come_back_refuted",
    "C130_long_calls_come_back_refuted"
   ],
   "note": "False of the code in general; refutation proved: an array constant with rows of different lengths, which the parser accepts, stops the program or comes back reshaped, postfix calls come back as an error, calls with 65536 arguments without arguments, ranges from row 0 as open ranges. Proved for all other formulas."
  },
  {
   "property": "C131",
   "status": "partial",
   "theorems": [
    "C131_same_node_same_formula",
    "C131_same_formula_same_node_partial",
    "C131_same_formula_same_node_refuted"
   ],
   "note": "Equal nodes mean equal formulas: proved. The converse is false of the code (refutation proved): decimal literals and calls with arguments are stored anew each time. Proved for formulas without calls, arrays and decimal or date literals when no two nodes have the same hash."
  },
  {
   "property": "C132",
   "status": "proved",
   "theorems": [
    "C132_reading",
    "C132_writing",
    "C132_round_trip",
    "C132_numbers"
   ],
   "note": "Exact for all texts (ASCII for HEX2DEC) and numbers; the conversions of arguments to numbers are parameters."
  },
  {
   "property": "C133",
   "status": "proved",
   "theorems": [
    "C133_cross",
    "C133_back"
   ],
   "note": "All six functions equal going through decimal, for all arguments, errors included."
  },
  {
   "property": "C134",
   "status": "partial",
   "theorems": [
    "C134_bits",
    "C134_refused",
    "C134_shift_partial",
    "C134_shift_refuted",
    "C134_cut"
   ],
   "note": "False of the code: a left shift wraps around the 64-bit word, so 2^24 shifted by 40 gives 0 and 2^23 shifted by 40 a negative number instead of #NUM!, and a shift of -2^31 panics where overflow is checked; refutation proved. Proved for the three bit operations, and for shifts whose exact result is below 2^63."
  },
  {
   "property": "C135",
   "status": "partial",
   "theorems": [
    "C135_roman",
    "C135_arabic",
    "C135_round_trip_partial",
    "C135_forms_refuted",
    "C135_syntax_refuted",
    "C135_form_kinds",
    "C135_form_argument"
   ],
   "note": "False of the code for the simplified forms (ROMAN(9,1) is IV, ROMAN(99,1) is VLIV, ROMAN(49,2) is IX), whose value in form 1 is computed for every number, and for invalid numerals, which ARABIC accepts; refutations proved. Proved for the classic form of every number, for all forms of the numbers without the digits concerned, and the exact value ARABIC gives to every text."
  },
  {
   "property": "C136",
   "status": "partial",
   "theorems": [
    "C136_gcd",
    "C136_lcm_partial",
    "C136_lcm_refuted"
   ],
   "note": "GCD proved for all lists. LCM is false of the code when the product passes 2^64 (panic or a wrong number); refutation proved; proved whenever some common multiple is below 2^64."
  },
  {
   "property": "C137",
   "status": "partial",
   "theorems": [
    "C137_decimal",
    "C137_base",
    "C137_round_trip",
    "C137_large_refuted"
   ],
   "note": "False of the code for numbers from 2^63 on, which BASE writes as 2^63-1 (the cast saturates); refutation proved. Proved for all numbers below 2^63 in every radix and length, and DECIMAL exactly."
  },
  {
   "property": "C138",
   "status": "partial",
   "theorems": [
    "C138_wildcards_partial",
    "C138_translation",
    "C138_byte_refuted",
    "C138_escape_refuted"
   ],
   "note": "False of the code: ? stands for one byte and ~ is not an escape; refutations proved; proved for patterns without ~ and with no ? or ASCII text, and for the pattern handed to arrow without arrow's special characters."
  },
  {
   "property": "C139",
   "status": "partial",
   "theorems": [
    "C139_numbers",
    "C139_equal_numbers",
    "C139_texts",
    "C139_agree_partial",
    "C139_blank_refuted",
    "C139_near_refuted",
    "C139_text_refuted",
    "C139_empty_refuted",
    "C139_special_refuted",
    "C139_booleans"
   ],
   "note": "False of the code: the mask and the cell test differ on blanks, numeric text, nearly equal numbers, empty criteria and arrow's special characters; refutations proved; proved for numbers and texts with suited criteria."
  },
  {
   "property": "C140",
   "status": "partial",
   "theorems": [
    "C140_number_refuted",
    "C140_boolean_refuted",
    "C140_storage_partial"
   ],
   "note": "False of the code: text criteria see written numbers and Booleans but not loaded ones; refutations proved; proved for all other pairs of criterion and value."
  },
  {
   "property": "C141",
   "status": "partial",
   "theorems": [
    "C141_ordering",
    "C141_opposite",
    "C141_number",
    "C141_spaces",
    "C141_equal_wildcard_refuted",
    "C141_order_text_refuted",
    "C141_boolean_refuted",
    "C141_zero_refuted",
    "C141_white_space",
    "C141_quoted"
   ],
   "note": "Ordering, opposites, numbers and spaces proved for all texts; refuted for =wildcard, ordering of text, =TRUE, 0 against =0, and =nan."
  },
  {
   "property": "C142",
   "status": "partial",
   "theorems": [
    "C142_countif",
    "C142_countifs_partial",
    "C142_sumifs_partial",
    "C142_sumif",
    "C142_below_refuted",
    "C142_neighbour_refuted",
    "C142_single_cell"
   ],
   "note": "Proved for ranges within the rows of the sheet, COUNTIFS and SUMIFS for more than one cell; refuted for rows below the sheet and for a context without masks."
  },
  {
   "property": "C143",
   "status": "partial",
   "theorems": [
    "C143_order_partial",
    "C143_sum_order_partial",
    "C143_shape_refuted"
   ],
   "note": "Proved for ranges of one shape; refuted for different shapes, which are not rejected."
  },
  {
   "property": "C144",
   "status": "partial",
   "theorems": [
    "C144_left_right",
    "C144_mid",
    "C144_reassemble",
    "C144_mid_panics_refuted",
    "C144_logical_refuted",
    "C144_same_text",
    "C144_integer_text",
    "C144_number_text",
    "C144_counts"
   ],
   "note": "False of the code: MID with a count near the largest integer panics in a build with overflow checks, and LEN, LEFT, RIGHT, CODE and REPT read TRUE as true (refuted). Proved for all other counts and values."
  },
  {
   "property": "C145",
   "status": "partial",
   "theorems": [
    "C145_replace",
    "C145_beyond",
    "C145_identity",
    "C145_end_refuted"
   ],
   "note": "False of the code at one place: a start one beyond the end appends (refuted). Proved for every other start."
  },
  {
   "property": "C146",
   "status": "partial",
   "theorems": [
    "C146_find",
    "C146_mid_at",
    "C146_empty_refuted",
    "C146_start"
   ],
   "note": "False of the code for the empty text: FIND gives 1 whatever the start (refuted). Proved for every other text."
  },
  {
   "property": "C147",
   "status": "partial",
   "theorems": [
    "C147_search",
    "C147_case",
    "C147_case_refuted",
    "C147_tilde_refuted"
   ],
   "note": "False of the code: letters beyond ASCII are not folded, and ~ is an ordinary character (refuted). Proved with ~ ordinary and case ignored for A-Z."
  },
  {
   "property": "C148",
   "status": "proved",
   "theorems": [
    "C148_substitute",
    "C148_instance",
    "C148_count",
    "C148_empty"
   ],
   "note": ""
  },
  {
   "property": "C149",
   "status": "partial",
   "theorems": [
    "C149_around",
    "C149_which",
    "C149_last_refuted",
    "C149_first"
   ],
   "note": "False of the code for delimiters that overlap themselves when counted from the end (refuted). Proved with occurrences cut from the left."
  },
  {
   "property": "C150",
   "status": "partial",
   "theorems": [
    "C150_split",
    "C150_several",
    "C150_ignore_empty",
    "C150_rows",
    "C150_empty_row_refuted",
    "C150_case_partial",
    "C150_case_panics_refuted",
    "C150_case_loses_refuted"
   ],
   "note": "False of the code: empty rows are dropped, and with case ignored characters whose lower case has another length make the call panic or lose text (refuted). Proved for one row, for rows that are not empty, and ignoring case where lengths are kept."
  },
  {
   "property": "C151",
   "status": "proved",
   "theorems": [
    "C151_concat",
    "C151_concat_error",
    "C151_textjoin",
    "C151_textjoin_error",
    "C151_round_trip",
    "C151_round_trip_split",
    "C151_concatenate_unlimited",
    "C151_flags"
   ],
   "note": ""
  },
  {
   "property": "C152",
   "status": "partial",
   "theorems": [
    "C152_rept_partial",
    "C152_sound",
    "C152_bytes_refuted",
    "C152_panics_refuted"
   ],
   "note": "False of the code: the limit counts bytes, and a product that wraps around makes the call panic (refuted). Proved for ASCII texts with products below 2^64, and soundness for all."
  },
  {
   "property": "C153",
   "status": "partial",
   "theorems": [
    "C153_unichar",
    "C153_unicode",
    "C153_unichar_rejects",
    "C153_char_partial",
    "C153_char_refuted",
    "C153_char_rejects"
   ],
   "note": "False of the code for the five codes Windows-1252 leaves out (refuted). Proved for all others and for all of Unicode."
  },
  {
   "property": "C154",
   "status": "proved",
   "theorems": [
    "C154_trim",
    "C154_trim_again",
    "C154_clean",
    "C154_case",
    "C154_asc",
    "C154_exact",
    "C154_proper",
    "C154_proper_word",
    "C154_asc_chars"
   ],
   "note": ""
  },
  {
   "property": "C155",
   "status": "partial",
   "theorems": [
    "C155_arguments",
    "C155_sorted",
    "C155_unique",
    "C155_idempotent",
    "C155_outside",
    "C155_index_refuted",
    "C155_overflow_refuted",
    "C155_order_refuted",
    "C155_mixed_refuted"
   ],
   "note": "False of the code: numbers stay unsorted around a value of another kind, an index of zero or below sorts by the first column and the least one overflows, an order between -1 and 0 is ascending (refuted). Proved for columns of one kind of comparable values and for every stable sort."
  },
  {
   "property": "C156",
   "status": "proved",
   "theorems": [
    "C156_columns",
    "C156_only_true_is_true"
   ],
   "note": "For rows of one kind of comparable values, like C155."
  },
  {
   "property": "C157",
   "status": "proved",
   "theorems": [
    "C157_sortby",
    "C157_agrees",
    "C157_shape"
   ],
   "note": "For by-arrays of one kind of comparable values, like C155."
  },
  {
   "property": "C158",
   "status": "proved",
   "theorems": [
    "C158_kept",
    "C158_none",
    "C158_shape",
    "C158_determined"
   ],
   "note": ""
  },
  {
   "property": "C159",
   "status": "partial",
   "theorems": [
    "C159_rows",
    "C159_distinct",
    "C159_columns",
    "C159_columns_refuted"
   ],
   "note": "False of the code by column: the distinct columns come out as rows (refuted). Proved by row, and by column up to that transposition."
  },
  {
   "property": "C160",
   "status": "proved",
   "theorems": [
    "C160_transpose",
    "C160_twice"
   ],
   "note": ""
  },
  {
   "property": "C161",
   "status": "partial",
   "theorems": [
    "C161_take",
    "C161_take_too_many",
    "C161_drop",
    "C161_together",
    "C161_columns_together",
    "C161_omitted_refuted",
    "C161_overflow_refuted"
   ],
   "note": "False of the code: a left-out count of rows takes none, and a count below every integer overflows (refuted). Proved for all other counts."
  },
  {
   "property": "C162",
   "status": "proved",
   "theorems": [
    "C162_vstack",
    "C162_vstack_mismatch",
    "C162_hstack",
    "C162_hstack_mismatch",
    "C162_nothing"
   ],
   "note": ""
  },
  {
   "property": "C163",
   "status": "proved",
   "theorems": [
    "C163_list",
    "C163_mode"
   ],
   "note": ""
  },
  {
   "property": "C164",
   "status": "proved",
   "theorems": [
    "C164_rows",
    "C164_columns",
    "C164_outside",
    "C164_one_position"
   ],
   "note": ""
  },
  {
   "property": "C165",
   "status": "partial",
   "theorems": [
    "C165_values",
    "C165_limits",
    "C165_small_refuted",
    "C165_limits_are"
   ],
   "note": "False of the code for fractions below 1E-12 next to an integer, which are rounded away (refuted). Proved within that bound, and exactly for integers."
  },
  {
   "property": "C166",
   "status": "partial",
   "theorems": [
    "C166_cells",
    "C166_compared_cells",
    "C166_operands",
    "C166_numbers",
    "C166_result",
    "C166_errors",
    "C166_errors_refuted",
    "C166_concat",
    "C166_concat_cells_refuted",
    "C166_evaluated",
    "C166_unary_cells",
    "C166_array_literal",
    "C166_operand_values",
    "C166_unary_value",
    "C166_unary_any_cells"
   ],
   "note": "False of the code for &: an error becomes its text and an array is printed, not taken cell by cell (refuted). Proved for arithmetic and comparisons, cells, operands and errors; f64 arithmetic is a parameter."
  },
  {
   "property": "C167",
   "status": "partial",
   "theorems": [
    "C167_consistent",
    "C167_unequal",
    "C167_mirrored",
    "C167_texts",
    "C167_numbers",
    "C167_order_refuted",
    "C167_difference_refuted"
   ],
   "note": "False of the code: < is not transitive, since \"10\" < \"9\" and \"9\" < 10 but not \"10\" < 10, and in a 1904 workbook a date equals a number from which it differs (refuted). Proved: one relation, mirror images, folding and what numbers compare as."
  },
  {
   "property": "C168",
   "status": "partial",
   "theorems": [
    "C168_coincidence",
    "C168_closed",
    "C168_usable",
    "C168_unused",
    "C168_bound",
    "C168_beta",
    "C168_registered_refuted",
    "C168_passed_refuted",
    "C168_at_refuted",
    "C168_range_refuted",
    "C168_nested",
    "C168_let",
    "C168_let_refused",
    "C168_lambda",
    "C168_call",
    "C168_chosen_argument"
   ],
   "note": "False of the code: @x and a function that wants a range do not see a local name, a LAMBDA named like a registered function is never called, and a LAMBDA passed as an argument is lost (refuted). Proved for formulas whose colons and @ have cell references as operands, and for LET against LAMBDA for arguments that are values."
  },
  {
   "property": "C169",
   "status": "proved",
   "theorems": [
    "C169_tree",
    "C169_stored",
    "C169_more_fuel"
   ],
   "note": "The depth of the machine stack is not modelled."
  },
  {
   "property": "C170",
   "status": "partial",
   "theorems": [
    "C170_same",
    "C170_unknown_refuted",
    "C170_colon_refuted",
    "C170_call_refuted",
    "C170_call"
   ],
   "note": "False of the code: an unregistered function inside a formula, a colon and the call of an expression give an error of evaluation in one and an error value in the other (refuted). Proved for formulas without these, and without @ when there is an offset."
  },
  {
   "property": "C171",
   "status": "partial",
   "theorems": [
    "C171_moved",
    "C171_template",
    "C171_at_refuted"
   ],
   "note": "False of the code: a stored formula with @ is not moved (refuted). Proved for trees in full and for stored formulas in which the two evaluators agree."
  },
  {
   "property": "C172",
   "status": "partial",
   "theorems": [
    "C172_reference",
    "C172_range",
    "C172_one_cell",
    "C172_arrays",
    "C172_single_refuted",
    "C172_expressions"
   ],
   "note": "False of the code: a written one-cell range in another row and column gives #VALUE! instead of its cell (refuted). Proved for all other rectangles and for views, with at most one cell meant."
  },
  {
   "property": "C173",
   "status": "proved",
   "theorems": [
    "C173_all_settled",
    "C173_clean_is_settled"
   ],
   "note": "For formulas that give one value and without INDIRECT and OFFSET; arrays are C177. Cycles stamped (the default)."
  },
  {
   "property": "C174",
   "status": "proved",
   "theorems": [
    "C174_pool_is_invisible"
   ],
   "note": "For formulas that give one value. Threads are modelled as evaluating a group before writing it."
  },
  {
   "property": "C175",
   "status": "proved",
   "theorems": [
    "C175_cells_like_all"
   ],
   "note": "For formulas that give one value."
  },
  {
   "property": "C176",
   "status": "proved",
   "theorems": [
    "C176_content_decides"
   ],
   "note": "For formulas that give one value."
  },
  {
   "property": "C177",
   "status": "partial",
   "theorems": [
    "C177_reader_of_array_refuted",
    "C177_stays_stale_refuted"
   ],
   "note": "False of the code: a reader evaluated before the array in the same layer is marked when the array is written and then cleared with the layer; it stays stale through further evaluations (refuted). Proved without arrays (C173)."
  },
  {
   "property": "C178",
   "status": "partial",
   "theorems": [
    "C178_volatile_stays_dirty_partial",
    "C178_former_volatile_refuted"
   ],
   "note": "False of the code: a cell once volatile and then overwritten by a value stays in volatile_vertices, and its readers are evaluated again every time (refuted). Proved: volatile formulas and their users are dirty, and whatever is dirty uses a cell that held a volatile formula."
  },
  {
   "property": "C179",
   "status": "partial",
   "theorems": [
    "C179_index_names_the_cell_partial",
    "C179_one_index_partial",
    "C179_row_then_column_partial",
    "C179_large_index_refuted",
    "C179_panic_refuted",
    "C179_open_range_refuted",
    "C179_open_range_sheet_partial",
    "C179_errors_pass"
   ],
   "note": "False of the code: the index is cut to 32 bits (INDEX(A1:A3,4294967297) is A1), overflow panics in debug builds, and of an open range only the used part counts, so INDEX(A:A,ROWS(A:A)) is #REF! (refuted). Proved for indices below 2^32-2^20."
  },
  {
   "property": "C180",
   "status": "partial",
   "theorems": [
    "C180_literal_as_range_partial",
    "C180_one_index_partial",
    "C180_literal_value",
    "C180_ragged_rows",
    "C180_other_index",
    "C180_large_index_refuted"
   ],
   "note": "False of the code for indices cut to 32 bits (refuted). Proved for indices below 2^32-2^20. Literals with rows of different lengths: C180_ragged_rows."
  },
  {
   "property": "C181",
   "status": "partial",
   "theorems": [
    "C181_offset_moves_partial",
    "C181_offset_off_the_top_partial",
    "C181_moves_add_partial",
    "C181_offset_as_index_partial",
    "C181_below_the_sheet_refuted",
    "C181_far_move_refuted",
    "C181_panic_refuted"
   ],
   "note": "False of the code: there is no last row or column, moves wrap at 2^32, and i64 overflow panics in debug builds (refuted). Proved for results inside the sheet, and before its start for moves below 2^62."
  },
  {
   "property": "C182",
   "status": "proved",
   "theorems": [
    "C182_place_and_size",
    "C182_of_offset",
    "C182_open_sides"
   ],
   "note": "Of references that are cells or ranges; other references are resolved through a parameter."
  },
  {
   "property": "C183",
   "status": "partial",
   "theorems": [
    "C183_indirect_of_address_partial",
    "C183_address_refuses",
    "C183_colon_refuted",
    "C183_r1c1_refuted",
    "C183_indirect_names",
    "C183_indirect_nothing"
   ],
   "note": "False of the code: ADDRESS does not quote a name with a colon, and INDIRECT does not read R1C1 texts (refuted). Proved for A1 texts and all other names that are not empty."
  },
  {
   "property": "C184",
   "status": "partial",
   "theorems": [
    "C184_and_partial",
    "C184_or_partial",
    "C184_order_partial",
    "C184_short_circuit",
    "C184_failure_hides_refuted",
    "C184_failure"
   ],
   "note": "False of the code: an argument whose evaluation fails ends the call, so AND(FOO(),FALSE) is an error while AND(FALSE,FOO()) is FALSE, and an earlier error value is forgotten (refuted). Proved if no evaluation fails before the decision."
  },
  {
   "property": "C185",
   "status": "proved",
   "theorems": [
    "C185_de_morgan",
    "C185_not_not",
    "C185_not",
    "C185_xor"
   ],
   "note": "De Morgan for cells and expressions that are not references; XOR for arguments with one value, or a failed evaluation."
  },
  {
   "property": "C186",
   "status": "partial",
   "theorems": [
    "C186_xor_partial",
    "C186_xor_failure",
    "C186_last_error_refuted",
    "C186_arrays_in_xor",
    "C186_literals_in_and_or",
    "C186_computed_arrays_refuted"
   ],
   "note": "False of the code: of several errors in one range XOR shows the last, and AND and OR take a computed array for one value that is neither (refuted). Proved for at most one error in each argument; for arrays in XOR, and for array literals in AND and OR."
  },
  {
   "property": "C187",
   "status": "partial",
   "theorems": [
    "C187_if_partial",
    "C187_if_error_refuted",
    "C187_ifs_first",
    "C187_ifs_none",
    "C187_ifs_is_if",
    "C187_failure",
    "C187_arity"
   ],
   "note": "False of the code for IF: an error value as condition gives #VALUE! instead of the error (refuted). The rest is proved."
  },
  {
   "property": "C188",
   "status": "partial",
   "theorems": [
    "C188_iferror_partial",
    "C188_ifna_partial",
    "C188_one_cell_refuted",
    "C188_ifna_failure_refuted"
   ],
   "note": "False of the code: an error in an array of one cell is shown but not replaced, and IFNA does not replace a failed evaluation with #N/A (refuted). Proved for all other arguments."
  },
  {
   "property": "C189",
   "status": "partial",
   "theorems": [
    "C189_first_equal",
    "C189_default",
    "C189_error",
    "C189_failure",
    "C189_failed_expression",
    "C189_equality",
    "C189_blank_refuted",
    "C189_transitive_refuted"
   ],
   "note": "False of the code about equality: a blank is not 0 as for the operator =, and equality within 1e-12 is not transitive (refuted). The rest is proved, with reflexivity, symmetry and equality of texts."
  },
  {
   "property": "C190",
   "status": "proved",
   "theorems": [
    "C190_choose",
    "C190_choose_is_switch",
    "C190_index",
    "C190_arity"
   ],
   "note": "The index as an integer or a number, cut by a parameter."
  },
  {
   "property": "C191",
   "status": "partial",
   "theorems": [
    "C191_selection",
    "C191_wanted_partial",
    "C191_blank_row_refuted",
    "C191_number_heading_refuted",
    "C191_failures"
   ],
   "note": "False of the code: a blank row of criteria beside others is left out instead of choosing all records, and criteria below a heading that is a number are left out (refuted). Proved exactly as the code selects, and as stated if all rows ask something, or none does."
  },
  {
   "property": "C192",
   "status": "partial",
   "theorems": [
    "C192_records",
    "C192_counts",
    "C192_criteria_rows",
    "C192_criteria_columns",
    "C192_append",
    "C192_more_rows_partial"
   ],
   "note": "More rows of criteria choose more only if some row asked something before (see the blank row of C191). The rest is proved; the sums and products with order-independent parameters."
  },
  {
   "property": "C193",
   "status": "proved",
   "theorems": [
    "C193_field",
    "C193_no_field",
    "C193_frame"
   ],
   "note": ""
  },
  {
   "property": "C194",
   "status": "partial",
   "theorems": [
    "C194_values",
    "C194_count_partial",
    "C194_text_counted_refuted",
    "C194_average_refuted",
    "C194_counta",
    "C194_empty_text_refuted",
    "C194_extremes",
    "C194_deviation",
    "C194_variance"
   ],
   "note": "False of the code: DCOUNT counts texts that read as numbers, DAVERAGE counts truth values and DCOUNT does not, DCOUNTA counts empty texts (refuted). Proved for columns of numbers and blanks; errors, DMAX, DMIN, DVAR and DSTDEV in general."
  },
  {
   "property": "C195",
   "status": "proved",
   "theorems": [
    "C195_dget",
    "C195_dget_counta",
    "C195_lookup"
   ],
   "note": "DGET gives an error that is the only value as its value."
  },
  {
   "property": "C196",
   "status": "partial",
   "theorems": [
    "C196_one_kind",
    "C196_errors",
    "C196_na",
    "C196_failure",
    "C196_iserror_refuted",
    "C196_arity"
   ],
   "note": "False of the code for ISERROR: an argument that fails to evaluate makes ISERROR fail instead of TRUE (refuted). Proved for every argument with a value."
  },
  {
   "property": "C197",
   "status": "partial",
   "theorems": [
    "C197_iferror_partial",
    "C197_ifna_partial",
    "C197_failure_refuted",
    "C197_one_cell_refuted"
   ],
   "note": "False of the code: an argument that fails to evaluate, and an array of one cell with an error, tell the two forms apart (refuted). Proved for scalar arguments."
  },
  {
   "property": "C198",
   "status": "partial",
   "theorems": [
    "C198_type_partial",
    "C198_type_of_error_refuted",
    "C198_n",
    "C198_t",
    "C198_n_or_t",
    "C198_range_refuted",
    "C198_failure"
   ],
   "note": "False of the code: TYPE of an error is the error, and N and T do not take the first cell of a range (refuted). The rest is proved."
  },
  {
   "property": "C199",
   "status": "partial",
   "theorems": [
    "C199_parity_partial",
    "C199_next_partial",
    "C199_others",
    "C199_failure",
    "C199_whole_partial",
    "C199_large_refuted",
    "C199_dates_refuted",
    "C199_rounding"
   ],
   "note": "False of the code: ISEVEN(2^53+1) is TRUE, ISODD is TRUE of powers of two from 2^63 on, dates and blanks have no parity (refuted). Proved for numbers, truth values and whole numbers below 2^53."
  },
  {
   "property": "C200",
   "status": "proved",
   "theorems": [
    "C200_numbers",
    "C200_tells_apart",
    "C200_error_type"
   ],
   "note": "For arguments that have a value; one that fails to evaluate fails (C198_failure)."
  }
 ]
}
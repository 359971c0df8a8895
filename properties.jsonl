{"id": "C01", "title": "A cell coordinate survives packing", "statement": "Building a coordinate from a row, a column and the two `$` flags and reading it back returns exactly the same row, column and flags; two coordinates with different contents never compare equal. Rows or columns beyond the Excel limits are refused by the fallible constructor and never silently wrapped.", "quantifier": "every row, column (any u32) and flag combination", "why_tests_cant": "2^34 addresses times four flag combinations; packing errors show only where neighbouring bit fields touch.", "anchors": ["crates/formualizer-common/src/coord.rs: Coord::new, Coord::try_new, Coord::row, Coord::col, RelativeCoord::new, row_abs, col_abs"]}
{"id": "C02", "title": "Raw coordinate words are validated exactly", "statement": "A raw 64-bit word is accepted as a coordinate exactly when some legal coordinate produces that word, or it is the documented invalid sentinel; accepted words read back to the word they came from.", "quantifier": "every 64-bit word", "why_tests_cant": "2^64 words; a test samples a handful of reserved-bit patterns.", "anchors": ["crates/formualizer-common/src/coord.rs: Coord::from_raw, Coord::as_u64, RelativeCoord, RESERVED_HIGH_MASK, RESERVED_LOW_MASK"]}
{"id": "C03", "title": "Column letters are a bijection", "statement": "Converting a zero-based column number to letters and back returns the number, converting canonical letters to a number and back returns the (upper-cased) letters, parsing ignores ASCII case, and different columns have different letters.", "quantifier": "every column number the API accepts and every letter string that denotes one", "why_tests_cant": "bijective base-26 errs at the carry boundaries of every length; a test checks some of them.", "anchors": ["crates/formualizer-common/src/coord.rs: column_to_letters, letters_to_column_index, col_letters_from_1based, col_index_from_letters_1based"]}
{"id": "C04", "title": "A1 text round trip", "statement": "The A1 text printed for any in-sheet coordinate with any `$` markers parses back to the same coordinate and markers, and every text the parser accepts denotes an in-sheet coordinate.", "quantifier": "every in-sheet coordinate and marker combination; every input string for the second half", "why_tests_cant": "combines letter, digit and marker parsing across 2^36 coordinates and all strings.", "anchors": ["crates/formualizer-common/src/coord.rs: parse_a1_components, RelativeCoord::try_from_a1, Display for RelativeCoord"]}
{"id": "C05", "title": "Signed coordinate conversion rejects out-of-sheet pairs", "statement": "Converting a signed (row, column) pair to a coordinate succeeds only if both numbers are inside the sheet, and then denotes exactly those numbers.", "quantifier": "every pair of 64-bit signed integers", "why_tests_cant": "the failing inputs are multiples of 2^32 away from legal ones; no test author picks them.", "anchors": ["crates/formualizer-common/src/coord.rs: TryFrom<(i64,i64)> for Coord"]}
{"id": "C06", "title": "Relative references move with the formula and only then", "statement": "Re-basing a reference from one cell to another moves each relative axis by exactly the distance between the cells, leaves each `$` axis unchanged, composes along a chain of moves, and is undone by the reverse move.", "quantifier": "every reference, origin and target for which every position stays on the sheet", "why_tests_cant": "four marker combinations times all displacement triples.", "anchors": ["crates/formualizer-common/src/coord.rs: RelativeCoord::rebase, RelativeCoord::offset"]}
{"id": "C07", "title": "Cells, symbols and the invalid address never collide", "statement": "Addresses made from cells, from symbols (names, tables, sources) and the invalid address are pairwise distinct, each decodes only as what it was made from, and the scheduling order of addresses orders cells row-major before all symbols.", "quantifier": "every cell coordinate, every 32-bit symbol index, every 64-bit word", "why_tests_cant": "a tagging mistake shows only on bit patterns where the two encodings touch.", "anchors": ["crates/formualizer-eval/src/engine/addr.rs: VertexAddr::grid, symbol, as_grid, as_symbol, is_symbol, order_key"]}
{"id": "C08", "title": "Dates survive the trip to a serial number and back", "statement": "For both workbook date systems, converting a calendar date to its serial number and back returns the date, later dates get larger serials, consecutive dates differ by one except across the phantom 29 February 1900 of the 1900 system, whose serial 60 no real date maps to.", "quantifier": "every calendar date the API accepts", "why_tests_cant": "millions of dates, two systems, off-by-one around the phantom day.", "anchors": ["crates/formualizer-common/src/date_serial.rs: date_to_serial_for, try_serial_to_date_for, date_for_whole_serial"]}
{"id": "C09", "title": "Every legal serial shows the date Excel shows", "statement": "A serial is accepted exactly when it lies between 0 and the serial of 31 December 9999 (and is finite); whole serials display distinct dates, including 0 as 1900-01-00 and 60 as 1900-02-29 in the 1900 system, and the display order follows the serial order.", "quantifier": "every whole serial, both date systems", "why_tests_cant": "about three million serials per system with special cases at both ends.", "anchors": ["crates/formualizer-common/src/date_serial.rs: validate_excel_serial, try_serial_to_display_date_parts_for, normalized_serial_parts"]}
{"id": "C10", "title": "EDATE and EOMONTH follow the calendar", "statement": "EDATE(date, n) lands exactly n calendar months later on the same day, or on that month's last day if it has fewer days; EOMONTH(date, n) is the last day of the month n months later; adding months in two steps gives the same month as adding them at once.", "quantifier": "every date and every (positive or negative) number of months whose result is in range", "why_tests_cant": "month-length and leap-year clamping interacts with Euclidean division on negative offsets.", "anchors": ["crates/formualizer-eval/src/builtins/datetime/edate_eomonth.rs: EdateFn, EomonthFn, last_day_of_month"]}
{"id": "C11", "title": "DATE normalises overflowing months and days", "statement": "DATE(y, m, d) denotes the day d-1 days after the first day of the month m-1 months after January of year y, for every integer m and d for which that day exists.", "quantifier": "every integer year, month and day", "why_tests_cant": "the failing region is negative month offsets crossing a year boundary.", "anchors": ["crates/formualizer-eval/src/builtins/datetime/serial.rs: create_date_normalized"]}
{"id": "C12", "title": "Cycle detection finds exactly the circular cells", "statement": "For any set of cells and any precedent edges between them, a cell is reported as circular exactly when it depends on itself directly or through other cells in the set; two cells are reported in the same cycle exactly when each depends on the other.", "quantifier": "every finite dependency graph", "why_tests_cant": "unbounded graph shapes; iterative Tarjan low-link bugs show only on particular back/cross edge patterns.", "anchors": ["crates/formualizer-eval/src/engine/scheduler.rs: Scheduler::tarjan_scc, tarjan_scc_impl, separate_cycles"]}
{"id": "C13", "title": "Every cell is scheduled once, after its precedents", "statement": "The evaluation schedule contains every requested cell exactly once, contains nothing else, and places every non-circular cell strictly after all of its requested precedents, whether the precedent is circular or not.", "quantifier": "every finite dependency graph, with and without cycles", "why_tests_cant": "correctness is over all graphs; a wrong wave order shows only when a cycle feeds an acyclic region that feeds another.", "anchors": ["crates/formualizer-eval/src/engine/scheduler.rs: create_schedule, build_layers, build_condensation_units"]}
{"id": "C14", "title": "Scheduling never fails spuriously", "statement": "Building a schedule succeeds for every dependency graph: the internal 'circular reference' failure is never returned for the acyclic remainder.", "quantifier": "every finite dependency graph", "why_tests_cant": "requires that the cycle split and the layering agree for every graph.", "anchors": ["crates/formualizer-eval/src/engine/scheduler.rs: create_schedule, build_layers"]}
{"id": "C15", "title": "Live cycle analysis agrees with reachability", "statement": "Given the reads actually observed during an iteration, a member is flagged as cyclic exactly if it can reach itself through observed reads, the reported number of cycles is the number of cyclic components, and the reported order puts every member after the members it read unless they are cyclic together.", "quantifier": "every number of members and every observed edge list", "why_tests_cant": "all finite graphs.", "anchors": ["crates/formualizer-eval/src/engine/live_graph.rs: analyze_live_graph"]}
{"id": "C16", "title": "Incremental topological order stays topological", "statement": "When the incrementally maintained order accepts a new dependency, the resulting order respects every dependency accepted so far.", "quantifier": "every sequence of dependency additions", "why_tests_cant": "the failing case needs a particular relative position of three or more nodes.", "anchors": ["crates/formualizer-eval/src/engine/topo/pk.rs: DynamicTopo::try_add_edge, splice_after"]}
{"id": "C17", "title": "The dependency store is a set of edges", "statement": "After any sequence of edge additions, removals, batches and internal compactions, the precedents and dependents reported for a cell are exactly those of the edges added and not since removed, and the two directions agree; compaction never changes an answer.", "quantifier": "every operation sequence over registered vertices", "why_tests_cant": "compaction triggers at thresholds in the middle of arbitrary histories.", "anchors": ["crates/formualizer-eval/src/engine/delta_edges.rs: CsrMutableEdges, DeltaEdgeSlab", "crates/formualizer-eval/src/engine/csr_edges.rs: CsrEdges"]}
{"id": "C18", "title": "Compaction does not forget edges", "statement": "Edges survive compaction even if they were added before their source vertex was registered with the store.", "quantifier": "every interleaving of registrations, additions and compactions", "why_tests_cant": "needs a compaction to fall between an unregistered addition and a query.", "anchors": ["crates/formualizer-eval/src/engine/delta_edges.rs: CsrMutableEdges::rebuild, add_edge, add_vertex"]}
{"id": "C19", "title": "Interval index answers exactly the overlapping entries", "statement": "After any sequence of insertions and removals, a query for an interval returns exactly the values whose stored interval overlaps it, and a removal removes exactly the named value.", "quantifier": "every operation sequence, every query interval", "why_tests_cant": "augmented search-tree pruning goes wrong only for particular shapes.", "anchors": ["crates/formualizer-eval/src/engine/interval_tree.rs: IntervalTree::insert, remove, query"]}
{"id": "C20", "title": "Sheet index answers exactly the cells in a region", "statement": "After any sequence of cell additions, removals and moves, querying a row range, a column range or a rectangle returns exactly the cells currently inside it.", "quantifier": "every operation sequence, every query region", "why_tests_cant": "the index keeps two trees in step over arbitrary histories.", "anchors": ["crates/formualizer-eval/src/engine/sheet_index.rs: SheetIndex"]}
{"id": "C21", "title": "Spill regions are exclusively reserved", "statement": "At every moment, two reserved spill regions held by different owners never overlap; a reservation is refused exactly if it overlaps a region held by another owner; releasing frees exactly the released reservation.", "quantifier": "every sequence of reserve and release calls", "why_tests_cant": "all interleavings of owners and regions.", "anchors": ["crates/formualizer-eval/src/engine/spill.rs: RegionLockManager::reserve, release"]}
{"id": "C22", "title": "Undo restores the state before the last action", "statement": "Whenever undo succeeds, the workbook contents are exactly those before the undone action, and redo immediately afterwards restores the contents after it.", "quantifier": "every history of edits and grouped actions", "why_tests_cant": "histories are unbounded; inverses must compose in reverse order.", "anchors": ["crates/formualizer-eval/src/engine/graph/editor/undo_engine.rs: UndoEngine::undo, redo", "crates/formualizer-eval/src/engine/graph/editor/change_log.rs", "crates/formualizer-workbook/src/workbook.rs: undo, redo"]}
{"id": "C23", "title": "Undo is available after every edit", "statement": "If at least one edit has been recorded and not undone, undo succeeds and reverts the most recent one.", "quantifier": "every history mixing grouped actions, single edits, undo and redo", "why_tests_cant": "fails for particular interleavings of grouped and ungrouped edits.", "anchors": ["crates/formualizer-eval/src/engine/graph/editor/undo_engine.rs: UndoEngine::undo", "crates/formualizer-eval/src/engine/graph/editor/change_log.rs: last_group_indices"]}
{"id": "C24", "title": "Redo never overwrites a newer edit", "statement": "After an undo followed by a new edit, redo does nothing (the redo history is discarded).", "quantifier": "every history in which an edit follows an undo", "why_tests_cant": "needs an interleaving tests for undo/redo pairs do not exercise.", "anchors": ["crates/formualizer-eval/src/engine/graph/editor/undo_engine.rs: UndoEngine::redo"]}
{"id": "C25", "title": "A capped history never yields half an undo", "statement": "If the change history is capped, undo either reverts an entire action or reports that it is unavailable; it never reverts part of an action.", "quantifier": "every cap, every action size", "why_tests_cant": "needs an action longer than the cap.", "anchors": ["crates/formualizer-eval/src/engine/graph/editor/change_log.rs: enforce_cap, last_group_indices"]}
{"id": "C26", "title": "Transaction rollback restores the starting state", "statement": "Rolling back a transaction restores exactly the contents at its start, whatever edits were made in between; committing keeps exactly the contents at commit time; a transaction can be started only if none is active.", "quantifier": "every sequence of edits inside a transaction", "why_tests_cant": "inverse order and skipped markers over arbitrary edit sequences.", "anchors": ["crates/formualizer-eval/src/engine/graph/editor/transaction_context.rs", "crates/formualizer-eval/src/engine/graph/editor/transaction_manager.rs"]}
{"id": "C27", "title": "Savepoints restore the state at which they were taken", "statement": "Rolling back to a named savepoint restores the contents at the most recent savepoint of that name and keeps the transaction open.", "quantifier": "every sequence of edits and savepoints, with repeated names", "why_tests_cant": "needs repeated names or repeated rollbacks.", "anchors": ["crates/formualizer-eval/src/engine/graph/editor/transaction_manager.rs: add_savepoint, get_savepoint, truncate_savepoints", "crates/formualizer-eval/src/engine/graph/editor/transaction_context.rs: rollback_to_savepoint"]}
{"id": "C28", "title": "Inserting rows or columns keeps every reference on its cell", "statement": "After inserting rows or columns, every cell reference and every range in a formula on or off the edited sheet denotes exactly the same cells as before, at their new positions; references to other sheets are untouched.", "quantifier": "every reference, insertion point and count", "why_tests_cant": "all relative positions of edit and reference on both axes.", "anchors": ["crates/formualizer-eval/src/engine/graph/editor/reference_adjuster.rs: ReferenceAdjuster::adjust_cell_ref_with_policy, adjust_reference"]}
{"id": "C29", "title": "Deleting rows or columns keeps exactly the surviving cells", "statement": "After deleting rows or columns, a reference to a deleted cell becomes #REF!, a bounded range denotes exactly the surviving cells of the old range at their new positions and becomes #REF! exactly if none survives.", "quantifier": "every bounded range, deletion start and count", "why_tests_cant": "clipping has six relative positions per axis.", "anchors": ["crates/formualizer-eval/src/engine/graph/editor/reference_adjuster.rs: adjust_reference (DeleteRows/DeleteColumns)"]}
{"id": "C30", "title": "Half-open ranges keep exactly the surviving cells", "statement": "After deleting rows, a range with only an upper or only a lower bound on an axis still denotes exactly the surviving cells of the old range.", "quantifier": "every half-open range, deletion start and count", "why_tests_cant": "depends on the deleted band covering the open range's only bound.", "anchors": ["crates/formualizer-eval/src/engine/graph/editor/reference_adjuster.rs: adjust_reference, adjust_delete"]}
{"id": "C31", "title": "Copying a formula shifts every relative reference", "statement": "Copying a formula by an offset shifts every relative reference anywhere in it by the offset and leaves absolute ones; a reference shifted off the sheet becomes #REF!.", "quantifier": "every formula tree and offset", "why_tests_cant": "a missing recursion case shows only on the node kinds tests do not use.", "anchors": ["crates/formualizer-eval/src/engine/graph/editor/reference_adjuster.rs: RelativeReferenceAdjuster::adjust_formula"]}
{"id": "C32", "title": "Moving a block redirects every reference into it", "statement": "After moving a block, every reference anywhere in any formula that lay inside the block points to the moved position, and every other reference is unchanged.", "quantifier": "every formula tree, block and destination", "why_tests_cant": "a missing recursion case or name comparison shows only on particular formulas.", "anchors": ["crates/formualizer-eval/src/engine/graph/editor/reference_adjuster.rs: MoveReferenceAdjuster"]}
{"id": "C33", "title": "Pending change notices are never lost", "statement": "Every change recorded is eventually handed to a consumer that acknowledges it: acknowledging removes exactly the notices leased, notices recorded while a lease is out stay pending, and a stale lease removes nothing.", "quantifier": "every interleaving of record, lease, extend, acknowledge and release", "why_tests_cant": "a lost notice needs a record between lease and acknowledge, or a stale acknowledge.", "anchors": ["crates/formualizer-eval/src/engine/graph/formula_dirty.rs: FormulaDirtyState"]}
{"id": "C34", "title": "An edit marks exactly the transitive dependents dirty", "statement": "After an edit, every formula that depends on an edited cell directly, through other formulas, through names or through ranges is scheduled for recalculation, and formulas that do not depend on it are not newly scheduled.", "quantifier": "every dependency graph (cyclic too) and every set of edited cells", "why_tests_cant": "reachability over unbounded graphs with three kinds of edges.", "anchors": ["crates/formualizer-eval/src/engine/graph/mod.rs: mark_dirty_many, collect_range_dependents_for_rect"]}
{"id": "C35", "title": "Deferred dirtiness equals immediate dirtiness", "statement": "Batching edits in a deferred scope and flushing once marks the same cells as marking after each edit.", "quantifier": "every sequence of edits and nesting of deferred scopes over a fixed graph", "why_tests_cant": "scopes nest and sources repeat.", "anchors": ["crates/formualizer-eval/src/engine/graph/mod.rs: begin_deferred_dirty, end_deferred_dirty, mark_dirty_many"]}
{"id": "C36", "title": "A range reader is found from every cell of its range", "statement": "When a cell changes, every formula that reads a large range containing the cell is found, whichever way the range is indexed (by column, by row or by block), for bounded and whole-row/whole-column ranges; and no formula whose ranges do not contain the cell is reported.", "quantifier": "every range shape, every cell, with block indexing on or off", "why_tests_cant": "three index layouts times open and closed bounds.", "anchors": ["crates/formualizer-eval/src/engine/graph/range_deps.rs: add_range_dependent_edges", "crates/formualizer-eval/src/engine/graph/mod.rs: collect_range_dependents_for_rect, block_index"]}
{"id": "C37", "title": "Committing a spill is all or nothing", "statement": "Committing a dynamic-array result either writes every result cell and clears every cell of the previous result that is no longer covered, or leaves every cell and every ownership record as it was, wherever in the sequence of writes a failure occurs.", "quantifier": "every previous and new region, every crash point", "why_tests_cant": "crash points are unbounded.", "anchors": ["crates/formualizer-eval/src/engine/graph/mod.rs: commit_spill_region_atomic_with_fault, clear_spill_region"]}
{"id": "C38", "title": "A spilled cell has one owner", "statement": "At all times each spilled cell belongs to exactly one formula, and the cells listed for a formula are exactly those owned by it.", "quantifier": "every sequence of spill commits and clears", "why_tests_cant": "two maps must stay mutually inverse across arbitrary histories.", "anchors": ["crates/formualizer-eval/src/engine/graph/mod.rs: plan_spill_region, commit_spill_region_atomic_with_fault, clear_spill_region"]}
{"id": "C39", "title": "Hidden rows move with their rows", "statement": "After any sequence of hide, unhide, insert-rows and delete-rows calls a row is reported hidden exactly if the row that now stands there was hidden, deleted rows disappear and inserted rows are visible.", "quantifier": "every operation sequence, every row number", "why_tests_cant": "bit-set shifting over 64-bit word boundaries.", "anchors": ["crates/formualizer-eval/src/engine/row_visibility.rs: RowVisibilityState, RowBitSet"]}
{"id": "C40", "title": "Sheet names identify sheets", "statement": "Looking a sheet up by any capitalisation of its name returns the sheet created under it; different live sheets never share a name; ids are never reused; removal and renaming affect only the named sheet.", "quantifier": "every sequence of create, rename and remove calls", "why_tests_cant": "arbitrary histories, including names freed and taken again.", "anchors": ["crates/formualizer-eval/src/engine/sheet_registry.rs: SheetRegistry::id_for, rename, remove, get_id, name"]}
{"id": "C41", "title": "Interned strings are faithful", "statement": "Interning a string and resolving its handle returns the string; equal strings get equal handles, different strings different handles, and handles stay valid while more strings are added.", "quantifier": "every sequence of interned strings", "why_tests_cant": "unbounded histories.", "anchors": ["crates/formualizer-eval/src/engine/arena/string_interner.rs: StringInterner::intern, resolve"]}
{"id": "C42", "title": "Array broadcasting is order independent", "statement": "The broadcast shape of several arrays does not depend on their order, is refused exactly when two of them disagree on an axis where both are longer than one, and each result position reads an existing element of each operand.", "quantifier": "every list of shapes with positive dimensions", "why_tests_cant": "unbounded lists of shapes.", "anchors": ["crates/formualizer-eval/src/broadcast.rs: broadcast_shape, broadcast_dim, project_index"]}
{"id": "C43", "title": "Wildcard matching follows the glob meaning", "statement": "A `*`/`?`/`~` pattern matches a text exactly if the text can be split so that each `*` covers any stretch, each `?` one character and every other character itself, with `~` escaping.", "quantifier": "every pattern and every text", "why_tests_cant": "greedy backtracking bugs need particular repeated patterns.", "anchors": ["crates/formualizer-eval/src/builtins/lookup/lookup_utils.rs: CompiledWildcardPattern::from_folded, matches_folded_chars"]}
{"id": "C44", "title": "Approximate lookup selects the right element", "statement": "On sorted data an approximate lookup returns the position of the largest element not above the key (or the smallest not below it), and nothing if there is none.", "quantifier": "every sorted list and key", "why_tests_cant": "binary-search edge cases over all lengths and duplicate runs.", "anchors": ["crates/formualizer-eval/src/builtins/lookup/core.rs: binary_search_match, MatchFn", "crates/formualizer-eval/src/builtins/lookup/legacy.rs: approx_match_ascending", "crates/formualizer-eval/src/builtins/lookup/dynamic.rs: XMatchFn, XLookupFn"]}
{"id": "C45", "title": "Named ranges shrink with their cells", "statement": "After deleting rows, a name bound to a range denotes the surviving cells of that range, as the same range written in a formula does.", "quantifier": "every named range, deletion start and count", "why_tests_cant": "needs a deletion that covers one corner of the range only.", "anchors": ["crates/formualizer-eval/src/engine/graph/names.rs: adjust_named_definition"]}
{"id": "C46", "title": "Iterative calculation stops only when values settle", "statement": "The convergence test is reflexive for every value, symmetric, and reports convergence for two finite numbers exactly if they differ by less than the configured tolerance; values of different kinds never converge.", "quantifier": "every pair of values and every tolerance", "why_tests_cant": "value kinds cross-multiplied, nested arrays of any shape.", "anchors": ["crates/formualizer-eval/src/engine/convergence.rs: values_converged"]}
{"id": "C47", "title": "Date functions only return serials that are legal dates", "statement": "EDATE, EOMONTH, DATE and WORKDAY return either an error or a serial that the date conversion accepts again; a returned legal serial denotes exactly the date the function computed.", "quantifier": "every argument", "why_tests_cant": "The failing results lie at the two ends of a calendar of three million days.", "anchors": ["crates/formualizer-eval/src/builtins/datetime/edate_eomonth.rs: EdateFn, EomonthFn", "crates/formualizer-eval/src/builtins/datetime/date_time.rs: DateFn", "crates/formualizer-eval/src/builtins/datetime/weekday_workday.rs: WorkdayFn"]}
{"id": "C48", "title": "DATEDIF counts complete years, months and days", "statement": "DATEDIF's Y and M are the largest number of whole years and months that fit between the dates, D is the number of calendar days between them, YM is M modulo 12 and the remaining-days unit is never negative.", "quantifier": "every pair of dates", "why_tests_cant": "Month-length combinations and leap years give a very large number of date pairs with different carry behaviour.", "anchors": ["crates/formualizer-eval/src/builtins/datetime/weekday_workday.rs: DatedifFn"]}
{"id": "C49", "title": "NETWORKDAYS counts exactly the working days and WORKDAY inverts it", "statement": "NETWORKDAYS(a,b) is the number of dates from a to b that are neither weekend nor holiday, negative when reversed and additive over adjoining intervals; WORKDAY(a,n) always terminates and lands on a working day with exactly n working days between; every accepted weekend rule leaves a working day.", "quantifier": "all dates, weekend masks and holiday lists", "why_tests_cant": "Holiday lists and masks are unbounded and the two functions must agree for all of them.", "anchors": ["crates/formualizer-eval/src/builtins/datetime/weekday_workday.rs: NetworkdaysFn, WorkdayFn, NetworkdaysIntlFn, WorkdayIntlFn, weekend_mask_from_code, weekend_mask_from_string"]}
{"id": "C50", "title": "WEEKDAY agrees with the calendar and with the weekend rule", "statement": "WEEKDAY numbers the true weekday of every date according to its return type, and the days it calls Saturday and Sunday are the days NETWORKDAYS skips.", "quantifier": "every date, return type and date system", "why_tests_cant": "Only the 60 serials before March 1900 differ.", "anchors": ["crates/formualizer-eval/src/builtins/datetime/weekday_workday.rs: WeekdayFn, weekday_index_from_serial, is_weekend"]}
{"id": "C51", "title": "TIME wraps around midnight", "statement": "TIME(h,m,s) is the time of day (3600h+60m+s) modulo one day for all integer arguments.", "quantifier": "all integer hours, minutes and seconds", "why_tests_cant": "Overflow needs arguments of particular magnitudes.", "anchors": ["crates/formualizer-eval/src/builtins/datetime/date_time.rs: TimeFn"]}
{"id": "C52", "title": "A successful sheet rename takes effect", "statement": "When renaming a sheet reports success, the sheet carries exactly the new name afterwards and no other sheet's name changes.", "quantifier": "every registry history, sheet and new name", "why_tests_cant": "all names and capitalisations.", "anchors": ["crates/formualizer-eval/src/engine/graph/sheets.rs: DependencyGraph::rename_sheet", "crates/formualizer-eval/src/engine/sheet_registry.rs: SheetRegistry::rename"]}
{"id": "C53", "title": "Lookup comparison is a consistent order", "statement": "The comparison used by every lookup function is a total preorder on the values it can compare: every value equals itself, and below/equal compose.", "quantifier": "all lists of cell values", "why_tests_cant": "cycles need a particular mix of numeric-looking and other texts.", "anchors": ["crates/formualizer-eval/src/builtins/lookup/lookup_utils.rs: cmp_for_lookup, value_to_f64_lenient"]}
{"id": "C54", "title": "Repeating an exact lookup gives the same answer", "statement": "An exact MATCH/VLOOKUP/XLOOKUP over a range answers the same whether it scans the range or uses the index that is built after several calls.", "quantifier": "every range content and needle", "why_tests_cant": "the index is only built after repeated calls, and disagrees only on special values.", "anchors": ["crates/formualizer-eval/src/engine/lookup_index_cache.rs: LookupIndex::build, find_first_exact", "crates/formualizer-eval/src/builtins/lookup/lookup_utils.rs: find_exact_index_in_view"]}
{"id": "C55", "title": "Exact search from either end finds the same set", "statement": "An exact XMATCH/XLOOKUP from first to last finds something exactly if the one from last to first does; they return the first and the last matching position.", "quantifier": "every vector and needle", "why_tests_cant": "the two directions use different code, differing on value kinds.", "anchors": ["crates/formualizer-eval/src/builtins/lookup/dynamic.rs: XMatchFn", "crates/formualizer-eval/src/builtins/lookup/lookup_utils.rs: find_exact_index_in_view"]}
{"id": "C56", "title": "An error inside a searched vector", "statement": "An approximate MATCH over a vector holding an error value reports that error, as documented.", "quantifier": "every vector with an error", "why_tests_cant": "position of the error relative to the bisection.", "anchors": ["crates/formualizer-eval/src/builtins/lookup/core.rs: binary_search_match"]}
{"id": "C57", "title": "MATCH treats an array literal like a range", "statement": "MATCH in approximate mode returns the same result for an array literal as for a range holding the same values.", "quantifier": "every vector and needle", "why_tests_cant": "depends on whether the data are sorted.", "anchors": ["crates/formualizer-eval/src/builtins/lookup/core.rs: MatchFn"]}
{"id": "C58", "title": "A settled component has the demand-driven values", "statement": "With runtime cycle detection, when a statically cyclic component is reported as settled, every recomputed member's formula evaluated on the final values gives its value, and each value is what evaluating the formula on demand (recursively) gives; if no member returns an array, the result does not depend on the values left by earlier recalculations.", "quantifier": "every component, every value-dependent read pattern, both cycle policies, all previous values and exclusions", "why_tests_cant": "which members are re-run depends on positions and change flags over an unbounded number of passes; a missed stale reader shows only for particular switch flips.", "anchors": ["crates/formualizer-eval/src/engine/eval.rs:24714-25211 (evaluate_scc_unit)", "crates/formualizer-eval/src/engine/scc/live_graph.rs"]}
{"id": "C59", "title": "The settle budget is never the reason to stop", "statement": "If no member returns an array, the loop never ends because the pass budget (members + 2) ran out: it always settles, reports a cycle, converges or reaches the configured iteration limit first.", "quantifier": "every component, policy and previous values", "why_tests_cant": "needs an argument that every pass finalises one more level of the demand order; the worst case grows with the component.", "anchors": ["crates/formualizer-eval/src/engine/eval.rs:24714-25211 (evaluate_scc_unit)", "crates/formualizer-eval/src/engine/scc/live_graph.rs"]}
{"id": "C60", "title": "#CIRC! is reported exactly for real cycles", "statement": "A component is reported as cyclic if and only if some member's demand-driven evaluation runs into itself.", "quantifier": "every component and previous values", "why_tests_cant": "the verdict combines reads of one pass made before and after other members changed.", "anchors": ["crates/formualizer-eval/src/engine/eval.rs:24714-25211 (evaluate_scc_unit)", "crates/formualizer-eval/src/engine/scc/live_graph.rs"]}
{"id": "C61", "title": "Members outside the cycle are consistent under the error policy", "statement": "When live cycles are stamped with #CIRC!, exactly the members on a cycle are stamped and every other recomputed member's value is its formula's value on the final values.", "quantifier": "every component and previous values", "why_tests_cant": "the survivors run once in the order of the reads recorded before the stamping.", "anchors": ["crates/formualizer-eval/src/engine/eval.rs:24714-25211 (evaluate_scc_unit)", "crates/formualizer-eval/src/engine/scc/live_graph.rs"]}
{"id": "C62", "title": "Iterative evaluation ends within its limits", "statement": "Evaluation of a component always ends; the passes are bounded by the iteration limit plus members + 1; a convergence verdict compares one whole pass with the values before it; giving up needs at least the configured number of passes; a component without a real cycle never gives up if the limit exceeds the number of members.", "quantifier": "every component, iteration limit, convergence test and previous values", "why_tests_cant": "loop interleaves iteration and settle passes; the bound is over all value-dependent read patterns.", "anchors": ["crates/formualizer-eval/src/engine/eval.rs:24714-25211 (evaluate_scc_unit)", "crates/formualizer-eval/src/engine/scc/live_graph.rs"]}
{"id": "C63", "title": "Undoing a formula brings the overwritten value back", "statement": "Entering a formula over a plain value and undoing it leaves the cell showing that value.", "quantifier": "every value, every formula, every configuration of graph building", "why_tests_cant": "The value lives in a store the graph does not see; needs the pair (eager graph building, change log) that tests do not combine.", "anchors": ["crates/formualizer-workbook/src/workbook.rs: set_formula", "crates/formualizer-eval/src/engine/graph/editor/vertex_editor.rs: apply_inverse", "crates/formualizer-eval/src/engine/eval.rs: mirror_inverse_change_to_arrow"]}
{"id": "C64", "title": "A recalculated formula cell shows its result", "statement": "After a recalculation every cell that holds a formula reads as the computed result, whatever edits, undos and redos came before.", "quantifier": "every history of edits, actions, undo, redo and recalculation, every history cap", "why_tests_cant": "Depends on leftovers in an overlay from arbitrarily old operations.", "anchors": ["crates/formualizer-eval/src/engine/eval.rs: edit_with_logger", "crates/formualizer-eval/src/engine/eval.rs: mirror_inverse_change_to_arrow", "crates/formualizer-workbook/src/workbook.rs: set_formula"]}
{"id": "C65", "title": "Undo works the same before and after a recalculation", "statement": "Recalculating between an edit and its undo does not change what the undo restores.", "quantifier": "every history", "why_tests_cant": "Needs recalculation to move a pending formula into the graph between an edit and its undo.", "anchors": ["crates/formualizer-workbook/src/workbook.rs: set_formula, undo", "crates/formualizer-eval/src/engine/eval.rs: build_graph_all"]}
{"id": "C66", "title": "One undo per edit", "statement": "A single edit made outside any action is taken back by exactly one undo.", "quantifier": "every edit on every cell state, including cells with a pending formula", "why_tests_cant": "Depends on a formula still pending when a value is typed over it.", "anchors": ["crates/formualizer-workbook/src/workbook.rs: set_value, record_staged_formula_cell_change"]}
{"id": "C67", "title": "Undo keeps dependents connected", "statement": "After any history, editing a cell marks every formula that refers to it for recalculation.", "quantifier": "every history of edits, actions, undo, redo and recalculation", "why_tests_cant": "A lost dependency edge shows only when a later edit goes unnoticed.", "anchors": ["crates/formualizer-eval/src/engine/graph/editor/vertex_editor.rs: apply_inverse, remove_vertex", "crates/formualizer-eval/src/engine/graph/mod.rs: mark_dirty"]}
{"id": "C68", "title": "Structural edits never crash on a reference", "statement": "Inserting or deleting rows or columns never crashes while adjusting the formulas of the workbook, and leaves every reference on the sheet or replaced by #REF!.", "quantifier": "every formula and structural edit", "why_tests_cant": "needs a reference to the last rows or columns of the sheet", "anchors": ["crates/formualizer-eval/src/engine/graph/editor/reference_adjuster.rs: adjust_cell_ref_with_policy, adjust_insert", "crates/formualizer-common/src/coord.rs: RelativeCoord::new"]}
{"id": "C69", "title": "A moved formula reads what it read", "statement": "When a block is moved, a formula inside it goes on reading the cells it read: references into the block follow the block and all others stay.", "quantifier": "every formula in every moved block", "why_tests_cant": "tests move blocks whose formulas refer only to the block itself", "anchors": ["crates/formualizer-eval/src/engine/graph/editor/vertex_editor.rs: move_range, copy_range", "crates/formualizer-eval/src/engine/graph/editor/reference_adjuster.rs: RelativeReferenceAdjuster, MoveReferenceAdjuster"]}
{"id": "C70", "title": "A later bulk load keeps earlier dependencies", "statement": "After any number of bulk loads of formulas into an engine that already holds cells, and any later edits, each formula's recorded precedents are the ones of its current formula; loading more formulas never makes the engine forget the dependencies of formulas loaded earlier.", "quantifier": "every history of edits, bulk loads and internal compactions in which only registered cells receive formulas", "why_tests_cant": "the loss only shows at a compaction, which happens after a thousand later edge changes or a moved cell, long after the load that caused it.", "anchors": ["crates/formualizer-eval/src/engine/ingest_builder.rs: BulkIngestBuilder::finish (coord_accum/id_accum)", "crates/formualizer-eval/src/engine/delta_edges.rs: build_from_adjacency, apply_to_csr, rebuild"]}
{"id": "C71", "title": "Formulas inside a range are found after structural edits", "statement": "After any sequence of cell creations and row or column insertions and deletions, the lookup that decides which formulas must be computed before a formula reading a range reports exactly the other formulas needing recalculation whose current cell lies in the range.", "quantifier": "every sequence of creations, insertions and deletions; every range; every set of dirty formulas", "why_tests_cant": "the index is keyed by positions that structural edits change without telling it; a miss only shows as a stale value for particular histories.", "anchors": ["crates/formualizer-eval/src/engine/virtual_deps.rs: get_virtual_deps", "crates/formualizer-eval/src/engine/graph/editor/vertex_editor.rs: move_vertex, insert_columns"]}
{"id": "C72", "title": "A formula loaded in bulk is found from the same cells as one entered by hand", "statement": "For every range a formula reads, loading the formula through the bulk loader registers it so that a change to any cell of the range finds it, as when the formula is entered by itself.", "quantifier": "every range shape, every cell of it", "why_tests_cant": "Loader tests use closed ranges and single whole columns; a block of whole columns or a half-open range takes another branch.", "anchors": ["crates/formualizer-eval/src/engine/ingest_builder.rs: range_key_from_shared", "crates/formualizer-eval/src/engine/graph/range_deps.rs: add_range_deps_from_keys"]}
{"id": "C73", "title": "Redefining a name schedules everything that depends on it", "statement": "After a defined name is given a new definition, every formula that depends on the name directly or through other formulas is scheduled for recalculation.", "quantifier": "every dependency graph and name", "why_tests_cant": "A test sees only the chains it sets up; direct users of the name are recalculated, so the bug shows only at distance two.", "anchors": ["crates/formualizer-eval/src/engine/graph/names.rs: update_name, delete_name", "crates/formualizer-eval/src/engine/graph/mod.rs: mark_vertex_dirty"]}
{"id": "C74", "title": "Inserting rows or columns schedules everything whose value may change", "statement": "After an insertion, every formula whose text was adjusted and every formula that depends on one, directly or through others, is scheduled for recalculation.", "quantifier": "every dependency graph and insertion", "why_tests_cant": "The dependents of an adjusted formula usually move too; only formulas before the insertion point that read an adjusted formula are missed.", "anchors": ["crates/formualizer-eval/src/engine/graph/editor/vertex_editor.rs: insert_rows, insert_columns", "crates/formualizer-eval/src/engine/eval.rs: mark_moved_formula_vertices_dirty"]}
{"id": "C75", "title": "Incremental order yields a complete layering", "statement": "With the incrementally maintained order switched on, any set of scheduled formulas without cycles is split into layers that hold each formula once, after everything it reads, and no layer is wider than the configured width.", "quantifier": "every graph, every set of scheduled formulas, every configured width", "why_tests_cant": "needs formulas that entered by the bulk path without dependencies, or a zero width.", "anchors": ["crates/formualizer-eval/src/engine/topo/pk.rs: DynamicTopo::layers_for", "crates/formualizer-eval/src/engine/graph/mod.rs: pk_layers_for, bulk_set_formulas_with_plans", "crates/formualizer-eval/src/engine/scheduler.rs: create_schedule"]}
{"id": "C76", "title": "Adding a dependency ends", "statement": "Offering a new dependency to the incrementally maintained order always returns, whatever the visit budget.", "quantifier": "every graph, order and visit budget", "why_tests_cant": "the call recurses for ever only when the visited part exceeds the budget (50,000 nodes by default) and a rebuild does not help.", "anchors": ["crates/formualizer-eval/src/engine/topo/pk.rs: DynamicTopo::try_add_edge"]}
{"id": "C77", "title": "Recalculation leaves typed entries alone", "statement": "When an array formula is evaluated again, every cell that holds a formula or value entered by the user, other than the formula's own cell, still holds it afterwards; the formula shows #SPILL! instead if such a cell is in its way.", "quantifier": "all histories of edits and formula results, all array shapes", "why_tests_cant": "an edit of a cell that is already covered by a spill followed by a recalculation is one particular interleaving of an unbounded set; no test edits a covered cell and then recalculates the anchor", "anchors": ["crates/formualizer-eval/src/engine/graph/mod.rs: plan_spill_region_allowing_formula_overwrite", "crates/formualizer-eval/src/engine/eval.rs: plan_array_effects, set_cell_value, set_cell_formula"]}
{"id": "C78", "title": "Replacing a spilling formula removes its spill", "statement": "After a formula whose result spills over other cells is replaced by a value or another formula, the cells it had filled are empty, belong to nobody, and do not block other formulas.", "quantifier": "all histories, all anchors and regions, both edit paths (engine setters and the logged editor)", "why_tests_cant": "tests exercise the editor path with a change log; the direct setters leave the spill maps untouched and only a statement over both paths shows the difference", "anchors": ["crates/formualizer-eval/src/engine/eval.rs: set_cell_value, set_cell_formula", "crates/formualizer-eval/src/engine/graph/mod.rs: set_cell_value", "crates/formualizer-eval/src/engine/graph/editor/vertex_editor.rs: set_cell_value, set_cell_formula"]}
{"id": "C79", "title": "A displayed formula is the stored formula", "statement": "The text that get_formula, cell inspection and the C interface show for a formula, entered again, is parsed as the same formula: same operators, same grouping, same arguments.", "quantifier": "all formula trees (any depth, any mix of operators, calls, arrays and references), both dialects, any number and reference formats that read back on their own", "why_tests_cant": "the parser and the printer each decide grouping on their own; the corpus of round-trip tests has left-grouped comparisons only, and mistakes need a particular operator as the right child of itself, a union as an argument, or an unusual error literal", "anchors": ["crates/formualizer-parse/src/pretty.rs: pretty_print_node, child_needs_parens, unary_operand_needs_parens, canonical_formula", "crates/formualizer-parse/src/parser.rs: Parser::parse_bp, parse_prefix, parse_call_arguments", "crates/formualizer-workbook/src/workbook.rs: get_formula"]}
{"id": "C80", "title": "The tokens spell the formula", "statement": "Every byte of a formula after the '=' belongs to exactly one token, in order; only the sheet name in front of an error literal is left out. Each token consists of bytes its type allows.", "quantifier": "all texts, both dialects, any notion of what is a number", "why_tests_cant": "the tokenizer moves two offsets by hand in a dozen places; a byte lost or counted twice shows only for particular neighbours of quotes, brackets, signs and error codes", "anchors": ["crates/formualizer-parse/src/tokenizer.rs: SpanTokenizer::parse_with_recovery, parse_string, parse_brackets, parse_error, parse_whitespace, parse_operator, parse_opener, parse_closer, parse_separator"]}
{"id": "C81", "title": "Brackets of an accepted formula match", "statement": "If a formula is tokenised without an error, its parentheses, function parentheses and array braces are properly nested and each is closed by its own kind.", "quantifier": "all texts, both dialects", "why_tests_cant": "nesting is unbounded and the stack is shared by three kinds of bracket", "anchors": ["crates/formualizer-parse/src/tokenizer.rs: SpanTokenizer::parse_opener, parse_closer, parse_with_recovery"]}
{"id": "C82", "title": "Parsing drops and reorders nothing", "statement": "Reading the parsed tree from left to right gives the literals, references, operators, function names, separators and array braces of the formula in the order in which they were written; omitted arguments stay omitted arguments.", "quantifier": "all texts that are accepted, both dialects, any depth", "why_tests_cant": "operator precedence parsing rebuilds the order from a token stream; a dropped part yields a well-formed tree that simply computes something else", "anchors": ["crates/formualizer-parse/src/parser.rs: Parser::parse, parse_bp, parse_prefix, parse_primary, parse_function_arguments, parse_call_arguments, parse_array"]}
{"id": "C83", "title": "Reading a formula always ends", "statement": "Tokenising and parsing stop on every text and every token stream, with a tree or an error.", "quantifier": "all texts and all token streams, also ones the tokenizer cannot produce", "why_tests_cant": "an endless loop needs an input on which no branch advances; tests cannot show that none exists", "anchors": ["crates/formualizer-parse/src/tokenizer.rs: SpanTokenizer::parse_with_recovery", "crates/formualizer-parse/src/parser.rs: Parser::parse, parse_bp, parse_call_arguments, parse_array"]}
{"id": "C84", "title": "A reference operator combines any two references", "statement": "A range may start or end in a call (INDEX(..):INDEX(..), A1:INDEX(..)), and a union in parentheses may be an argument of any call.", "quantifier": "all cells, names and calls on either side of the colon; all nestings of calls", "why_tests_cant": "the tokenizer decides from neighbouring bytes whether a colon belongs to an operand; only statements over every pair of neighbours show the side that does not work", "anchors": ["crates/formualizer-parse/src/tokenizer.rs: SpanTokenizer::should_emit_colon_infix, parse_opener", "crates/formualizer-parse/src/parser.rs: Parser::parse_bp, parse_call_arguments"]}
{"id": "C85", "title": "Deeply nested formulas are refused, not fatal", "statement": "However deeply a formula is nested, reading it needs at most a fixed depth of the call stack; deeper formulas are refused with an error.", "quantifier": "all formulas of every nesting depth", "why_tests_cant": "a stack overflow ends the process, so no test of the suite can observe it, and a bound must hold for every depth", "anchors": ["crates/formualizer-parse/src/parser.rs: Parser::parse_bp, parse_prefix, parse_primary, parse_expression"]}
{"id": "C86", "title": "A displayed reference is the stored reference", "statement": "Reading a reference, displaying it and reading the display gives the same reference (up to the two spellings of 'everything' and 'this row' of a table), for cells, ranges, references over sheets, external references, structured references and names.", "quantifier": "all texts in both dialects, all sheet, table and column names", "why_tests_cant": "the display of a name depends on every byte of it (quoting, escapes, reserved words); a finite set of names cannot show that no other name is misread", "anchors": ["crates/formualizer-parse/src/parser.rs: ReferenceType::from_string_with_dialect, parse_excel_reference, Display for ReferenceType, Display for TableSpecifier", "crates/formualizer-parse/src/structured_ref.rs: parse_full_specifier, parse_content, parse_combination_or_item, unescape_name", "crates/formualizer-common/src/address.rs: a1_sheet_name_needs_quoting, format_a1_sheet_name"]}
{"id": "C87", "title": "A reference stays on the sheet", "statement": "Every row and column of a reference that is accepted exists on the sheet, and planning the dependencies of an accepted reference never stops the program.", "quantifier": "all texts in both dialects, all expansion policies", "why_tests_cant": "the limits are checked at different places for cells, for ranges and for packed coordinates; the combination that escapes all of them is one of 2^32 rows", "anchors": ["crates/formualizer-parse/src/parser.rs: parse_range_part_with_abs, parse_excel_reference", "crates/formualizer-common/src/coord.rs: RelativeCoord::new, Coord::from_excel", "crates/formualizer-eval/src/engine/ingest_pipeline.rs: collect_reference"]}
{"id": "C88", "title": "The dependencies of a range are exactly its cells", "statement": "The cells and regions planned for a range cover a cell if and only if the cell lies in the range, whatever the expansion policy, for finite, open and mixed ranges; a rectangle may be written from any of its corners.", "quantifier": "all ranges, all cells, all policies and limits", "why_tests_cant": "covers every range size on both sides of the expansion limit and every combination of missing bounds", "anchors": ["crates/formualizer-eval/src/engine/ingest_pipeline.rs: collect_reference", "crates/formualizer-eval/src/engine/refs.rs: finite_bounds, is_reversed, saturating_area", "crates/formualizer-parse/src/parser.rs: to_sheet_ref_lossy"]}
{"id": "C89", "title": "References over several sheets are read", "statement": "First:Last!A1 names the cell on every sheet from First to Last, whether the names are quoted separately or, as Excel writes them, together.", "quantifier": "all pairs of sheet names, all cells", "why_tests_cant": "the reading depends on each byte of both names", "anchors": ["crates/formualizer-parse/src/parser.rs: extract_sheet_spec, read_sheet_segment, parse_3d_reference"]}
{"id": "C90", "title": "Every column of a table can be named", "statement": "A column name written with an apostrophe before each special byte, alone or for this row, denotes that column.", "quantifier": "all table names, all column names", "why_tests_cant": "the escapes interact with the search for brackets, commas, colons and exclamation marks; only a statement over all names shows which name breaks it", "anchors": ["crates/formualizer-parse/src/parser.rs: parse_table_reference, parse_excel_reference, extract_sheet_spec", "crates/formualizer-parse/src/structured_ref.rs: parse_full_specifier, parse_content, parse_at_shorthand, strip_outer_brackets, unescape_name"]}
{"id": "C91", "title": "References in OpenFormula notation", "statement": "[sheet.A1] and [sheet.A1:sheet.B2], with or without sheets, quotes and dollar signs, denote the cell and the range; a malformed reference is refused.", "quantifier": "all sheet names, all cells and ranges", "why_tests_cant": "quotes, dots and colons may occur inside the sheet name", "anchors": ["crates/formualizer-parse/src/parser.rs: parse_openformula_reference, parse_openformula_part, normalise_openformula_sheet, find_openformula_sheet_separator, from_string_with_dialect"]}
{"id": "C92", "title": "An overlay is the map its history wrote", "statement": "After any sequence of single-cell writes and removals, sparse, dense and run-length fragment writes, range removals, clears, format changes and slices, reading an offset gives the last value written there that was not removed since, and the format last set.", "quantifier": "all histories, all offsets", "why_tests_cant": "fragments are cut at arbitrary places and fall back to another form after 128 holes; the cases multiply with every call", "anchors": ["crates/formualizer-eval/src/arrow_store/mod.rs: get_scalar, set_scalar, remove_scalar, apply_fragment, remove_range, clear_all, slice, subtract_fragment, subtract_interval, subtract_sparse_offsets, dense_segment_with_start, run_segment_with_start"]}
{"id": "C93", "title": "Listing an overlay", "statement": "iter lists every stored offset once, in ascending order, with the value get_scalar gives; len is the number of entries, is_empty and has_any_in_range agree with them.", "quantifier": "all histories, all ranges", "why_tests_cant": "four separate walks over points and three kinds of fragments must agree", "anchors": ["crates/formualizer-eval/src/arrow_store/mod.rs: iter, len, is_empty, has_any_in_range, cells, coverage_len, intersects_interval"]}
{"id": "C94", "title": "Values written as runs are read back", "statement": "A list of values written as a run-length fragment is read back value by value.", "quantifier": "all lists of values, all offsets", "why_tests_cant": "merging depends on the equality of neighbouring values, which differs from identity only on rare floats", "anchors": ["crates/formualizer-eval/src/arrow_store/mod.rs: run_range, run_range_from_parts, get_scalar"]}
{"id": "C95", "title": "Every overlay call returns the change of its size", "statement": "set_scalar, remove_scalar, remove_range and apply_fragment return the difference between the estimated sizes of the stored content after and before.", "quantifier": "all histories and calls", "why_tests_cant": "the change is assembled from points and from fragments that are split, dropped or converted", "anchors": ["crates/formualizer-eval/src/arrow_store/mod.rs: set_scalar, remove_scalar, remove_range, apply_fragment, remove_points_covered_by_fragment, remove_fragments_covered_by_fragment"]}
{"id": "C96", "title": "The estimated size is that of the content", "statement": "estimated_bytes is the sum of the estimates of the stored points and fragments.", "quantifier": "all histories", "why_tests_cant": "the counter drifts only when a cell is overwritten while fragments are present", "anchors": ["crates/formualizer-eval/src/arrow_store/mod.rs: estimated_bytes, adjust_estimated_bytes, remove_scalar, clear_all"]}
{"id": "C97", "title": "A sheet of the column store is a grid of cells", "statement": "After any history of value writes, clears, computed results, formats, compactions, and insertions and deletions of rows and columns, get_cell_value and format_id answer, for every cell, what a plain grid gives when the same calls are applied to whole rows and columns; nrows and the number of columns are those of the grid.", "quantifier": "all histories whose row insertions are at most one chunk, that do not insert or delete rows while the sheet has rows but no column, and whose rows fit in u32; all chunk sizes", "why_tests_cant": "rows are cut into chunks that are split, sliced, grown and kept dense or sparse per column; the combinations of layouts are unbounded", "anchors": ["crates/formualizer-eval/src/arrow_store/mod.rs: get_cell_value, format_id, chunk_of_row, ensure_row_capacity, ensure_column_chunk_mut, slice_chunk, insert_rows, delete_rows, insert_columns, delete_columns, recompute_chunk_starts, maybe_compact_chunk, compact_computed_overlay_chunk", "crates/formualizer-eval/src/engine/eval.rs: mirror_value_to_overlay, clear_delta_overlay_cell, write_computed_overlay_value_0based, clear_computed_overlay_after_row, clear_computed_overlay_after_col"]}
{"id": "C98", "title": "The last write to a cell is read back", "statement": "A literal that was written, or a result that was computed for a formula or spill cell, is what get_cell_value returns at the place the cell has moved to, until that cell is written again or its result is dropped; a cell never written reads empty.", "quantifier": "all such histories", "why_tests_cant": "a lost or misplaced value needs a particular sequence of splits, growth and compaction", "anchors": ["crates/formualizer-eval/src/arrow_store/mod.rs: get_cell_value, insert_rows, delete_rows, ensure_row_capacity, maybe_compact_chunk", "crates/formualizer-eval/src/engine/eval.rs: mirror_value_to_overlay, write_computed_overlay_value_0based"]}
{"id": "C99", "title": "Edits of a sheet do not crash", "statement": "No history of writes and of insertions and deletions of rows and columns makes a later call panic.", "quantifier": "all histories", "why_tests_cant": "the panic needs a sheet that has rows but no column", "anchors": ["crates/formualizer-eval/src/arrow_store/mod.rs: insert_rows, delete_rows, recompute_chunk_starts, chunk_of_row", "crates/formualizer-eval/src/engine/eval.rs: insert_rows, ensure_arrow_sheet, mirror_value_to_overlay"]}
{"id": "C100", "title": "Values survive a large row insertion", "statement": "A value written after an insertion of any number of rows is still read after the sheet has grown.", "quantifier": "all histories", "why_tests_cant": "it needs an insertion of more than 32768 rows at the end, a write into it, and a later growth", "anchors": ["crates/formualizer-eval/src/arrow_store/mod.rs: insert_rows, ensure_row_capacity, ensure_column_chunk_mut, get_cell_value"]}
{"id": "C101", "title": "Compaction does not change what is shown", "statement": "maybe_compact_chunk and compact_computed_overlay_chunk leave the value and format of every cell as they are.", "quantifier": "all histories, columns, chunks and thresholds", "why_tests_cant": "a difference shows only when a chunk is compacted while both overlays hold a cell", "anchors": ["crates/formualizer-eval/src/arrow_store/mod.rs: maybe_compact_chunk, compact_computed_overlay_chunk, get_cell_value"]}
{"id": "C102", "title": "A literal replaced by a formula is not shown again", "statement": "Once a formula has been set in a cell, the literal that was there before is not read back, also when the results are dropped by a structural edit.", "quantifier": "all histories", "why_tests_cant": "the literal must have been compacted into the base of its chunk before", "anchors": ["crates/formualizer-eval/src/engine/eval.rs: clear_delta_overlay_cell, clear_computed_overlay_after_row, insert_rows", "crates/formualizer-eval/src/arrow_store/mod.rs: maybe_compact_chunk, get_cell_value"]}
{"id": "C103", "title": "Format runs give back the formats", "statement": "FormatRuns built from a list of formats returns each of them at its place, General past the end, and a slice of the runs returns the formats of the slice.", "quantifier": "all lists, offsets and slices", "why_tests_cant": "off-by-one errors at run ends show only for particular run boundaries", "anchors": ["crates/formualizer-eval/src/arrow_store/mod.rs: FormatRuns::from_ids, get, slice"]}
{"id": "C104", "title": "Operators group by precedence", "statement": "A formula is grouped as the documented table says: comparisons bind weakest, then &, + and -, * and /, ^ (to the right), signs, %, union, intersection, range, spill; all others group to the left; parentheses and argument lists override. Each formula has only one reading.", "quantifier": "all token lists derived by the grammar, any length and nesting, any blanks between tokens", "why_tests_cant": "precedence shows only in combinations of operators; a wrong level or associativity gives a well-formed tree, and the number of combinations grows with every operand", "anchors": ["crates/formualizer-parse/src/parser.rs: Parser::parse_bp, parse_prefix, parse_primary, parse_function_arguments, span_precedence", "crates/formualizer-parse/src/tokenizer.rs: Token::get_precedence"]}
{"id": "C105", "title": "A sign belongs to an exponent only after a mantissa", "statement": "In a formula without blanks and brackets every operator separates two operands, except that + or - between a decimal number ending in E and a digit is part of the number.", "quantifier": "all words, all operators, formulas of any length, both dialects, any notion of what is a number", "why_tests_cant": "names such as AE or 1E2E followed by a sign look like exponents to a byte-wise test; the exact border needs every word", "anchors": ["crates/formualizer-parse/src/tokenizer.rs: SpanTokenizer::check_scientific_notation, is_scientific_notation_base, parse_operator"]}
{"id": "C106", "title": "Blanks and colons between references are operators", "statement": "Blanks containing a space between two cells are the intersection operator; a colon between two cells that name their sheets is the range operator.", "quantifier": "all cells with or without dollar signs, all runs of blanks, all quoted sheet names including ones with apostrophes, colons and exclamation marks", "why_tests_cant": "the decision is taken by scanning neighbouring bytes with quote counting; only some combinations of quotes and signs go wrong", "anchors": ["crates/formualizer-parse/src/tokenizer.rs: parse_whitespace, prev_is_reference_producing, is_cell_reference_like, should_emit_colon_infix, next_reference_has_sheet_qualifier"]}
{"id": "C107", "title": "Regions behave as sets of cells", "statement": "A region (each axis a point, an interval, open at an end or whole) contains, meets, covers and intersects as the set of its cells does; normalising keeps the set; shifting keeps every cell that stays on the sheet, and for bounded regions nothing else.", "quantifier": "all regions of u32 coordinates, all cells, all shifts", "why_tests_cant": "five kinds of axis make hundreds of pairs, and the borders at 0 and u32::MAX are only met by chance", "anchors": ["crates/formualizer-eval/src/formula_plane/region_index.rs: AxisRange, Region::contains_key, intersects, intersection, contains_region, normalized, project_through_axis_shift"]}
{"id": "C108", "title": "The region index finds exactly what meets a query", "statement": "After any insertions and clears, a query of the region index reports exactly the entries inserted since the last clear whose region meets the query, each once; the bounded query reports the same or that its budget was exceeded.", "quantifier": "all histories of insertions and clears, all regions and queries, all bucket sizes, all hash orders", "why_tests_cant": "the index splits entries over buckets, interval trees and lists; a missed pair of shapes loses an update silently", "anchors": ["crates/formualizer-eval/src/formula_plane/region_index.rs: RegionIndex::insert, clear, query, query_bounded, visit_bounded_candidates"]}
{"id": "C109", "title": "A bounded query answers when its budget suffices", "statement": "For every query there is a budget from which on the bounded query answers.", "quantifier": "all indexes and queries", "why_tests_cant": "a shape without a case looks like an exhausted budget; only a proof over budgets tells them apart", "anchors": ["crates/formualizer-eval/src/formula_plane/region_index.rs: RegionIndex::query_bounded, visit_bounded_candidates"]}
{"id": "C110", "title": "The read summary of a span is exact", "statement": "The regions a span is said to read are exactly the cells that some formula of the span reads, and each cell is attributed to exactly the formulas that read it.", "quantifier": "all domains, all cell, range and whole-column precedents with relative and absolute bounds", "why_tests_cant": "a reversed or mixed bound shrinks to the wrong side only for some placements", "anchors": ["crates/formualizer-eval/src/formula_plane/producer.rs: SpanReadSummary::from_formula_summary, DirtyProjectionRule::read_region_for_result, read_regions_for_result"]}
{"id": "C111", "title": "A change reaches every formula of a span that reads it", "statement": "Projecting a changed region through a rule names every placement that reads a changed cell, only placements of the span, and is supported whenever the span was accepted.", "quantifier": "all rules, changes, read and result regions, including open and whole ranges", "why_tests_cant": "the projection is inverse arithmetic with clamping; a missed placement is a stale value", "anchors": ["crates/formualizer-eval/src/formula_plane/producer.rs: DirtyProjectionRule::project_changed_region, project_changed_axis, project_changed_range_axis, project_axis_range_through_offset"]}
{"id": "C112", "title": "A change reaches no other formula of a span", "statement": "Every placement named by the projection of a change reads a changed cell.", "quantifier": "all rules, changes and accepted spans", "why_tests_cant": "over-approximation is invisible in results and only costs time", "anchors": ["crates/formualizer-eval/src/formula_plane/producer.rs: DirtyProjectionRule::project_changed_region"]}
{"id": "C113", "title": "The dirty closure recomputes every formula out of date", "statement": "A completed closure without fallback contains, for every formula that depends directly or through others on a changed cell, its placement; everything recomputed is reported as changed; accepted spans never fall back; a closure over its limit reports nothing else.", "quantifier": "all sets of spans with any dependencies including cycles, all changes, all limits, all hash orders", "why_tests_cant": "chains through several spans with partial overlaps; the merged domains and the already-seen regions interact", "anchors": ["crates/formualizer-eval/src/formula_plane/producer.rs: compute_dirty_closure, apply_dirty_projection, FormulaConsumerReadIndex::query_changed_region"]}
{"id": "C114", "title": "The dirty closure recomputes no other formula", "statement": "Every placement in the work of a completed closure depends directly or through others on a changed cell.", "quantifier": "all sets of spans, all changes, all limits", "why_tests_cant": "over-approximation is invisible in results", "anchors": ["crates/formualizer-eval/src/formula_plane/producer.rs: compute_dirty_closure, apply_dirty_projection"]}
{"id": "C115", "title": "Dirty domains merge to unions and restrict to intersections", "statement": "Merging two dirty domains of a span gives the union of their cells; restricting one to demanded regions gives exactly the demanded cells, or nothing if there are none.", "quantifier": "all domains (whole, cells, regions), all demands", "why_tests_cant": "nine combinations of representations with conversions between them", "anchors": ["crates/formualizer-eval/src/formula_plane/producer.rs: ProducerDirtyDomain::merge, intersect_demanded, result_regions"]}
{"id": "C116", "title": "An insertion or deletion classifies regions as their cells move", "statement": "A region is classified as unmoved, moved by a distance, deleted or cut exactly as all its cells stay, all move by that distance, all go, or do none of these together.", "quantifier": "all insertions and deletions of rows and columns, all regions including open and whole ones", "why_tests_cant": "the borders of the edit meet the borders of five kinds of axis; an off-by-one shows only for adjacent ones", "anchors": ["crates/formualizer-eval/src/formula_plane/structural_shift.rs: classify_axis, classify_region"]}
{"id": "C117", "title": "Spans that an edit keeps or moves whole follow their cells", "statement": "When an insertion or deletion keeps a span, moves it, rewrites it or removes it, its placements are the old ones at their new places, each formula reads where the cells it read have gone and nothing brought in by the edit, formulas shown and computed agree, and the summary of reads is exact again.", "quantifier": "all edits, all spans with any cell, range and whole-column references, relative, absolute and mixed, to the same and other sheets, with templates written for any cell", "why_tests_cant": "which reads move with the span, stay or are rewritten is decided per span from summaries; a wrong combination gives plausible wrong values only for some origins and offsets", "anchors": ["crates/formualizer-eval/src/formula_plane/structural_shift.rs: classify_span_for_op, rewrite_frame_is_sound", "crates/formualizer-eval/src/engine/eval.rs: shift_spans_for_structural_op (shift and rewrite arms), shifted_read_summary", "crates/formualizer-eval/src/formula_plane/runtime.rs: PlacementDomain::project_through_axis_shift, replace_span_geometry"]}
{"id": "C118", "title": "The halves of a span that an insertion divides follow their cells", "statement": "When an insertion divides a span, the two halves hold exactly the old placements at their new places, no placement twice, each formula follows the cells it reads, and both summaries are exact.", "quantifier": "all insertions, all spans, including those whose template is shared with spans elsewhere", "why_tests_cant": "needs a span that shares its template and an insertion into its middle; single-span tests agree by accident", "anchors": ["crates/formualizer-eval/src/engine/eval.rs: plan_span_split and the commit of split plans, rederive_read_summary_for_result", "crates/formualizer-eval/src/formula_plane/structural_shift.rs: split_domain_at"]}
{"id": "C119", "title": "A span that a deletion cuts follows its cells", "statement": "When a deletion takes some of a span's placements and the span is compacted, the surviving formulas read where the cells they read have gone, and the summary is exact.", "quantifier": "all deletions, all spans", "why_tests_cant": "compaction keeps the formulas and moves only summaries; the damage depends on the offset, sheet and bounds of each reference", "anchors": ["crates/formualizer-eval/src/engine/eval.rs: compact_domain_through_delete, compact_read_summary_through_delete, compact_region_through_delete, origin_through_delete"]}
{"id": "C120", "title": "The literals of a formula stay with it", "statement": "After an edit that keeps, moves, divides or compacts a span, each surviving placement has the literals it had.", "quantifier": "all edits, all literal encodings, all spans", "why_tests_cant": "literals are encoded by position; only some encodings depend on the sheet row", "anchors": ["crates/formualizer-eval/src/formula_plane/runtime.rs: SpanBindingSet::literal_bindings_for_placement, is_single_literal_binding, PlacementDomain::ordinal_of", "crates/formualizer-eval/src/engine/eval.rs: shift_spans_for_structural_op"]}
{"id": "C121", "title": "Spans follow their cells through whole histories of edits", "statement": "After any sequence of insertions and deletions a span that is still a span computes at each placement what its original formula read, wherever those cells have gone, and is in good order for further edits.", "quantifier": "all histories of insertions and deletions", "why_tests_cant": "each edit rewrites frames, origins and summaries that the next one relies on", "anchors": ["crates/formualizer-eval/src/engine/eval.rs: shift_spans_for_structural_op", "crates/formualizer-eval/src/formula_plane/structural_shift.rs: classify_span_for_op"]}
{"id": "C122", "title": "An edit touches only spans it is told about and marks the cells that moved", "statement": "A span neither placed in nor reading from the rows or columns at or after the edit is kept as it is and stays right; the region marked for recomputation after an edit holds exactly the placements that moved.", "quantifier": "all edits and spans", "why_tests_cant": "candidates are found by an index query over regions; a region too small is a stale span", "anchors": ["crates/formualizer-eval/src/engine/eval.rs: structural_row_region, structural_col_region, structural_dirty_region_for_domain"]}
{"id": "C123", "title": "A fresh span is in good order", "statement": "The summary derived from the references of a template at its origin names exactly the cells its placements read, for every set of placements whose reads stay on the sheet.", "quantifier": "all templates and domains", "why_tests_cant": "mixed relative and absolute bounds shape the region differently at each placement", "anchors": ["crates/formualizer-eval/src/formula_plane/producer.rs: SpanReadSummary::from_formula_summary"]}
{"id": "C124", "title": "Equal template keys mean copies", "statement": "Two formulas that the formula plane supports have the same exact template key exactly when the second is the first copied from one cell to the other: relative references shifted by the distance, all else the same, functions with the same identity. Formulas with equal keys are both supported or both not.", "quantifier": "all formulas at all cells, all function providers", "why_tests_cant": "a clash needs two formulas whose printed keys coincide across the borders of fields; random pairs never collide", "anchors": ["crates/formualizer-eval/src/formula_plane/template_canonical.rs: canonicalize_template, CanonicalExpr::write_payload, CanonicalLabels::write_payload", "crates/formualizer-eval/src/formula_plane/function_contract.rs: encode_into"]}
{"id": "C125", "title": "Equal parameterized keys mean copies up to scalar literals", "statement": "Two supported formulas have the same parameterized key exactly when the second is a copy of the first in which scalar literals may differ; then their literal slots are as many, in the same contexts, and the slots hold the literals in the order they are written.", "quantifier": "all formulas at all cells, all function providers", "why_tests_cant": "grouping formulas wrongly shows only for rare pairs of formulas; slots in another order need several literals", "anchors": ["crates/formualizer-eval/src/formula_plane/template_canonical.rs: parameterized payload, literal slots"]}
{"id": "C126", "title": "A placement of a span is evaluated as its own formula", "statement": "When formulas with equal parameterized keys are put into one span, what is evaluated at a placement is the formula written there.", "quantifier": "all formulas and placements", "why_tests_cant": "needs a template that repeats a literal and a placement where the repetitions differ", "anchors": ["crates/formualizer-eval/src/formula_plane/placement.rs: build_template_slot_map, build_span_binding_set", "crates/formualizer-eval/src/engine/arena/ast.rs: insert_entry", "crates/formualizer-eval/src/interpreter.rs: literal binding of template slots, shift_axis_for_offset"]}
{"id": "C127", "title": "Memoised and constant spans write the values of one by one evaluation", "statement": "However the placements of a span are grouped, each placement that no edit covers is written once, with the value that evaluating its own formula there gives, and no other cell is written.", "quantifier": "all templates, literals, worlds and interpreters, all orders of groups", "why_tests_cant": "a parameter key that leaves out something a formula can see is wrong only for placements that agree on the rest", "anchors": ["crates/formualizer-eval/src/formula_plane/span_eval.rs: evaluate_task, should_try_memoization, memo groups, parameter_key_for_placement", "crates/formualizer-eval/src/formula_plane/placement.rs: is_constant_result"]}
{"id": "C128", "title": "Every evaluated placement gets its derived format", "statement": "Evaluating a span records the derived number format of each placement it evaluates.", "quantifier": "all spans", "why_tests_cant": "the format is missing only when the evaluation is memoised or constant, which small tests are not", "anchors": ["crates/formualizer-eval/src/formula_plane/span_eval.rs: evaluate_task, evaluate_memoized, record_cell_derived_format"]}
{"id": "C129", "title": "A value put into the arena comes back", "statement": "Storing a value in a data store that is not full succeeds, and reading it back, then or after any further values and formulas were stored, gives the value that was stored.", "quantifier": "all values, all histories of a data store", "why_tests_cant": "a packed reference goes wrong only near the borders of its fields or after millions of entries; shapes of nested and uneven arrays are endless", "anchors": ["crates/formualizer-eval/src/engine/arena/data_store.rs: store_value, retrieve_value", "crates/formualizer-eval/src/engine/arena/value_ref.rs: small_int, as_small_int, large_int", "crates/formualizer-eval/src/engine/arena/scalar.rs: insert_float, insert_integer, get_float, get_integer", "crates/formualizer-eval/src/engine/arena/array.rs: insert, get_2d, elements", "crates/formualizer-eval/src/engine/arena/error_arena.rs: insert, get"]}
{"id": "C130", "title": "A stored formula comes back as it was", "statement": "Storing the tree of a formula in a data store that is not full succeeds, and rebuilding it, then or after any further values and formulas were stored, gives the same formula; each sheet that existed when it was stored is written with the name the sheet has now, and every other sheet name as it was written.", "quantifier": "all formulas, all histories of a data store, all changes of the sheets", "why_tests_cant": "needs formulas of every shape mixed in one arena, with shared nodes, colliding hashes and renamed sheets", "anchors": ["crates/formualizer-eval/src/engine/arena/data_store.rs: store_ast, convert_ast_node, convert_reference_type, retrieve_ast, reconstruct_ast_node, reconstruct_reference_type", "crates/formualizer-eval/src/engine/arena/ast.rs: insert_entry, insert_function, insert_array, intern_table_specifier"]}
{"id": "C131", "title": "Formulas share a node exactly when they are the same", "statement": "Two formulas stored at any two times get the same node only if they are the same formula; storing a formula that the data store already holds gives the node it has and stores nothing new.", "quantifier": "all formulas, all histories of a data store without clashing hashes", "why_tests_cant": "sharing goes wrong when an earlier node is overwritten in the map of hashes, which needs a long history", "anchors": ["crates/formualizer-eval/src/engine/arena/ast.rs: insert_entry, insert_function, hash_node, intern_table_specifier", "crates/formualizer-eval/src/engine/arena/error_arena.rs: insert", "crates/formualizer-eval/src/engine/arena/data_store.rs: convert_ast_node"]}
{"id": "C132", "title": "Numbers and their binary, octal and hexadecimal texts", "statement": "BIN2DEC, OCT2DEC and HEX2DEC give exactly the number that a text of at most ten digits stands for in two's complement and #NUM! for every other text; DEC2BIN, DEC2OCT and DEC2HEX give the shortest such text, or the one of the requested length, and #NUM! if there is none; reading what was written gives the number back.", "quantifier": "all texts, all numbers, all lengths", "why_tests_cant": "the hexadecimal range has 2^40 numbers and the sign depends on length and first digit together", "anchors": ["crates/formualizer-eval/src/builtins/engineering.rs: Bin2DecFn::eval, Oct2DecFn::eval, Hex2DecFn::eval, Dec2BinFn::eval, Dec2OctFn::eval, Dec2HexFn::eval, coerce_base_text"]}
{"id": "C133", "title": "Conversions between bases go through decimal", "statement": "Each of BIN2HEX, BIN2OCT, OCT2BIN, OCT2HEX, HEX2BIN and HEX2OCT gives what converting to decimal and then to the target base gives, errors included; converting to hexadecimal and back keeps the number.", "quantifier": "all arguments", "why_tests_cant": "six copies of the same code with different limits; an error shows only at one of them and only for signs, ranges and lengths that meet", "anchors": ["crates/formualizer-eval/src/builtins/engineering.rs: Bin2HexFn::eval, Hex2BinFn::eval, Bin2OctFn::eval, Oct2BinFn::eval, Hex2OctFn::eval, Oct2HexFn::eval"]}
{"id": "C134", "title": "Bit functions compute the bits", "statement": "BITAND, BITOR and BITXOR combine every bit of whole numbers below 2^48; BITLSHIFT and BITRSHIFT multiply or divide by the power of two, giving #NUM! if the result reaches 2^48 or the left shift reaches 48; any other number is refused with #NUM!.", "quantifier": "all numbers, all shifts", "why_tests_cant": "the range of pairs is 2^96; overflow of the machine word shows only for some pairs of number and shift", "anchors": ["crates/formualizer-eval/src/builtins/engineering.rs: to_bitwise_int, BitAndFn::eval, BitOrFn::eval, BitXorFn::eval, BitLShiftFn::eval, BitRShiftFn::eval"]}
{"id": "C135", "title": "Roman numerals are read back", "statement": "ROMAN writes the classic numeral digit by digit; ARABIC counts every letter, negatively before a greater one, and refuses invalid numerals; for every number and every form, ARABIC of ROMAN is the number.", "quantifier": "all numbers and forms, all texts", "why_tests_cant": "textual replacement of groups of letters goes wrong only for particular neighbouring digits", "anchors": ["crates/formualizer-eval/src/builtins/math/numeric.rs: roman_classic, roman_apply_form, roman_digit_value, RomanFn::eval, ArabicFn::eval"]}
{"id": "C136", "title": "GCD and LCM are the greatest divisor and the least multiple", "statement": "GCD of any arguments is their greatest common divisor and LCM their least common multiple, after truncation.", "quantifier": "all lists of numbers", "why_tests_cant": "lists are unbounded, and the product overflows only for several large coprime arguments", "anchors": ["crates/formualizer-eval/src/builtins/math/combinatorics.rs: GcdFn::eval, LcmFn::eval"]}
{"id": "C137", "title": "BASE and DECIMAL are inverse", "statement": "BASE writes the shortest digits of at least the requested length, DECIMAL reads exactly the digits of the radix with an optional sign within 64 bits, and DECIMAL of BASE is the number, in every radix from 2 to 36.", "quantifier": "all numbers, radices and lengths", "why_tests_cant": "35 radices and 2^63 numbers; overflow checks happen at every digit", "anchors": ["crates/formualizer-eval/src/builtins/math/numeric.rs: BaseFn::eval, DecimalFn::eval"]}
{"id": "C138", "title": "Wildcards of a criterion", "statement": "A wildcard criterion matches exactly the texts its pattern stands for: * any characters, ? one character, ~ the next character itself.", "quantifier": "all patterns and texts", "why_tests_cant": "patterns are matched on bytes with several shortcuts, and an error shows only for particular combinations of stars, shortcuts and multi-byte characters", "anchors": ["crates/formualizer-eval/src/builtins/utils.rs: text_like_match, like_pattern_match, wildcard_match", "crates/formualizer-eval/src/engine/eval.rs: compute_criteria_mask"]}
{"id": "C139", "title": "COUNTIF and COUNTIFS mean the same for one cell", "statement": "The vectorised mask and the cell-by-cell test select the same cells: comparisons compare stored numbers, equality of text ignores case, wildcards match as their pattern, and COUNTIF of a cell equals COUNTIFS of it.", "quantifier": "all criteria and all cell values", "why_tests_cant": "two implementations of every criterion; they differ only for particular kinds of value", "anchors": ["crates/formualizer-eval/src/engine/eval.rs: compute_criteria_mask, build_criteria_mask", "crates/formualizer-eval/src/builtins/utils.rs: criteria_match, values_equal", "crates/formualizer-eval/src/builtins/math/criteria_aggregates.rs: eval_if_family"]}
{"id": "C140", "title": "Counting does not depend on where a value is kept", "statement": "COUNTIF gives the same count for the same values whether they were loaded with the sheet or written since.", "quantifier": "all sheets and criteria", "why_tests_cant": "every write moves a value between the two stores; the difference needs the same value in both", "anchors": ["crates/formualizer-eval/src/engine/eval.rs: compute_criteria_mask", "crates/formualizer-eval/src/engine/range_view.rs: slice_lowered_text, slice_numbers", "crates/formualizer-eval/src/arrow_store/mod.rs: lowered text lane, overlay selection"]}
{"id": "C141", "title": "What the text of a criterion means", "statement": "An operator and a number compare the number a value reads as, <> is the opposite of =, a number means = and the number, and spaces around the criterion or after the operator do not matter.", "quantifier": "all criterion texts and all values", "why_tests_cant": "the text is split, trimmed, unquoted and read as a number, and each step changes the meaning of some texts only", "anchors": ["crates/formualizer-eval/src/args.rs: parse_criteria", "crates/formualizer-eval/src/builtins/utils.rs: criteria_match"]}
{"id": "C142", "title": "A conditional count or sum is over the cells one by one", "statement": "COUNTIF, COUNTIFS, SUMIF and SUMIFS select exactly the positions at which each criterion alone selects the cell of its range, and add the numbers of the target there, however the sheet is divided into chunks.", "quantifier": "all sheets, chunkings, ranges and criteria", "why_tests_cant": "masks are computed per chunk, cut, padded and combined; an error needs a range that meets particular chunk borders", "anchors": ["crates/formualizer-eval/src/builtins/math/criteria_aggregates.rs: eval_if_family, eval_if_family_core", "crates/formualizer-eval/src/engine/eval.rs: build_criteria_mask", "crates/formualizer-eval/src/engine/range_view.rs: RowChunkIterator, slice_numbers"]}
{"id": "C143", "title": "The order of the criteria does not matter", "statement": "COUNTIFS and SUMIFS give the same result for every order of their range and criterion pairs.", "quantifier": "all lists of pairs and all their permutations", "why_tests_cant": "the first pair drives the iteration and the others are combined with it; the number of permutations grows without bound", "anchors": ["crates/formualizer-eval/src/builtins/math/criteria_aggregates.rs: eval_if_family"]}
{"id": "C144", "title": "LEFT, MID and RIGHT take a text apart", "statement": "LEFT gives the first, RIGHT the last and MID the named characters of the text a value stands for, however large the counts; LEFT, MID and RIGHT of adjoining stretches put together are the text.", "quantifier": "all values, texts, starts and counts", "why_tests_cant": "texts mix one to four byte characters and counts reach the ends of the integer range; only particular lengths and counts meet the wrong slice or the overflow", "anchors": ["crates/formualizer-eval/src/builtins/text/len_left_right.rs: LeftFn, RightFn, LenFn, number_like", "crates/formualizer-eval/src/builtins/text/mid_sub_replace.rs: MidFn, to_text, number_like"]}
{"id": "C145", "title": "REPLACE changes the named characters only", "statement": "REPLACE keeps what stands before the start and after the stretch and puts the new text between; replacing what MID reads by itself changes nothing, and a start beyond the end changes nothing.", "quantifier": "all texts, starts, counts and new texts", "why_tests_cant": "the ends of the text are clamped separately and errors show only at the boundary positions", "anchors": ["crates/formualizer-eval/src/builtins/text/mid_sub_replace.rs: ReplaceFn"]}
{"id": "C146", "title": "FIND gives the first place from the start", "statement": "FIND gives the first position at or after the start at which the text stands, #VALUE! when there is none, and MID there reads the text found.", "quantifier": "all texts, needles and starts", "why_tests_cant": "the search is over characters of texts in UTF-8 and is wrong only for some overlaps and starts", "anchors": ["crates/formualizer-eval/src/builtins/text/find_search_exact.rs: FindFn, char_find"]}
{"id": "C147", "title": "SEARCH gives the first place the pattern describes", "statement": "SEARCH gives the first position at or after the start where * (any characters), ? (one) and ~ (the next character itself) describe the text, letters of either case being the same.", "quantifier": "all patterns, texts and starts", "why_tests_cant": "the backtracking matcher fails only for particular combinations of stars and repeated characters", "anchors": ["crates/formualizer-eval/src/builtins/text/find_search_exact.rs: SearchFn, char_wildcard_search, wildcard_match_chars"]}
{"id": "C148", "title": "SUBSTITUTE replaces the occurrences or the one named", "statement": "Cut at the old text from the left, SUBSTITUTE joins the pieces with the new text; with an instance only that cut is joined so and the others with the old text; the number of occurrences is the usual difference of lengths.", "quantifier": "all texts, old and new texts and instances", "why_tests_cant": "occurrences can overlap and can arise across the seams of replacements", "anchors": ["crates/formualizer-eval/src/builtins/text/mid_sub_replace.rs: SubstituteFn"]}
{"id": "C149", "title": "TEXTBEFORE and TEXTAFTER stand around an occurrence", "statement": "The text before and the text after an occurrence, with the delimiter between them, are the text; the occurrence is the one numbered, from either end, and #N/A is given exactly when there are too few.", "quantifier": "all texts, delimiters and occurrence numbers", "why_tests_cant": "positions are bytes and the number is counted from both ends", "anchors": ["crates/formualizer-eval/src/builtins/text/extended.rs: TextBeforeFn, TextAfterFn"]}
{"id": "C150", "title": "TEXTSPLIT cuts at the delimiters", "statement": "TEXTSPLIT gives the pieces of the text between the delimiters, the earliest and then the first listed cutting first; rows are the pieces of the row texts, filled up to one width; with case ignored the pieces are those of the lower-cased text.", "quantifier": "all texts, lists of delimiters and fill values", "why_tests_cant": "several delimiters can start inside one another, and lower-casing changes the length of few characters only", "anchors": ["crates/formualizer-eval/src/builtins/text/array_text.rs: TextSplitFn, split_by_delimiters"]}
{"id": "C151", "title": "TEXTJOIN and CONCAT put texts together", "statement": "CONCAT is the texts one after another and TEXTJOIN the kept texts with the delimiter between, or #VALUE! when that is over 32767 characters, or the first error; TEXTSPLIT of a TEXTJOIN gives the items back, and TEXTJOIN of a TEXTSPLIT the text.", "quantifier": "all lists of values and delimiters", "why_tests_cant": "the limit is checked while appending, and delimiters are placed by whether anything was written yet", "anchors": ["crates/formualizer-eval/src/builtins/text/trim_case_concat.rs: ConcatFn, ConcatenateFn, TextJoinFn, append_with_limit"]}
{"id": "C152", "title": "REPT repeats the text or refuses", "statement": "REPT gives the text repeated the given number of times when that is at most 32767 characters, and #VALUE! otherwise.", "quantifier": "all texts and counts", "why_tests_cant": "the product of length and count wraps around only for counts nobody tries", "anchors": ["crates/formualizer-eval/src/builtins/text/char_code_rept.rs: ReptFn"]}
{"id": "C153", "title": "Characters and their numbers are inverse", "statement": "CODE of CHAR of n is n for n from 1 to 255, UNICODE of UNICHAR of n is n for every Unicode scalar value, UNICHAR of UNICODE of a text is its first character, and every other number is #VALUE!.", "quantifier": "all numbers and characters", "why_tests_cant": "over a million characters, with gaps, and a code page with holes", "anchors": ["crates/formualizer-eval/src/builtins/text/char_code_rept.rs: CharFn, CodeFn", "crates/formualizer-eval/src/builtins/text/extended.rs: UnicharFn, UnicodeFn"]}
{"id": "C154", "title": "Cleaning and casing a text", "statement": "TRIM joins the words of a text by single spaces, CLEAN leaves out exactly the control characters, UPPER, LOWER and ASC keep the number of characters, each does nothing the second time; EXACT tells whether two texts are equal; PROPER treats the words separately.", "quantifier": "all texts", "why_tests_cant": "runs of spaces of any length and kind, at the ends and inside", "anchors": ["crates/formualizer-eval/src/builtins/text/trim_case_concat.rs: TrimFn, UpperFn, LowerFn, ProperFn", "crates/formualizer-eval/src/builtins/text/char_code_rept.rs: AscFn, asc_convert", "crates/formualizer-eval/src/builtins/text/extended.rs: CleanFn", "crates/formualizer-eval/src/builtins/text/find_search_exact.rs: ExactFn"]}
{"id": "C155", "title": "SORT gives the rows in stable order", "statement": "SORT of a table gives its rows, each once, ordered by the named column, ascending or descending as asked, rows with equal cells keeping their order; sorting again changes nothing; an index outside the table is #VALUE!.", "quantifier": "all tables, indexes, orders and stable sorts", "why_tests_cant": "a comparison that is no order leaves rows unsorted only for particular mixtures of values, and the arguments are cut and shifted in 64 bits", "anchors": ["crates/formualizer-eval/src/builtins/lookup/dynamic.rs: SortFn"]}
{"id": "C156", "title": "SORT by column is SORT of the transposed table", "statement": "SORT with by_col gives the mirror image of SORT of the mirrored table, with the same index and order.", "quantifier": "all tables, indexes and orders", "why_tests_cant": "the two directions are separate code", "anchors": ["crates/formualizer-eval/src/builtins/lookup/dynamic.rs: SortFn, TransposeFn"]}
{"id": "C157", "title": "SORTBY orders by its by-arrays in turn", "statement": "SORTBY gives the rows in stable order of the first by-array, equal ones by the second and so on, each in its direction; by a column of the table it is SORT; a by-array of another length is #VALUE!.", "quantifier": "all tables, lists of by-arrays and orders", "why_tests_cant": "arguments are told apart by their kind while reading, ties by the later arrays only", "anchors": ["crates/formualizer-eval/src/builtins/lookup/dynamic.rs: SortByFn"]}
{"id": "C158", "title": "FILTER keeps exactly the rows with a true condition", "statement": "FILTER gives, in order, the rows whose condition has a true cell; when there is none the alternative or #CALC!; when the heights differ #VALUE!.", "quantifier": "all tables, conditions and alternatives", "why_tests_cant": "any subset of rows can be selected", "anchors": ["crates/formualizer-eval/src/builtins/lookup/dynamic.rs: FilterFn"]}
{"id": "C159", "title": "UNIQUE keeps the first of equal rows", "statement": "UNIQUE gives, in order, the rows that are equal to no row before them, or with exactly_once the rows equal to no other; the results are pairwise different and every row has an equal among them; by_col does the same for columns.", "quantifier": "all tables", "why_tests_cant": "equality of mixed values is not an equivalence in general, repetitions can stand anywhere", "anchors": ["crates/formualizer-eval/src/builtins/lookup/dynamic.rs: UniqueFn"]}
{"id": "C160", "title": "TRANSPOSE mirrors a table", "statement": "The cell in row i and column j of the table is the cell in row j and column i of TRANSPOSE; twice TRANSPOSE is the table.", "quantifier": "all tables", "why_tests_cant": "all shapes, including single rows and columns that collapse", "anchors": ["crates/formualizer-eval/src/builtins/lookup/dynamic.rs: TransposeFn"]}
{"id": "C161", "title": "TAKE and DROP split a table", "statement": "TAKE gives the first or last rows and columns, DROP the others, and stacked in order they are the table; TAKE of more than there are is #VALUE!.", "quantifier": "all tables and counts of either sign", "why_tests_cant": "four signs of counts and ends of the integer range", "anchors": ["crates/formualizer-eval/src/builtins/lookup/dynamic.rs: TakeFn, DropFn", "crates/formualizer-eval/src/builtins/lookup/stack.rs: HStackFn, VStackFn"]}
{"id": "C162", "title": "VSTACK and HSTACK put tables together", "statement": "VSTACK gives the rows of its arguments one after another and HSTACK joins their rows side by side, empty ones being left out; different widths or heights are #VALUE!.", "quantifier": "all lists of arguments", "why_tests_cant": "widths are compared with the first argument that is not empty", "anchors": ["crates/formualizer-eval/src/builtins/lookup/stack.rs: HStackFn, VStackFn"]}
{"id": "C163", "title": "TOCOL and TOROW list the cells", "statement": "TOCOL and TOROW give the cells of a table in the asked order, without blanks or errors as the mode says; nothing left is #CALC! and another mode #VALUE!.", "quantifier": "all tables, modes and directions", "why_tests_cant": "which cells are left out varies with mode and contents", "anchors": ["crates/formualizer-eval/src/builtins/lookup/array_shape.rs: ToColFn, ToRowFn, flatten_array"]}
{"id": "C164", "title": "CHOOSEROWS and CHOOSECOLS pick by number", "statement": "They give the rows or columns numbered, from the end when negative, in the order given; the first number outside decides the error.", "quantifier": "all tables and lists of numbers", "why_tests_cant": "numbers of either sign with repetition", "anchors": ["crates/formualizer-eval/src/builtins/lookup/choose.rs: ChooseColsFn, ChooseRowsFn"]}
{"id": "C165", "title": "SEQUENCE fills row by row with equal steps", "statement": "The cell in row i and column j of SEQUENCE is start + (i*columns + j)*step; sizes that are not positive are #VALUE!, too large ones #NUM!.", "quantifier": "all sizes, starts and steps", "why_tests_cant": "sizes go up to millions of cells, and rounding to integers applies only near them", "anchors": ["crates/formualizer-eval/src/builtins/lookup/dynamic.rs: SequenceFn, generated_array_too_large"]}
{"id": "C166", "title": "Operators work cell by cell and pass errors on", "statement": "An arithmetic operator or comparison of arrays gives the array of the results of their cells, a single row, column or value being repeated, and #VALUE! when the shapes do not fit; arithmetic gives a finite number or an error; blanks are 0, TRUE is 1, dates are serials and numeric text is its number; an error operand is the result, the left one first.", "quantifier": "all operators, operands and shapes", "why_tests_cant": "operands are pairs of arbitrary values and shapes", "anchors": ["crates/formualizer-eval/src/interpreter.rs: eval_binary, numeric_binary, divide, power, broadcast_apply, combine_arrays, eval_unary, eval_unary_scalar, apply_number_unary, map_array", "crates/formualizer-eval/src/coercion.rs: to_number_lenient_with_locale, to_text_invariant, sanitize_numeric"]}
{"id": "C167", "title": "The six comparisons agree with one another", "statement": "Of two values that are no errors exactly one of <, = and > holds, and <=, >=, <> are what follows from it; swapping the operands mirrors the comparison; texts are compared after folding case; < is transitive, and equal values have difference zero.", "quantifier": "all pairs of values", "why_tests_cant": "consistency is a statement about six results for the same operands, transitivity about three values of different kinds", "anchors": ["crates/formualizer-eval/src/interpreter.rs: compare, cmp_f64, cmp_text"]}
{"id": "C168", "title": "Local names are lexically scoped", "statement": "The value of a formula depends only on the local names written in it; an unused name of LET can be left out; a name stands for its value and the innermost binding counts; a LAMBDA keeps the names of the place where it was written; LET(x,a,b) is LET(f,LAMBDA(x,b),f(a)).", "quantifier": "all formulas, environments, workbooks and registered functions", "why_tests_cant": "formulas nest to any depth, and a mistaken capture shows only when names collide", "anchors": ["crates/formualizer-eval/src/interpreter.rs: LocalEnv, lookup, with_binding, resolve_local_reference, resolve_local_callable, eval_function_to_calc", "crates/formualizer-eval/src/builtins/lambda.rs: LetFn, LambdaFn, LambdaClosure, binding_from_calc_value", "crates/formualizer-eval/src/traits.rs: ArgumentHandle"]}
{"id": "C169", "title": "Every formula has exactly one value", "statement": "Evaluation of a formula, as a tree or from storage, ends, with one result, whatever is nested in it and whatever functions are called.", "quantifier": "all formulas, environments and workbooks", "why_tests_cant": "functions are values, so calls are not bounded by the formula at hand", "anchors": ["crates/formualizer-eval/src/interpreter.rs: evaluate_ast_uncached, eval_tree_uncached, evaluate_arena_ast", "crates/formualizer-eval/src/builtins/lambda.rs: LambdaClosure"]}
{"id": "C170", "title": "Stored formulas evaluate like their trees", "statement": "A formula evaluated from the node store gives the result of evaluating its syntax tree.", "quantifier": "all formulas, environments and workbooks", "why_tests_cant": "two interpreters are written separately over two data structures and must agree on every formula", "anchors": ["crates/formualizer-eval/src/interpreter.rs: evaluate_arena_ast, eval_tree_uncached, evaluate_ast_as_reference, evaluate_arena_ast_as_reference", "crates/formualizer-eval/src/engine/arena/data_store.rs: convert_ast_node"]}
{"id": "C171", "title": "Evaluating with an offset is evaluating the moved formula", "statement": "Evaluation of a template with an offset gives the value of the formula with its relative references moved by that offset.", "quantifier": "all formulas, offsets and workbooks", "why_tests_cant": "references occur anywhere in formulas, also in functions called elsewhere", "anchors": ["crates/formualizer-eval/src/interpreter.rs: effective_reference, relocate_reference_for_offset, shift_axis_for_offset, evaluate_ast_with_offset, evaluate_arena_ast_with_offset"]}
{"id": "C172", "title": "@ takes the cell in the formula's row and column", "statement": "@ of a range gives the one cell of it in the row or column of the formula, of a table the first cell, and #VALUE! where there is none.", "quantifier": "all references, ranges and positions", "why_tests_cant": "rows, columns and rectangles lie in any position around the formula", "anchors": ["crates/formualizer-eval/src/interpreter.rs: eval_implicit_intersection_calc, implicit_intersection_from_reference"]}
{"id": "C173", "title": "After a full evaluation every cell shows what its formula says", "statement": "After any edits and evaluations, evaluate_all succeeds; every cell on a circular reference then shows #CIRC!, every other formula shows its result for the values now shown, and cells without formulas show what was entered; at any other time the same holds of every formula that is not marked dirty.", "quantifier": "all histories of edits and evaluations, all formulas that give one value", "why_tests_cant": "a forgotten mark or a wrong order leaves one cell stale after some particular sequence of edits; sequences are unbounded", "anchors": ["crates/formualizer-eval/src/engine/eval.rs: evaluate_all, evaluate_all_legacy_impl, legacy_pass_run_units, create_evaluation_schedule, evaluate_layer_sequential_effects, evaluate_small_layer_direct_effects, apply_cycle_outcome, redirty_for_next_recalc", "crates/formualizer-eval/src/engine/graph/mod.rs: get_evaluation_vertices, clear_dirty_flags, redirty_volatiles, set_cell_value", "crates/formualizer-eval/src/engine/virtual_deps.rs: get_virtual_deps"]}
{"id": "C174", "title": "The thread pool does not change what is shown", "statement": "Two histories that differ only in whether evaluations use the thread pool give the same values and the same dirty cells.", "quantifier": "all histories, and pool settings for each evaluation", "why_tests_cant": "parallel and sequential layers are written separately, with different buffering for different widths", "anchors": ["crates/formualizer-eval/src/engine/eval.rs: evaluate_layer_parallel_effects, evaluate_layer_sequential_effects, evaluate_small_layer_direct_effects, plan_vertex_effects"]}
{"id": "C175", "title": "Evaluating chosen cells shows what a full evaluation shows", "statement": "Evaluating chosen cells gives them, and every cell they use, the values a full evaluation would give; a cell they do not use keeps its value, and its dirty mark.", "quantifier": "all histories and choices of cells", "why_tests_cant": "the cells to evaluate are found through arbitrary chains of formulas, some clean and some dirty", "anchors": ["crates/formualizer-eval/src/engine/eval.rs: build_demand_subgraph, evaluate_legacy_target_roots"]}
{"id": "C176", "title": "What is shown depends only on what was entered", "statement": "Two histories that leave the same formulas and values in the cells show the same after a full evaluation, whatever the order of edits, the evaluations in between, the thread pool and the iteration order of hash maps; volatile functions must see the same.", "quantifier": "all pairs of histories", "why_tests_cant": "a statement about two histories of any length", "anchors": ["crates/formualizer-eval/src/engine/eval.rs: evaluate_all, create_evaluation_schedule", "crates/formualizer-eval/src/engine/graph/mod.rs: get_evaluation_vertices, set_cell_value"]}
{"id": "C177", "title": "A reader of an array cell is never left stale", "statement": "After a full evaluation a formula that is not marked dirty shows its result for the values now shown, also if it reads cells filled by an array formula.", "quantifier": "all histories, formulas giving arrays included", "why_tests_cant": "whether a reader is evaluated before the array is written depends on when cells were created", "anchors": ["crates/formualizer-eval/src/engine/eval.rs: evaluate_all_legacy_impl, plan_vertex_effects", "crates/formualizer-eval/src/engine/graph/mod.rs: commit_spill_region_atomic_with_fault, clear_dirty_flags"]}
{"id": "C178", "title": "Only volatile formulas and their users stay dirty", "statement": "After a full evaluation the formulas marked dirty are exactly the volatile ones and those that use a volatile one.", "quantifier": "all histories", "why_tests_cant": "depends on the whole history of a cell and on chains of any length", "anchors": ["crates/formualizer-eval/src/engine/eval.rs: redirty_for_next_recalc", "crates/formualizer-eval/src/engine/graph/mod.rs: redirty_volatiles, mark_volatile, set_cell_value"]}
{"id": "C179", "title": "INDEX names the cell at a row and column of a range", "statement": "INDEX(r,i,j) refers to the cell in row i and column j of r, to a whole row or column if the other index is 0, and is #REF! outside r; one index counts along a single row, else down the first column; INDEX(INDEX(r,i,0),j) and INDEX(INDEX(r,0,j),i) are INDEX(r,i,j); the engine never panics.", "quantifier": "all ranges of the sheet and all integers as indices", "why_tests_cant": "off-by-one and overflow cases lie at corners of the range and at 32-bit limits", "anchors": ["crates/formualizer-eval/src/builtins/reference_fns.rs: resolve_reference_bounds, IndexFn, eval_reference"]}
{"id": "C180", "title": "INDEX treats an array literal like a range with the same cells", "statement": "INDEX of an array literal and INDEX of a range with the same cells give the same cells, for two indices and for one, errors included.", "quantifier": "all rectangles of values and all integers as indices", "why_tests_cant": "the two cases are written separately in the code; they agree or differ only on particular shapes and indices", "anchors": ["crates/formualizer-eval/src/builtins/reference_fns.rs: IndexFn, eval_reference, eval"]}
{"id": "C181", "title": "OFFSET moves a range and gives it a size", "statement": "OFFSET(r,dr,dc,h,w) refers to the range with h rows and w columns whose first cell is dr rows below and dc columns right of that of r, and is #REF! if this leaves the sheet; left-out sizes are those of r; two moves are one; OFFSET(r,i-1,j-1,1,1) is INDEX(r,i,j).", "quantifier": "all ranges, all integers as moves and sizes", "why_tests_cant": "the limits of the sheet and of the machine integers are corner cases", "anchors": ["crates/formualizer-eval/src/builtins/reference_fns.rs: resolve_reference_bounds, OffsetFn, eval_reference"]}
{"id": "C182", "title": "ROW, COLUMN, ROWS and COLUMNS give place and size of a reference", "statement": "They give the first row and column and the number of rows and columns of a range; an open side counts to the end of the sheet; of a range made by OFFSET they give what OFFSET was told.", "quantifier": "all ranges of the sheet, all moves that stay in the sheet", "why_tests_cant": "four functions with a case for each pair of missing corners", "anchors": ["crates/formualizer-eval/src/builtins/lookup/reference_info.rs: RowFn, RowsFn, ColumnFn, ColumnsFn", "crates/formualizer-eval/src/builtins/reference_fns.rs: OffsetFn"]}
{"id": "C183", "title": "INDIRECT of ADDRESS is the cell", "statement": "INDIRECT(ADDRESS(row,col,abs,a1,sheet),a1) refers to the cell in that row and column of that sheet, with the dollar signs asked for; ADDRESS is an error exactly for rows, columns and forms that do not exist.", "quantifier": "all rows, columns, forms and sheet names", "why_tests_cant": "quoting of sheet names has unboundedly many cases", "anchors": ["crates/formualizer-eval/src/builtins/lookup/address.rs: AddressFn, column_to_letters", "crates/formualizer-eval/src/builtins/reference_fns.rs: IndirectFn, eval_reference", "crates/formualizer-parse/src/parser.rs: parse_excel_sheet_ref"]}
{"id": "C184", "title": "AND and OR decide by any value, and then stop", "statement": "AND is FALSE if some value of its arguments is false, zero or blank, else the first error, else TRUE; OR is TRUE if some value is true, else the first error, else FALSE. Changing the order of the arguments changes at most which error is shown. Nothing after the deciding argument is evaluated, so that it may be anything, also an error.", "quantifier": "all lists of arguments of every kind (cells, ranges, array literals, expressions) and all their values", "why_tests_cant": "the place of the deciding value, of errors and of failing arguments relative to each other has unboundedly many cases", "anchors": ["crates/formualizer-eval/src/builtins/logical.rs: AndFn, OrFn", "crates/formualizer-eval/src/traits.rs: lazy_values_owned, range_view, value, into_literal"]}
{"id": "C185", "title": "NOT, AND, OR and XOR obey the laws of De Morgan", "statement": "OR of the negations is the negation of AND, AND of the negations is the negation of OR, three negations are one, and XOR(a,b) is AND(OR(a,b),NOT(AND(a,b))); errors and failed evaluations included.", "quantifier": "all lists of cells and expressions, with all values, blanks, texts and errors", "why_tests_cant": "the laws relate calls whose error and blank handling is written separately in each function", "anchors": ["crates/formualizer-eval/src/builtins/logical.rs: AndFn, OrFn", "crates/formualizer-eval/src/builtins/logical_ext.rs: NotFn, XorFn"]}
{"id": "C186", "title": "XOR counts true values; AND, OR and XOR see an array as a range", "statement": "XOR is TRUE for an odd number of true values, and the first error if there is one. To AND, OR and XOR a range, an array literal and a computed array with the same cells are the same.", "quantifier": "all lists of arguments and all their values", "why_tests_cant": "needs arguments with several errors, and every way an array reaches a function", "anchors": ["crates/formualizer-eval/src/builtins/logical_ext.rs: XorFn", "crates/formualizer-eval/src/builtins/logical.rs: AndFn, OrFn", "crates/formualizer-eval/src/traits.rs: lazy_values_owned, range_view, value, into_literal"]}
{"id": "C187", "title": "IF and IFS evaluate conditions up to the first true one and only its branch", "statement": "IF gives the branch chosen by its condition and evaluates nothing else; IFS gives the value after the first true condition, an error condition before it is the result, and none true gives #N/A; IFS(c,a,rest) is IF(c,a,IFS(rest)); an error as condition is the result.", "quantifier": "all conditions, branches and numbers of pairs", "why_tests_cant": "what is not evaluated is not seen in a result", "anchors": ["crates/formualizer-eval/src/builtins/logical.rs: IfFn", "crates/formualizer-eval/src/builtins/logical_ext.rs: IfsFn"]}
{"id": "C188", "title": "IFERROR and IFNA replace errors and nothing else", "statement": "IFERROR(a,b) is b if a shows an error, else a, and b is evaluated only then; IFNA the same for #N/A only.", "quantifier": "all arguments of every kind", "why_tests_cant": "an error may come as a value, as a failed evaluation or inside an array of one cell", "anchors": ["crates/formualizer-eval/src/builtins/logical_ext.rs: IfErrorFn, IfNaFn", "crates/formualizer-eval/src/traits.rs: as_scalar, into_literal"]}
{"id": "C189", "title": "SWITCH gives the value after the first equal candidate", "statement": "Candidates are evaluated in order up to the first equal one, then its value; without one the default, or #N/A; an error as expression is the result. Equality is that of the operator =: an equivalence.", "quantifier": "all expressions, candidates and defaults, any number of them", "why_tests_cant": "equality of numbers and kinds of values has many pairs; what is not evaluated is not seen", "anchors": ["crates/formualizer-eval/src/builtins/logical_ext.rs: SwitchFn, switch_values_equal"]}
{"id": "C190", "title": "CHOOSE gives the argument with the number of its index", "statement": "CHOOSE(n,a1,..) is a_n, evaluates only n and a_n, and is #VALUE! if there is no such argument; it is SWITCH(n,1,a1,2,a2,..,#VALUE!).", "quantifier": "all indices and lists of arguments", "why_tests_cant": "the relation holds for any number of arguments, and evaluation is not seen in a result", "anchors": ["crates/formualizer-eval/src/builtins/lookup/choose.rs: ChooseFn", "crates/formualizer-eval/src/builtins/logical_ext.rs: SwitchFn"]}
{"id": "C191", "title": "Database functions use the records that meet all criteria of some row", "statement": "A record counts exactly if it meets every criterion of at least one row of the criteria range; a criterion stands below the name of its column; without rows of criteria every record counts. A criterion that is an error makes the call fail, and a database without a record is #VALUE!.", "quantifier": "all databases, fields and criteria ranges", "why_tests_cant": "shapes of criteria ranges and databases, repeated and unknown headings, blanks at any place", "anchors": ["crates/formualizer-eval/src/builtins/database.rs: parse_criteria_range, row_matches_criteria, eval_d_function, eval_dget, eval_dcounta, eval_d_stat_function"]}
{"id": "C192", "title": "The order of records and criteria does not matter to database functions", "statement": "Reordering records, rows of criteria or columns of criteria keeps the chosen values, so DCOUNT, DCOUNTA and DGET are the same and DSUM adds the same numbers; the values of two databases below each other are those of both; more rows of criteria choose more.", "quantifier": "all databases and criteria ranges, all permutations", "why_tests_cant": "permutations of unboundedly many records and criteria", "anchors": ["crates/formualizer-eval/src/builtins/database.rs: parse_criteria_range, row_matches_criteria, eval_d_function, eval_dget, eval_dcounta"]}
{"id": "C193", "title": "A field is named or numbered, and nothing else of a record counts", "statement": "The field is the first column with the name, up to case, or the column with the number, and the call fails with #VALUE! if there is none; the result depends only on the field and on the columns that have criteria.", "quantifier": "all databases, fields and criteria ranges", "why_tests_cant": "independence of all other cells", "anchors": ["crates/formualizer-eval/src/builtins/database.rs: resolve_field_index, eval_d_function"]}
{"id": "C194", "title": "DCOUNT counts numbers, DAVERAGE is DSUM by DCOUNT, DMAX and DMIN are bounds", "statement": "DCOUNT is the number of numbers among the chosen cells, DCOUNTA that of cells that are not empty, never less; DAVERAGE is DSUM divided by DCOUNT; DMAX and DMIN are the largest and smallest; DSTDEV and DSTDEVP are square roots of DVAR and DVARP, with #DIV/0! for too few values; the first error among the chosen cells is the result.", "quantifier": "all databases, fields and criteria ranges", "why_tests_cant": "the functions read truth values and texts each in its own way", "anchors": ["crates/formualizer-eval/src/builtins/database.rs: eval_d_function, eval_d_stat_function, eval_dcounta"]}
{"id": "C195", "title": "DGET gives the only value", "statement": "DGET is the value of the field if exactly one chosen record has one, #VALUE! if none has and #NUM! if several have; it has a value exactly if DCOUNTA is 1; for criteria that one record meets it is the field of that record.", "quantifier": "all databases, fields and criteria ranges", "why_tests_cant": "uniqueness among unboundedly many records", "anchors": ["crates/formualizer-eval/src/builtins/database.rs: eval_dget, eval_dcounta"]}
{"id": "C196", "title": "Every value is of one kind", "statement": "For every argument that has a value, exactly the question of its kind among ISNUMBER, ISTEXT, ISLOGICAL, ISBLANK and ISERROR answers TRUE (none for arrays); ISNONTEXT is the opposite of ISTEXT; ISERROR is ISERR or ISNA, never both; ISERROR is TRUE of every argument that is an error.", "quantifier": "all arguments: cells, ranges, array literals and expressions", "why_tests_cant": "arguments that fail to evaluate, ranges of every shape", "anchors": ["crates/formualizer-eval/src/builtins/info.rs: IsNumberFn, IsTextFn, IsLogicalFn, IsBlankFn, IsErrorFn, IsErrFn, IsNaFn, IsNonTextFn, NaFn", "crates/formualizer-eval/src/args.rs: validate_and_prepare"]}
{"id": "C197", "title": "IF(ISERROR(x), y, x) is IFERROR(x, y)", "statement": "The two ways to write a fallback give the same value, and so do IF(ISNA(x), y, x) and IFNA(x, y).", "quantifier": "all arguments x and y", "why_tests_cant": "the two forms look at the argument in different ways", "anchors": ["crates/formualizer-eval/src/builtins/info.rs: IsErrorFn, IsNaFn", "crates/formualizer-eval/src/builtins/logical_ext.rs: IfErrorFn, IfNaFn"]}
{"id": "C198", "title": "TYPE, N and T follow the kind of the value", "statement": "TYPE is 1 for numbers and blanks, 2 for text, 4 for truth values, 16 for errors, 64 for arrays; N keeps numbers and errors, reads truth values and dates as numbers and gives 0 for the rest; T keeps texts and errors and gives the empty text for the rest; both are idempotent and take the first cell of a range.", "quantifier": "all arguments", "why_tests_cant": "all values and shapes of ranges", "anchors": ["crates/formualizer-eval/src/builtins/info.rs: TypeFn, NFn, TFn"]}
{"id": "C199", "title": "ISEVEN and ISODD are opposite, and give the parity of the whole part", "statement": "For every number exactly one of ISEVEN and ISODD is TRUE, according to the whole part of the number; the next whole number has the other parity; all arguments that count as numbers have a parity.", "quantifier": "all numbers and other values", "why_tests_cant": "numbers beyond 2^53 and 2^63", "anchors": ["crates/formualizer-eval/src/builtins/info.rs: IsEvenFn, IsOddFn"]}
{"id": "C200", "title": "ERROR.TYPE tells errors apart", "statement": "ERROR.TYPE gives different numbers for different errors, those of Excel for its seven errors, and #N/A for a value that is no error; it is a number exactly if ISERROR is TRUE.", "quantifier": "all errors and values", "why_tests_cant": "all arguments that have a value, whatever their shape", "anchors": ["crates/formualizer-eval/src/builtins/info.rs: error_type_code, ErrorTypeFn"]}

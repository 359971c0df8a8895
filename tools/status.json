{
 "C03": [
  "proved",
  "Also: one letter string (MWLQKWV, any case) overflows u32 in the one-based conversion; see C03_one_based_never_panics_refuted."
 ],
 "C05": [
  "partial",
  "False of the code: the i64->u32 casts truncate, so row 2^32 is accepted as row 0 (C05_signed_conversion_refuted). Exact acceptance and the sub-2^32 case are proved."
 ],
 "C100": [
  "partial",
  "False of the code: after an insertion of 40000 rows, a value in A40000 is lost when A50000 is written; refutation proved. Proved for insertions of at most one chunk."
 ],
 "C101": [
  "partial",
  "False of the code for maybe_compact_chunk: a cell held by both overlays shows the computed value after compaction and the user value before; refutation proved. Proved for cells that are not held by both, and in full for compact_computed_overlay_chunk."
 ],
 "C102": [
  "partial",
  "False of the code: the literal is compacted into the base and reappears when the results are dropped by a row insertion, until the next recalculation; refutation proved. Proved: the result of a formula is shown as soon as it is written, whatever the cell held."
 ],
 "C103": [
  "proved",
  ""
 ],
 "C104": [
  "proved",
  "For calls of functions with written arguments, parentheses, signs, postfix and binary operators; lambda calls, arrays and omitted arguments are covered by C82 only. Excel itself groups ^ to the left; the code and its documentation to the right."
 ],
 "C105": [
  "proved",
  ""
 ],
 "C106": [
  "proved",
  ""
 ],
 "C109": [
  "partial",
  "False of the code for one whole row or column and for half-open queries, which have no case in visit_bounded_candidates; refutation proved; proved for all other queries."
 ],
 "C11": [
  "partial",
  "False of the code for years that normalise below 0 (truncating division): refutation proved; proved for all other arguments."
 ],
 "C112": [
  "partial",
  "False of the code for rules that read whole columns; refutation proved; proved for cell and range rules."
 ],
 "C114": [
  "partial",
  "False of the code for rules that read whole columns; refutation proved; proved for cell and range rules."
 ],
 "C116": [
  "proved",
  ""
 ],
 "C117": [
  "proved",
  "For insertions that push nothing the span holds, reads or names off the sheet, and spans that no deletion cuts (C118, C119)."
 ],
 "C118": [
  "partial",
  "False of the code when the template was written for another cell than the shown formula: the lower half is computed from other columns than it shows (refutation proved). Proved for spans whose shown origin is the template's."
 ],
 "C119": [
  "partial",
  "False of the code for reads at a distance, reads of other sheets by row, absolute ranges that the deletion cuts, and templates written below the deletion (five refutations proved). Proved for reads of the own row and of fixed ones before the deletion."
 ],
 "C12": [
  "proved",
  "tarjan_scc_impl and separate_cycles; virtual dependencies included in C12_components."
 ],
 "C120": [
  "partial",
  "False of the code for literals that rise with the row or column: the origin of the slope is not moved (refutation proved). Proved for all other encodings."
 ],
 "C121": [
  "partial",
  "Holds for the histories that avoid the faults of C118 and C119; proved for those."
 ],
 "C122": [
  "proved",
  ""
 ],
 "C123": [
  "proved",
  ""
 ],
 "C124": [
  "proved",
  "For formulas the plane supports; identities of functions are lists of bytes and numbers below 2^64."
 ],
 "C125": [
  "proved",
  "For formulas the plane supports; identities of functions are lists of bytes and numbers below 2^64."
 ],
 "C126": [
  "partial",
  "False of the code: equal texts, booleans, errors and small integers of the template are one node of the arena, and the slot of a node is the last that mentions it (build_template_slot_map); refutation proved with IF(A1=\"x\",\"x\",\"\"). Proved when placements give equal literals of the template equal values and there are at most 65536 literals."
 ],
 "C127": [
  "proved",
  "The interpreter is any function of the template with its references at their places (values where the contract takes values) and of the literals of the placement."
 ],
 "C128": [
  "partial",
  "False of the code: memoised and constant spans record the format of one placement per group; refutation proved. Proved for spans evaluated one by one."
 ],
 "C129": [
  "partial",
  "False of the code in general; refutation proved: integers are cast to 32 bits before the test for the short form (2^32+5 comes back as 5) and integers outside 28 bits always stop the program, dates and times come back as date-times, durations lose fractions of a second, errors their context, uneven arrays stop the program or come back reshaped. Proved for all other values, in all histories with at most 2^28 entries."
 ],
 "C13": [
  "proved",
  "create_schedule (without the dynamic-topology branch) and create_schedule_with_virtual, for any hash-map order. The reverse adjacency must mirror the forward one on the requested cells (edge-store invariant)."
 ],
 "C130": [
  "partial",
  "False of the code in general; refutation proved: an array constant with rows of different lengths, which the parser accepts, stops the program or comes back reshaped, postfix calls come back as an error, calls with 65536 arguments without arguments, ranges from row 0 as open ranges. Proved for all other formulas."
 ],
 "C131": [
  "partial",
  "Equal nodes mean equal formulas: proved. The converse is false of the code (refutation proved): decimal literals and calls with arguments are stored anew each time. Proved for formulas without calls, arrays and decimal or date literals when no two nodes have the same hash."
 ],
 "C132": [
  "proved",
  "Exact for all texts (ASCII for HEX2DEC) and numbers; the conversions of arguments to numbers are parameters."
 ],
 "C133": [
  "proved",
  "All six functions equal going through decimal, for all arguments, errors included."
 ],
 "C134": [
  "partial",
  "False of the code: a left shift wraps around the 64-bit word, so 2^24 shifted by 40 gives 0 and 2^23 shifted by 40 a negative number instead of #NUM!, and a shift of -2^31 panics where overflow is checked; refutation proved. Proved for the three bit operations, and for shifts whose exact result is below 2^63."
 ],
 "C135": [
  "partial",
  "False of the code for the simplified forms (ROMAN(9,1) is IV, ROMAN(99,1) is VLIV, ROMAN(49,2) is IX), whose value in form 1 is computed for every number, and for invalid numerals, which ARABIC accepts; refutations proved. Proved for the classic form of every number, for all forms of the numbers without the digits concerned, and the exact value ARABIC gives to every text."
 ],
 "C136": [
  "partial",
  "GCD proved for all lists. LCM is false of the code when the product passes 2^64 (panic or a wrong number); refutation proved; proved whenever some common multiple is below 2^64."
 ],
 "C137": [
  "partial",
  "False of the code for numbers from 2^63 on, which BASE writes as 2^63-1 (the cast saturates); refutation proved. Proved for all numbers below 2^63 in every radix and length, and DECIMAL exactly."
 ],
 "C138": [
  "partial",
  "False of the code: ? stands for one byte and ~ is not an escape; refutations proved; proved for patterns without ~ and with no ? or ASCII text, and for the pattern handed to arrow without arrow's special characters."
 ],
 "C139": [
  "partial",
  "False of the code: the mask and the cell test differ on blanks, numeric text, nearly equal numbers, empty criteria and arrow's special characters; refutations proved; proved for numbers and texts with suited criteria."
 ],
 "C14": [
  "proved",
  "Same scope as C13. The scheduler alone fails on a virtual self-dependency (C14_virtual_self_refuted); the engine's virtual-dependency builder never produces one."
 ],
 "C140": [
  "partial",
  "False of the code: text criteria see written numbers and Booleans but not loaded ones; refutations proved; proved for all other pairs of criterion and value."
 ],
 "C141": [
  "partial",
  "Ordering, opposites, numbers and spaces proved for all texts; refuted for =wildcard, ordering of text, =TRUE, 0 against =0, and =nan."
 ],
 "C142": [
  "partial",
  "Proved for ranges within the rows of the sheet, COUNTIFS and SUMIFS for more than one cell; refuted for rows below the sheet and for a context without masks."
 ],
 "C143": [
  "partial",
  "Proved for ranges of one shape; refuted for different shapes, which are not rejected."
 ],
 "C144": [
  "partial",
  "False of the code: MID with a count near the largest integer panics in a build with overflow checks, and LEN, LEFT, RIGHT, CODE and REPT read TRUE as true (refuted). Proved for all other counts and values."
 ],
 "C145": [
  "partial",
  "False of the code at one place: a start one beyond the end appends (refuted). Proved for every other start."
 ],
 "C146": [
  "partial",
  "False of the code for the empty text: FIND gives 1 whatever the start (refuted). Proved for every other text."
 ],
 "C147": [
  "partial",
  "False of the code: letters beyond ASCII are not folded, and ~ is an ordinary character (refuted). Proved with ~ ordinary and case ignored for A-Z."
 ],
 "C148": [
  "proved",
  ""
 ],
 "C149": [
  "partial",
  "False of the code for delimiters that overlap themselves when counted from the end (refuted). Proved with occurrences cut from the left."
 ],
 "C15": [
  "proved",
  "Edge lists sorted by reader, endpoints in range, as the only caller passes them."
 ],
 "C150": [
  "partial",
  "False of the code: empty rows are dropped, and with case ignored characters whose lower case has another length make the call panic or lose text (refuted). Proved for one row, for rows that are not empty, and ignoring case where lengths are kept."
 ],
 "C151": [
  "proved",
  ""
 ],
 "C152": [
  "partial",
  "False of the code: the limit counts bytes, and a product that wraps around makes the call panic (refuted). Proved for ASCII texts with products below 2^64, and soundness for all."
 ],
 "C153": [
  "partial",
  "False of the code for the five codes Windows-1252 leaves out (refuted). Proved for all others and for all of Unicode."
 ],
 "C154": [
  "proved",
  ""
 ],
 "C155": [
  "partial",
  "False of the code: numbers stay unsorted around a value of another kind, an index of zero or below sorts by the first column and the least one overflows, an order between -1 and 0 is ascending (refuted). Proved for columns of one kind of comparable values and for every stable sort."
 ],
 "C156": [
  "proved",
  "For rows of one kind of comparable values, like C155."
 ],
 "C157": [
  "proved",
  "For by-arrays of one kind of comparable values, like C155."
 ],
 "C158": [
  "proved",
  ""
 ],
 "C159": [
  "partial",
  "False of the code by column: the distinct columns come out as rows (refuted). Proved by row, and by column up to that transposition."
 ],
 "C16": [
  "partial",
  "False of the code: splice_after inserts the moved block at an index of the shortened list, so nodes right behind x slip in front of it (C16_splice_refuted). Proved: one place per node, the newest edge always the right way round, all edges kept when no node reached from y has a successor within px - py places behind x, refusals exact within the visit budget and backed by a real path, rebuild_full topological on acyclic graphs."
 ],
 "C160": [
  "proved",
  ""
 ],
 "C161": [
  "partial",
  "False of the code: a left-out count of rows takes none, and a count below every integer overflows (refuted). Proved for all other counts."
 ],
 "C162": [
  "proved",
  ""
 ],
 "C163": [
  "proved",
  ""
 ],
 "C164": [
  "proved",
  ""
 ],
 "C165": [
  "partial",
  "False of the code for fractions below 1E-12 next to an integer, which are rounded away (refuted). Proved within that bound, and exactly for integers."
 ],
 "C166": [
  "partial",
  "False of the code for &: an error becomes its text and an array is printed, not taken cell by cell (refuted). Proved for arithmetic and comparisons, cells, operands and errors; f64 arithmetic is a parameter."
 ],
 "C167": [
  "partial",
  "False of the code: < is not transitive, since \"10\" < \"9\" and \"9\" < 10 but not \"10\" < 10, and in a 1904 workbook a date equals a number from which it differs (refuted). Proved: one relation, mirror images, folding and what numbers compare as."
 ],
 "C168": [
  "partial",
  "False of the code: @x and a function that wants a range do not see a local name, a LAMBDA named like a registered function is never called, and a LAMBDA passed as an argument is lost (refuted). Proved for formulas whose colons and @ have cell references as operands, and for LET against LAMBDA for arguments that are values."
 ],
 "C169": [
  "proved",
  "The depth of the machine stack is not modelled."
 ],
 "C17": [
  "proved",
  "For all operation sequences whose edge sources are registered and whose bulk builds are handed all registered vertices; C70 shows what happens when a bulk load is not."
 ],
 "C170": [
  "partial",
  "False of the code: an unregistered function inside a formula, a colon and the call of an expression give an error of evaluation in one and an error value in the other (refuted). Proved for formulas without these, and without @ when there is an offset."
 ],
 "C171": [
  "partial",
  "False of the code: a stored formula with @ is not moved (refuted). Proved for trees in full and for stored formulas in which the two evaluators agree."
 ],
 "C172": [
  "partial",
  "False of the code: a written one-cell range in another row and column gives #VALUE! instead of its cell (refuted). Proved for all other rectangles and for views, with at most one cell meant."
 ],
 "C173": [
  "proved",
  "For formulas that give one value and without INDIRECT and OFFSET; arrays are C177. Cycles stamped (the default)."
 ],
 "C174": [
  "proved",
  "For formulas that give one value. Threads are modelled as evaluating a group before writing it."
 ],
 "C175": [
  "proved",
  "For formulas that give one value."
 ],
 "C176": [
  "proved",
  "For formulas that give one value."
 ],
 "C177": [
  "partial",
  "False of the code: a reader evaluated before the array in the same layer is marked when the array is written and then cleared with the layer; it stays stale through further evaluations (refuted). Proved without arrays (C173)."
 ],
 "C178": [
  "partial",
  "False of the code: a cell once volatile and then overwritten by a value stays in volatile_vertices, and its readers are evaluated again every time (refuted). Proved: volatile formulas and their users are dirty, and whatever is dirty uses a cell that held a volatile formula."
 ],
 "C179": [
  "partial",
  "False of the code: the index is cut to 32 bits (INDEX(A1:A3,4294967297) is A1), overflow panics in debug builds, and of an open range only the used part counts, so INDEX(A:A,ROWS(A:A)) is #REF! (refuted). Proved for indices below 2^32-2^20."
 ],
 "C18": [
  "partial",
  "False of the code as a property of the store: compaction rewrites the base from the registered vertices only (apply_to_csr), so an edge added before its source is registered is lost; refutation proved. For registered sources see C17."
 ],
 "C180": [
  "partial",
  "False of the code for indices cut to 32 bits (refuted). Proved for indices below 2^32-2^20. Literals with rows of different lengths: C180_ragged_rows."
 ],
 "C181": [
  "partial",
  "False of the code: there is no last row or column, moves wrap at 2^32, and i64 overflow panics in debug builds (refuted). Proved for results inside the sheet, and before its start for moves below 2^62."
 ],
 "C182": [
  "proved",
  "Of references that are cells or ranges; other references are resolved through a parameter."
 ],
 "C183": [
  "partial",
  "False of the code: ADDRESS does not quote a name with a colon, and INDIRECT does not read R1C1 texts (refuted). Proved for A1 texts and all other names that are not empty."
 ],
 "C184": [
  "partial",
  "False of the code: an argument whose evaluation fails ends the call, so AND(FOO(),FALSE) is an error while AND(FALSE,FOO()) is FALSE, and an earlier error value is forgotten (refuted). Proved if no evaluation fails before the decision."
 ],
 "C185": [
  "proved",
  "De Morgan for cells and expressions that are not references; XOR for arguments with one value, or a failed evaluation."
 ],
 "C186": [
  "partial",
  "False of the code: of several errors in one range XOR shows the last, and AND and OR take a computed array for one value that is neither (refuted). Proved for at most one error in each argument; for arrays in XOR, and for array literals in AND and OR."
 ],
 "C187": [
  "partial",
  "False of the code for IF: an error value as condition gives #VALUE! instead of the error (refuted). The rest is proved."
 ],
 "C188": [
  "partial",
  "False of the code: an error in an array of one cell is shown but not replaced, and IFNA does not replace a failed evaluation with #N/A (refuted). Proved for all other arguments."
 ],
 "C189": [
  "partial",
  "False of the code about equality: a blank is not 0 as for the operator =, and equality within 1e-12 is not transitive (refuted). The rest is proved, with reflexivity, symmetry and equality of texts."
 ],
 "C19": [
  "proved",
  "Intervals given must not be reversed; the query interval neither."
 ],
 "C190": [
  "proved",
  "The index as an integer or a number, cut by a parameter."
 ],
 "C191": [
  "partial",
  "False of the code: a blank row of criteria beside others is left out instead of choosing all records, and criteria below a heading that is a number are left out (refuted). Proved exactly as the code selects, and as stated if all rows ask something, or none does."
 ],
 "C192": [
  "partial",
  "More rows of criteria choose more only if some row asked something before (see the blank row of C191). The rest is proved; the sums and products with order-independent parameters."
 ],
 "C193": [
  "proved",
  ""
 ],
 "C194": [
  "partial",
  "False of the code: DCOUNT counts texts that read as numbers, DAVERAGE counts truth values and DCOUNT does not, DCOUNTA counts empty texts (refuted). Proved for columns of numbers and blanks; errors, DMAX, DMIN, DVAR and DSTDEV in general."
 ],
 "C195": [
  "proved",
  "DGET gives an error that is the only value as its value."
 ],
 "C196": [
  "partial",
  "False of the code for ISERROR: an argument that fails to evaluate makes ISERROR fail instead of TRUE (refuted). Proved for every argument with a value."
 ],
 "C197": [
  "partial",
  "False of the code: an argument that fails to evaluate, and an array of one cell with an error, tell the two forms apart (refuted). Proved for scalar arguments."
 ],
 "C198": [
  "partial",
  "False of the code: TYPE of an error is the error, and N and T do not take the first cell of a range (refuted). The rest is proved."
 ],
 "C199": [
  "partial",
  "False of the code: ISEVEN(2^53+1) is TRUE, ISODD is TRUE of powers of two from 2^63 on, dates and blanks have no parity (refuted). Proved for numbers, truth values and whole numbers below 2^53."
 ],
 "C20": [
  "proved",
  "Removals and moves must name the position the vertex was last given, as every caller does."
 ],
 "C200": [
  "proved",
  "For arguments that have a value; one that fails to evaluate fails (C198_failure)."
 ],
 "C21": [
  "partial",
  "The 'of another owner' clause is false of the code: an owner's own overlapping region is refused too (C21_own_region_refuted). Proved: no two held regions overlap, refusal exactly on overlap with any held region, grants and releases exact; for fewer than 2^64-1 reservations."
 ],
 "C22": [
  "partial",
  "C22_textbook: undo, redo, grouped actions, single edits and recalculations agree with a textbook editor for every fair history. Outside fair histories the claim is false of the code: see the refutations under C63, C65 and C66."
 ],
 "C23": [
  "partial",
  "False of the code (C23_refuted: a single edit after a grouped action, or after a redo, cannot be undone); proved for histories that do not mix the two."
 ],
 "C24": [
  "partial",
  "False of the code: new edits do not clear the redo stack; refutation proved."
 ],
 "C25": [
  "partial",
  "False of the code: the cap cuts inside an action and undo then reverts the kept part only; refutation proved. Proved that a cap which the history never exceeds changes nothing."
 ],
 "C26": [
  "partial",
  "Formulas are restored exactly (C26_textbook, C26_rollback); false of the code for dependencies (rolling back a value written over a value cuts off the readers of the cell, C26_links_refuted) and when the log is cleared inside a transaction (C26_clear_refuted: panic). Names, spills and structural edits are not in the model."
 ],
 "C27": [
  "partial",
  "False of the code for repeated names (the first savepoint wins) and for savepoints at the same position; refutations proved. Proved for names not reused while in use."
 ],
 "C28": [
  "proved",
  "For every formula tree, given that the edit pushes no referenced cell off the sheet (what happens then is C68). The denoted cells, the edges of ranges, dollar signs and sheet names are all covered."
 ],
 "C29": [
  "proved",
  "For every formula tree whose ranges are bounded on the edited axis, on both axes; cells, ranges and sheet-qualified references."
 ],
 "C30": [
  "partial",
  "False of the code: a range open above (=A:A5) whose last row is deleted ends up one row too long; refutation proved. Proved for every other half-open range."
 ],
 "C31": [
  "partial",
  "False of the code: references inside lambda calls and array literals are not shifted, and a reference shifted off the sheet is clamped to row 1 or left past the last row; four refutations proved. Proved for formulas without calls and array literals whose shifted references stay on the sheet."
 ],
 "C32": [
  "partial",
  "False of the code: references inside lambda calls, and references that spell the sheet name in another case, are not redirected; refutations proved. Proved for all other formulas."
 ],
 "C33": [
  "proved",
  "For fewer than 2^64 leases (the generation counter wraps)."
 ],
 "C34": [
  "partial",
  "Exact for mark_dirty_many over every graph built by edge and range histories, cycles included; on the path for spilled cells completeness is proved and the second clause is false of the code (bounding rectangle; refutation proved)."
 ],
 "C35": [
  "partial",
  "Proved for all edits through mark_dirty_many, also when the edits change what the edited formulas read; false of the code for spilled cells, where a deferred scope schedules less (refutation proved). Vertices deleted inside a scope are not covered."
 ],
 "C36": [
  "proved",
  "For every history of formulas being given ranges and losing them, block indexing on or off; ranges with both rows or both columns given: closed, whole-row, whole-column and half-open ones. The parser also accepts a column and a row (A:3), which is not covered (Example C36_mixed_shape shows a miss)."
 ],
 "C37": [
  "partial",
  "False of the code in one respect: the rollback writes old values through set_cell_value, so a formula typed into a spilled cell is lost (refutation proved). Proved: a completed commit shows the whole array, empties the dropped cells and touches nothing else; an interrupted one restores every value and all ownership at any interruption point, and the formulas too when no rewritten cell but the anchor holds one; planning admits exactly the free rectangles; blocked results clear the old spill."
 ],
 "C38": [
  "partial",
  "Proved for all histories of results and edits that ownership and listing are inverse, and with edits through the editor that every owner is a formula within its own region. False for direct edits (owner no longer a formula) and for commits made without planning, as VertexEditor::commit_spill_region, undo and replay do; both refutations proved."
 ],
 "C39": [
  "partial",
  "False of the code only when an insertion pushes a hidden row past u32::MAX (saturation merges rows): refuted in C39_insert_delete_without_bound_refuted; proved for every session in which no hidden row is pushed off the end."
 ],
 "C40": [
  "partial",
  "False of the code at the 65537th creation (u16 id wraps) and for the empty name: both refuted; proved for all histories with non-empty names and at most 65536 creations."
 ],
 "C44": [
  "partial",
  "MATCH, VLOOKUP's search, LOOKUP, XMATCH and XLOOKUP proved for clean data (no NaN/infinity, texts that do not read as numbers, numbers equal or at least 1e-12 apart). False of the code for XMATCH/XLOOKUP next smaller/larger with a text needle: refutation and the general statement of what happens are proved."
 ],
 "C45": [
  "partial",
  "False of the code: if one corner of a named range is deleted the whole name becomes #REF! although cells survive; refutation proved. Proved when both corners survive, and for names bound to a cell."
 ],
 "C46": [
  "partial",
  "False of the code for infinities and for a zero tolerance (refutations; Pending likewise is never equal to itself). Proved: exact characterisation of the test on IEEE binary64, symmetry of the whole outcome, reflexivity for values without infinities and a positive tolerance, kinds never mix."
 ],
 "C47": [
  "partial",
  "False of the code: refutation proved (some date functions return serials outside the legal range); proved for the functions and ranges stated in the theorems."
 ],
 "C48": [
  "partial",
  "False of the code: DATEDIF \"MD\" can be negative and \"D\" is not the serial difference across the phantom day, both refuted; the remaining units are proved."
 ],
 "C50": [
  "partial",
  "False of the code before 1 March 1900 and for serials past 9999 (WEEKDAY accepts them): refutation proved; agreement proved elsewhere."
 ],
 "C51": [
  "partial",
  "False of the code for arguments that overflow i32 (panic): refutation proved; proved for all arguments without overflow."
 ],
 "C52": [
  "partial",
  "False of the code: a change of capitalisation reports success and does nothing (refuted); proved whenever the new name is not yet known."
 ],
 "C53": [
  "partial",
  "False of the code: numeric-looking texts give a cycle, 'inf' is not equal to itself and near-equality is not transitive (three refutations). Proved: on clean data it is exactly the key order."
 ],
 "C54": [
  "partial",
  "False of the code for numbers within 1e-12, for a zero time against blanks and for the text 'inf' (refutations). Proved for clean data."
 ],
 "C55": [
  "partial",
  "False of the code for numbers against booleans (refutation). Proved for every text needle that does not read as a number."
 ],
 "C56": [
  "partial",
  "False of the code: the error is skipped (refutation). Proved: an error cell is never the one selected."
 ],
 "C57": [
  "partial",
  "False of the code on unsorted data (refutation). Proved equal on ascending data."
 ],
 "C58": [
  "proved",
  "Runtime cycle detection (opt-in). Second part for components in which no member returns an array."
 ],
 "C59": [
  "proved",
  "For components in which no member returns an array."
 ],
 "C60": [
  "partial",
  "False of the code in one direction; refutations proved (phantom cycle from mixed reads, transient array). Proved: a formula that runs into itself is never reported settled."
 ],
 "C61": [
  "partial",
  "False of the code in general; refutation proved (C61_survivors_refuted). Proved for formulas whose reads do not depend on values."
 ],
 "C62": [
  "proved",
  "The number of passes can exceed max_iterations itself (C62_over_max_refuted); the proved bound is max(1, limit) + members + 1."
 ],
 "C63": [
  "partial",
  "False of the code in eager mode (no old value is recorded); refutation proved. Proved for deferred graph building."
 ],
 "C64": [
  "partial",
  "False of the code in two ways (an undone value leaves an overlay entry that masks a later formula; a full capped log suppresses the overlay update); both refutations proved. Proved for eager mode with undo and redo, and for any mode without undo and redo, uncapped."
 ],
 "C65": [
  "partial",
  "False of the code for formulas still pending at the recalculation; refutation proved. Proved when nothing is pending."
 ],
 "C66": [
  "partial",
  "False of the code for a value typed over a pending formula (two ungrouped log entries); refutation proved. Proved for grouped edits."
 ],
 "C67": [
  "partial",
  "False of the code: undoing a value typed in an empty cell removes the vertex and its dependents' edges; refutation proved. Proved for histories without undo."
 ],
 "C68": [
  "partial",
  "False of the code: a formula =A1048576 makes every row insertion above it panic, and A1:A1048576 is pushed past the last row; refutations proved. Proved for deletions (no crash)."
 ],
 "C69": [
  "partial",
  "False of the code: the relative references of a moved formula are shifted as by a copy; refutation proved. Proved for formulas whose references are all absolute, moved within a sheet."
 ],
 "C70": [
  "partial",
  "False of the code: BulkIngestBuilder::finish hands build_from_adjacency only the cells created by this load as vertex list, so the next compaction drops the edges of every older vertex; refutation proved. Proved: the answers are exact right after the load, and stay exact when each load creates no cell or is the first (C17_store_exact)."
 ],
 "C71": [
  "partial",
  "False of the code: moving a vertex never updates the sheet index, so after a column insertion a range lookup misses formulas (C71_columns_refuted). Proved exact while only rows are inserted or deleted."
 ],
 "C72": [
  "partial",
  "False of the code: a block of whole columns loaded in bulk is found from the first row only (proved for every such block), a half-open range from its first row only; proved for closed ranges, one whole column and one whole row."
 ],
 "C73": [
  "partial",
  "False of the code: the readers of the users of a redefined name are not scheduled (refutation proved); proved when the users have no readers."
 ],
 "C74": [
  "partial",
  "False of the code: a formula above the insertion reading an adjusted formula is not scheduled (refutation proved); what is scheduled is characterised exactly."
 ],
 "C75": [
  "partial",
  "False of the code: formulas never registered with the order (bulk entry without dependencies) make layers_for index a missing key, and a width of zero never ends (both refuted). Proved for registered formulas and a positive or absent width."
 ],
 "C76": [
  "partial",
  "False of the code: past the visit budget the call rebuilds and starts over without a limit (C76_budget_refuted, C76_never_ends). Proved when the budget is at least the number of nodes."
 ],
 "C77": [
  "partial",
  "False of the code: a formula or value typed into a cell the array formula already fills is overwritten silently at the next recalculation; refutations proved. Proved for every cell the formula does not own."
 ],
 "C78": [
  "partial",
  "False of the code for the engine's direct setters: the old cells stay filled, owned and blocking; refutations proved. Proved for both edits through the editor."
 ],
 "C79": [
  "partial",
  "False of the code: =FALSE=(1=2) is displayed as =false = 1 = 2, which has another value; a parenthesised union argument is displayed as two arguments; (foo) B1 and #GETTING_DATA are displayed as text that is rejected. Refutations proved. For every other tree (predicate faithful, RoundSpec.v) the round trip through printer, tokenizer and parser is proved, for all number and reference formats that read back on their own."
 ],
 "C80": [
  "proved",
  "Spelling with the one stated exception, and the shape of every token. C80_error_qualifier_refuted shows that the exception occurs (Sheet1!#REF!)."
 ],
 "C81": [
  "proved",
  ""
 ],
 "C82": [
  "proved",
  "Strict mode of the tokenizer; the best-effort mode is not modelled."
 ],
 "C83": [
  "proved",
  "Fuel linear in the length always suffices in the model; the model's recursion follows the loops of the code."
 ],
 "C84": [
  "partial",
  "False of the code: a range whose end is a call (A1:INDEX(..)) becomes a call of a function named \"A1:INDEX\", proved for all cells and names; a union inside the arguments of a call on a value is rejected. Proved for ranges that start in a call, a parenthesised expression or a range."
 ],
 "C85": [
  "partial",
  "False of the code: the recursive-descent parser has no depth limit, so for every stack depth some accepted formula needs more (refutation proved for all depths). Proved: the depth is at most linear in the number of tokens."
 ],
 "C86": [
  "partial",
  "False of the code for some structured references, empty sheet names and 3D names with control bytes; refutation proved; proved for every displayable reference in both dialects."
 ],
 "C87": [
  "partial",
  "False of the code: rows of ranges may exceed the sheet and planning a small such range panics; refutation proved. Cells are proved to be on the sheet and never to panic, and the panicking ranges are characterised exactly."
 ],
 "C88": [
  "partial",
  "Coverage proved for all ranges whose corners are in order; writing the rectangle from another corner loses all dependencies (refutation proved)."
 ],
 "C89": [
  "partial",
  "Proved for separately quoted names; the form quoted together is always read as one sheet (proved for all names as a refutation)."
 ],
 "C90": [
  "partial",
  "Proved for all names without an exclamation mark; with one the text is read as a defined name (refutation proved)."
 ],
 "C91": [
  "partial",
  "Proved for all sheets without a colon; malformed references are read as table columns (refutation proved)."
 ],
 "C92": [
  "proved",
  "For offsets that fit in a u32, as rows do."
 ],
 "C93": [
  "proved",
  "For offsets that fit in a u32."
 ],
 "C94": [
  "partial",
  "False of the code for a zero next to a zero of the other sign; refutation proved; proved up to the sign of a zero, and exactly for lists whose equal values are identical."
 ],
 "C95": [
  "proved",
  "The memory size of the arrays of a fragment is an arbitrary function."
 ],
 "C96": [
  "partial",
  "False of the code: overwriting a single cell while a fragment is present subtracts the old cell twice; refutation proved; proved that the counter is never too large, and exact for the histories described in the theorem."
 ],
 "C97": [
  "proved",
  "For histories whose row insertions are at most one chunk, that do not insert or delete rows while the sheet has rows but no column, and whose rows fit in u32 (C99 and C100 show that the first two are needed). Sheets start empty; the ingest builder is not modelled."
 ],
 "C98": [
  "proved",
  "Same histories as C97. A computed value written over a literal leaves the cell open."
 ],
 "C99": [
  "partial",
  "False of the code: two row insertions into a sheet without columns, or deleting the only column and inserting a row, make the next write panic; refutations proved. Proved for the histories of C97."
 ]
}
# Design: a machine-checked model of formualizer

## Layout

For each subject `X` there are up to four files in `rocq/theories/`:

* `XModel.v`  – the Rust code, function by function, as total computable
  Gallina.  Every definition cites the file and lines it models and says where
  it simplifies.  No proofs.
* `XSpec.v` (or a section of the proof file when tiny) – the independent
  specification: set membership, reachability, calendars, denotations.  It never
  mentions the model's helpers.
* `XProofs.v` – lemmas.
* `XProps.v` – only property theorems, each closed by `exact lemma`, followed by
  `Print Assumptions`, and non-vacuity `Example`s.

A property that is false of the code is stated in full, followed by a theorem
named `…_refuted` with a witness; what still holds is proved under the weakest
hypothesis found (`…_partial`).

## Trusted base

* Coq 8.16.1's kernel (and `coqchk`).
* The reading of the Rust source: no extraction or execution links the model to
  the code.  Each definition's comment is the link.
* `Print Assumptions` for the property theorems: `ASSUMPTIONS.md` lists the answer for
  every one of them (written by `tools/assumptions.py`).  So far each is "Closed under
  the global context": no axiom, not even one of the standard library, is used.
* Modelling conventions:
  * `u8/u32/u64/usize/i64` values are `N`/`Z`/`nat`.  Where the code casts,
    wraps, saturates or checks, the model does so explicitly; otherwise
    arithmetic is unbounded and the definition's comment says so.
  * A panic is an explicit error value.
  * Hash maps and hash sets become association lists, functions or `list`s with
    set meaning.  Iteration order over hash containers, if observable, is a
    parameter of the model (universally quantified in the theorems).
  * Strings are lists of Unicode scalar values (`N`).  `char::to_lowercase`,
    `to_uppercase` etc. beyond ASCII are parameters, generalised at the end of a
    section, with the laws used stated as hypotheses of the theorems.
  * f64 arithmetic is not modelled unless a definition says so (then as exact
    rationals/integers, or with Flocq's binary64).
  * Time, threads, cancellation, telemetry and logging are not modelled.

## What is modelled, subject by subject

Each model file starts with the Rust files and lines it follows and with its own list of
simplifications; this section says what is inside, what is left out and what was found.
"Found" lists behaviour of the code that a theorem named `…_refuted` (or an example next to
a theorem) demonstrates on the model.

### Coordinates (`Coord*`; C01–C07)
`Coord`, `RelativeCoord`, column letters, A1 text, `VertexAddr`.  Left out: hashing, serde.
Found: signed conversion truncates i64 to u32 before its range test (C05); one letter
string overflows u32 in the one-based conversion (C03).

### Dates (`Date*`; C08–C11, C47–C51)
Serial conversions of both date systems, EDATE, EOMONTH, DATE, TIME, DATEDIF, NETWORKDAYS,
WORKDAY (with weekend masks and holidays), WEEKDAY.  chrono's `NaiveDate` is the civil
calendar of `DateSpec.v`.  Fractions of days are left out.  Found: DATE normalises negative
years by truncation; DATEDIF "MD" can be negative; WEEKDAY is a day off before 1 March 1900;
TIME overflows.

### Hidden rows (`Vis*`; C39), sheets and strings (`Sheet*`, `Intern*`; C40, C41, C52)
Whole files.  Found: insertion saturates at u32::MAX and merges rows; sheet ids wrap at
65536; a rename that changes capitalisation reports success and does nothing.

### Broadcasting and wildcards (`Bcast*`, `Wild*`; C42, C43)
Whole functions.  Case folding is a parameter.

### Lookups (`Lookup*`; C44, C53–C57)
Comparison, binary searches, linear searches and the lookup index cache behind MATCH,
VLOOKUP/HLOOKUP, LOOKUP, XMATCH, XLOOKUP.  A finite f64 is an exact rational.  Found:
"next smaller/larger" with a text needle selects a wrong element; the comparison is not an
order on numeric-looking texts; repeated lookups differ from first ones; errors in the
searched vector are skipped; array literals and ranges differ on unsorted data.  Observed
and not stated as a property: XMATCH/XLOOKUP treat blanks as 0 where MATCH skips them;
`approximate_select_ascending` is dead code.

### Convergence (`Conv*`; C46)
The convergence test on IEEE binary64 (`SpecFloat`).  Found: an infinity never converges;
a zero tolerance never accepts equal values.

### Cycles and schedules (`Tarjan*`, `LiveGraph*`, `Sched*`; C12–C15)
The iterative Tarjan machine, Kahn layers, condensation units, virtual dependencies, the
live graph analysis.  Not modelled: the dynamic-topology branch of `create_schedule`.

### Runtime cycle detection (`Scc*`; C58–C62)
`evaluate_scc_unit` with formulas as decision trees.  Found: phantom cycles, survivors of
the error policy with inconsistent values, more passes than `max_iterations`.

### Leases (`Lease*`; C33)
The formula-dirty state machine.  The legacy vertex set and counters are left out.

### Undo and transactions (`Undo*`, `Tx*`; C22–C27, C63–C67)
Logged cell edits of a workbook, the change log with its cap and groups, undo, redo,
transactions, savepoints.  Left out: names, spills, structural edits, formats, compaction
of overlays (mirror_value_to_overlay also removes the computed-overlay entry), the
Int→Number normalisation of old values.  Found: see the notes of C22–C27 and C63–C67 in the
manifest (redo survives new edits, a cap cuts actions in half, rollback cuts off readers, …).
Observed only: when the graph refuses an edit at a spill anchor the compound stays open.

### References under edits (`Ref*`; C28–C32, C45, C68, C69)
`ReferenceAdjuster`, copy and move of formulas, named ranges.  Found: half-open ranges one
row too long; references in lambda calls and array literals not shifted; sheet names in
another case not redirected; a reference to the last row makes every insertion panic.

### Dependency store (`Edge*`; C17, C18, C70)
CSR arrays, delta slab, rebuild, bulk build.  Found: compaction drops edges of unregistered
sources; the next compaction after a second bulk load drops the edges of older vertices.

### Range indexes (`Interval*`, `GridIndex*`, `Stripe*`; C19–C21, C36, C71, C72)
Interval tree, sheet index, spill region locks, stripes.  Query order is not modelled.
Found: the sheet index is never updated by moves; ranges loaded in bulk are filed under
their first row only.  Observed: the parser accepts mixed ranges such as A:3, which the
stripe index misses.

### Dirtiness (`Dirty*`; C34, C35, C73, C74)
`mark_dirty*`, deferred scopes, names, insertions, over the two stores above.  Found: a
deferred scope schedules less for spilled cells; readers of the users of a redefined name
are not scheduled; an insertion does not schedule readers above it.

### Incremental order (`Pk*`; C16, C75, C76)
`DynamicTopo`.  Found: `splice_after` uses an index of the longer list; unregistered nodes
panic; a zero layer width and an exhausted visit budget never end.

### Spills (`Spill*`; C37, C38, C77, C78)
Planning, commit with rollback at any point, ownership, edits of anchors.  Found: the
rollback loses a formula typed into a spilled cell; direct edits of an anchor leave its
spill behind; typed entries under a spill are overwritten.

### Formula text (`Lex*`, `Pratt*`, `Round*`, `FormulaProps`; C79–C85)
The tokenizer (strict mode), the parser and the printer.  Numbers (`str::parse::<f64>`,
Display of f64) and reference texts are parameters with the laws used stated as hypotheses.
Not modelled: best-effort mode, error messages and positions, volatility flags, the machine
stack (a depth bound is proved instead).  Found: printed formulas that read back with
another meaning; a range ending in a call read as a call; no nesting limit.  Observed: the
names `inf`, `nan` and `infinity` read as numbers; fragmented_transaction.rs:60-70 compares
formulas by their printed text.

### Grammar and words (`Gram*`, `Word*`; C104–C106)

`GramSpec.gram` is a grammar by levels, written from the table in tokenizer.rs 262-275 without the parser's functions; `C104_grammar_is_parsed` says that every derivation is parsed into its tree. `WordSpec.reads` cuts a formula of words and operators; `cell` and `quoted` describe reference texts. The models are those of the formula text.

### Reference text (`Rt*`; C86–C91, one theorem of C79)
Reading (both dialects), displaying and planning of cells, ranges, 3D, external and
structured references and names; from bytes to the planned dependencies.  White space is
ASCII white space; error values are one value; specifiers that the parser never builds are
left out; names, tables and sources are not planned.  The model of planning is checked
against `Coord::from_excel`, whose range assertion is the modelled panic.  The number
parser of C79 is a parameter about which only `number_like` is assumed.  Found: a small
range below row 1048576 is accepted and then panics; ranges written from another corner
have no dependencies (evaluation answers #REF!, Excel reorders the corners); 3D names
quoted together become one sheet; column names with '!' become defined names; displayed
columns are not escaped; a mismatched OpenFormula range is read as table columns.

### Overlays of the column store (`Ov*`; C92–C96)
Points, the three kinds of fragments with their lanes, cutting, slicing, listing and the
byte counter, from the constructors to `Overlay`.  An f64 is its bit pattern.  The memory
size Arrow reports for an array is a parameter.  The `u32` conversions that would panic are
shown not to be reached for offsets that are rows.  Found: overwriting a cell while a
fragment is present subtracts the old entry twice from the byte counter; a run of zeros
takes the sign of its first zero.

### Sheets of the column store (`As*`; C97–C103)
Columns cut into row chunks, dense or sparse, with two overlays each: reading, growing,
compaction, slicing, inserting and deleting rows and columns, format runs, and the engine's
calls that write them.  `AsSpec` gives a grid of cells on which the same calls act on whole
rows and columns, and a board that only knows the last write.  Which rows a compaction takes
is left open in the grid.  A panic is `None`.  Not modelled: the ingest builder, the caches of
a chunk, the engine's memory budget, fragments applied by the engine.  Found: a sheet with
rows and no columns loses its row layout and the next write panics; a row insertion of more
than one chunk loses values on later growth; compaction of user edits uncovers hidden
results; compacted literals reappear when results are dropped.

### Spans and regions (`Fp*`; C107–C115)
The FormulaPlane's regions, its region index with both queries, the summary of what a span
reads, the projection of a change through it and the dirty closure (region_index.rs 16-1700,
producer.rs 24-1507).  `FpSpec` says which cells a region, a domain and a precedent name and
when a formula is out of date.  The hash order of the index is a parameter.  Not modelled:
epochs, estimates of memory, names and other precedents that are refused, the cancelling
callback of the closure.  Found: a bounded query of one whole row or column never answers;
a change in one of several columns read whole recomputes the whole span.

### Edits of spans (`Ss*`; C116–C123)
Insertions and deletions of rows and columns through spans: the classification
(structural_shift.rs 6-560) and the engine's arms that keep, shift, rewrite, divide, compact
or remove a span (eval.rs 12491-12570, 12827-14062), with literals and their encodings
(runtime.rs 112-285, 440-620).  A template is the list of its references at the cell it was
written for; the rewrite uses the reference adjuster of `RefModel`.  `SsSpec` says where cells
go, when a reference follows the cells it reads and when a span is in good order.  Spans that
become single cells are not followed further.  Not modelled: checks that can only turn a kept
span into single cells, the float range check of whole-number steps, memoised values.  Found:
compaction by a deletion keeps the references as they were; a divided span with a shared
template computes from other columns than it shows; rising literals are off after a shift.

### Template keys and span evaluation (`Tk*`, `Sv*`; C124–C128)
Canonical templates, their exact and parameterized keys with every field as printed, literal
slots and the tree a placement evaluates (template_canonical.rs 27-1558, function_contract.rs
8-178, placement.rs 1156-1234 and 1658-1793, interpreter.rs 592-604 and 1702); the choice
between constant, memoised and single evaluation and the memo groups (span_eval.rs 115-945).
`TkSpec` says when a formula is a copy of another.  A literal is what is printed of it.  The
interpreter is any function of what a formula can see at its placement; cells that are read
hold scalars.  Not modelled: the hash of a key, epochs, cancellation, thread pools.  Found:
equal literals of a template are one node of the arena, so a placement where they differ is
evaluated with the last; memoised and constant spans record the derived format of one
placement only.

### Arenas (`Ar*`; C129–C131)
Packed references, the arenas of numbers, arrays, errors and formula nodes and the data store
over them (engine/arena/value_ref.rs 28-240, scalar.rs 8-115, array.rs 22-165, error_arena.rs
20-98, ast.rs 41-138 and 232-467, data_store.rs 88-304 and 380-900).  An f64 is its bits; the
conversions between dates and serials and the two hashes are parameters, so hashes may clash;
casts and products wrap as in a release build.  `ArSpec` says which values and formulas are
kept and how much room they take.  Not modelled: canonical labels and metadata, statistics,
the `clear` functions.  Found: integers outside 28 bits stop the program or lose their high
bits; uneven array constants stop the program; decimals and calls are never shared.

### Integer functions (`Nu*`; C132–C137)
Conversions between bases and bit functions (builtins/engineering.rs 15-1815), ROMAN, ARABIC,
BASE, DECIMAL (builtins/math/numeric.rs 2274-2790), GCD and LCM (builtins/math/combinatorics.rs
109-325), with `from_str_radix`, the integer formats and `str::replace` written out.  A number
argument is NaN, an infinity or a rational, so comparisons and casts are exact; results are
integers before `as f64`.  Parameters: text to number, `i64 as f64`, `i64::to_string`, `trim`,
`to_uppercase` (assumed only on ASCII), and whether overflow is checked.  `NuSpec` has
positional values, two's complement, letter values and divisibility only.  Found: left shifts
wrap around; the simplified Roman forms are other numbers; LCM overflows.

### Criteria (`Cr*`; C138–C143)
Parsing of criteria (args.rs 57-176), the cell-by-cell test (builtins/utils.rs 308-460), the
engine's masks (engine/eval.rs 2328-2510, 24490-24506), row chunks and slices (range_view.rs)
and `eval_if_family` (criteria_aggregates.rs 88-705) for COUNTIF, COUNTIFS, SUMIF and SUMIFS on
ranges.  A sum is the list of the numbers added.  A finite number is a rational: differences
are not rounded and -0 is not told from 0.  Parameters: lowering, text to f64, number to text.
Assumed of arrow: comparisons use the total order with NaN above all, LIKE works on characters
with `%`, `_` and `\` special; the further case folding of `ilike` on lowered text is ignored.
Omitted: array criteria, calendar values, AVERAGEIF's division.  `CrSpec` has the order of
numbers, what values read as, positions, and a one-cell sheet, so that ranges are compared with
COUNTIF of each cell.  The counterexamples hold for every library that agrees on the few texts
named in `library`.  Found: `?` is one byte; `~` escapes nothing; mask and cell test differ on
blanks, numeric text, `_` and `%`; `"5"` counts a written 5 but not a loaded one.

### Text functions (`Tf*`; C144–C154)
LEN, LEFT, RIGHT, MID, SUBSTITUTE, REPLACE, FIND, SEARCH, EXACT, TRIM, UPPER, LOWER, PROPER,
CONCAT, CONCATENATE, TEXTJOIN, CHAR, CODE, ASC, REPT, CLEAN, UNICHAR, UNICODE, TEXTBEFORE,
TEXTAFTER and TEXTSPLIT (builtins/text: len_left_right.rs, mid_sub_replace.rs,
find_search_exact.rs, trim_case_concat.rs, char_code_rept.rs, extended.rs, array_text.rs), after
arguments are reduced to single values; byte positions and slices off a character boundary are
written out.  Parameters: overflow checks, f64 to text, text to number, `to_lowercase` and
`to_uppercase`, `is_alphanumeric`.  Omitted: how ranges are reduced to values, pending cells.
`TfSpec` has places, wildcards, pieces between delimiters, words.
Found: MID overflows; SEARCH folds ASCII only and knows no `~`; TEXTSPLIT ignoring case
panics on the Kelvin sign and loses text after a dotted capital I; REPT counts bytes and
panics when the product wraps.

### Array functions (`Ay*`; C155–C165)
SORT, SORTBY, FILTER, UNIQUE, SEQUENCE, TRANSPOSE, TAKE, DROP (lookup/dynamic.rs), HSTACK,
VSTACK (stack.rs), TOCOL, TOROW (array_shape.rs), CHOOSECOLS and CHOOSEROWS (choose.rs), after
arguments are evaluated: a table is a view of rows, columns and a cell function, a one-cell
reference a scalar.  Numbers are exact rationals with infinities and NaN; the running sum of
SEQUENCE is exact.  `sort_by` is a parameter; its contract (`sorts`) is the one of the standard
library: for a total order the result is the stable order.  An insertion sort satisfies it, so
the contract is not empty.  Parameters: lower-casing and text to number.  Omitted: errors and
pending cells while a range is read, the spill itself.
`AySpec` has tables, mirror images, stable orders, lexicographic order, selections.
Found: SORT of mixed kinds leaves numbers unsorted, because the comparison treats values of
different kinds as equal; UNIQUE by column gives rows; TAKE with left-out rows gives nothing,
against its own documentation; SORT and TAKE overflow on the least integer.

### Evaluation of formulas (`Ev*`; C166–C172)
Both evaluators of interpreter.rs, over syntax trees and over stored formulas, with operators,
comparisons, implicit intersection, offsets, local names and functions, and LET and LAMBDA
(builtins/lambda.rs).  A `world` collects the parameters: f64 arithmetic, number and text
conversions, the cells and ranges of the workbook and the registered functions, each a function
of what its argument handles show (left out, value, range) that answers with a value or with one
of its arguments.  Formulas that return references are taken to return values.  Evaluation is
counted by fuel; C169 says that enough fuel exists.  Omitted: number formats, messages,
cancellation, stack depth.
`EvSpec` has the names in a formula, moved formulas, formulas on which the evaluators are
compared, and the crossing of a position with a rectangle.
Found: see the notes of C166–C172; the two evaluators disagree on error values, `@` ignores
local names and offsets, and comparison is not transitive.

### Recalculation (`Rc*`; C173–C178)
The whole loop: edits, dirty marks, choice and cache of the schedule, layers evaluated directly,
through a buffer or in parallel, cycles, volatile formulas, evaluate_all and evaluation of chosen
cells (eval.rs, graph/mod.rs, virtual_deps.rs; lines in `RcModel.v`).  It uses the scheduler of
`Sched*` and the propagation of `Dirty*`.  A formula is the cells it reads, by edge or by range,
and a result function of their values; edge store and range index answer what formulas say.
Omitted: dynamic references, iteration of cycles, budgets, cancellation, spill checks.
`RcSpec` has reading, settled cells, what edits leave in a cell.
Found: a reader of an array cell can stay stale; a cell once volatile keeps its readers dirty.

### Reference functions (`Rf*`; C179–C183)
INDEX of references and of array literals, OFFSET, ROW, ROWS, COLUMN, COLUMNS, ADDRESS and
INDIRECT (builtins/reference_fns.rs, builtins/lookup/reference_info.rs and address.rs, the sheet
reference part of the parser; lines in `RfModel.v`), on the references of `Rt*`.  32- and 64-bit
arithmetic is written out for debug and release builds.  What an open range resolves to is a
parameter, as is what a cell shows.  Indices are integers after the cast from f64.
`RfSpec` has rectangles, the line with a number, moved rectangles.
Found: indices and moves wrap at 2^32, OFFSET knows no last row, INDEX and ROWS disagree on open
ranges, ADDRESS leaves names with colons unquoted.

### Logical functions (`Lg*`; C184–C190)
AND, OR, NOT, XOR, IF, IFS, IFERROR, IFNA, SWITCH and CHOOSE (builtins/logical.rs,
builtins/logical_ext.rs, builtins/lookup/choose.rs, argument handles of traits.rs; lines in
`LgModel.v`), on the values of `Ev*`.  Each function answers with the arguments it looks at, in
order, and its outcome: a value or a failed evaluation.  f64 is a type with a test for zero, a test
for closeness, a conversion and a cast.  Omitted: formats, messages, left-out arguments.
`LgSpec` has true, false, blank and error values, what AND, OR and XOR of a list of values are,
what is shown, and arguments with one value.
Found: a failed evaluation hides FALSE in AND, IF loses the error of its condition, IFERROR lets
an error in an array of one cell pass, XOR shows the last error of a range, SWITCH has its own
equality.

### Database functions (`Db*`; C191–C195)
DSUM, DAVERAGE, DCOUNT, DMAX, DMIN, DPRODUCT, DVAR, DVARP, DSTDEV, DSTDEVP, DGET and DCOUNTA
(builtins/database.rs 44-666), with the criteria and exact numbers of `Cr*`.  Sums, products,
quotients, squared deviations and roots are parameters.  Omitted: how an argument becomes a view,
calendar values.  `DbSpec` has the column of a name, what a row of criteria asks, wanted and
selected records, the numbers among values.
Found: blank criteria rows are left out, numeric headings are not matched, DCOUNT counts numeric
text, DCOUNTA counts empty text.

### Questions about values (`In*`; C196–C200)
ISNUMBER, ISTEXT, ISNONTEXT, ISLOGICAL, ISBLANK, ISERROR, ISERR, ISNA, TYPE, NA, N, T, ISEVEN,
ISODD and ERROR.TYPE (builtins/info.rs, lines in `InModel.v`), on the values of `Ev*` and the
argument handles of `Lg*`.  f64 is a type with a conversion and a cast; for the parity of large
numbers it is the whole numbers with rounding to 53 bits.  Omitted: ISREF, ISFORMULA, FORMULATEXT,
SHEET, SHEETS.  `InSpec` has the kinds of value and the numbers of TYPE.
Found: ISERROR of an argument that fails to evaluate fails too, so IF(ISERROR(x), y, x) is not
IFERROR(x, y); TYPE of an error is the error; ISEVEN is TRUE of odd numbers above 2^53 and ISODD of
even numbers from 2^63; dates have no parity.

## Not modelled

The built-in functions other than those named above, Arrow storage other
than sheets and overlays, file formats and bindings, the FormulaPlane (except its leases, regions, reads, dirty
closure, structural edits, template keys and span evaluation), SheetPort,
best-effort parsing, cancellation, threads, telemetry, admission budgets.

## Mutation tests

`tools/mutate.py` applies one edit to a model file in a scratch copy and rebuilds what
depends on it; `seeded/LOG.jsonl` records every attempt.

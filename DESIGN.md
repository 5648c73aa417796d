# A Rocq model of bodoni/postscript

The crate reads Compact Font Format tables (`src/compact1`) and executes Type 2
character strings (`src/type2`). `src/type1` is empty. The model covers all of it,
function by function, and the theorems are about that model.

## Layout

| Files in `rocq/theories` | Content |
| --- | --- |
| `Base` | outcomes, panics, profiles, machine integers, tapes (the part of `typeface` the crate calls) |
| `Float` | `f32` as `spec_float` with 24 bits of precision and maximal exponent 128 |
| `C1Number`, `C1Operation`, `C1Index`, `C1Glyphs`, `C1FontSet`, `Utf8`, `Tables` | `src/compact1` |
| `T2Number`, `T2Operation`, `T2Program` | `src/type2` |
| `C1Tape` | `src/compact1/font_set` once more, with the position at which the tape is left |
| `C1Plan` | `src/compact1/font_set`, `index`, `character_set.rs`, `encoding.rs` once more, as plans that ask for bytes one at a time |
| `C1Word`, `T2Word` | the reader and the execution once more, with the width of `usize` as a parameter |
| `T2Effort` | `src/type2/program.rs` once more, counting the rounds of the loops of roll |
| `T2Machine` | `src/type2/program.rs` once more, with the state that errors leave behind |
| `Spec*` | specifications: what the formats and operators mean, written without the model's readers |
| `*Facts` | lemmas and proofs |
| `Prop*` | the property theorems and nothing else: each is closed by `exact` and followed by `Print Assumptions`, with an `Example` that meets its hypotheses |

`Tables.v` is generated from the text of `/repo` by `tools/gen_tables.py`.

## How the code is modelled

* Every function is a total Gallina function. A Rust `Result` is an `outcome`: `Ok`,
  `Err` with the error kind, `Panic` with its cause, or `OutOfFuel`. `OutOfFuel`
  exists only because some loops are fuelled; it is proved unreachable for every
  loop except that of `Program::next`, which can really run forever (C50).
* A tape is the list of bytes that remain to be read. Random access (`jump`) is
  `rest_at` on the whole content.
* Fixed-width integers are mathematical integers, with explicit wrapping or
  checked operations where the code can leave the range. The Cargo profile is a
  parameter (`config`), and every theorem holds for all its values unless it names one.
* Bytes are `Coq.Init.Byte.byte`, so no theorem needs a range hypothesis on bytes.

## Style of the theorems

For each format a specification gives a relation between byte strings and values
(`encodes bytes value`). The two directions are proved about the reader:
sound (`read s = Ok (v, r)` implies `s = e ++ r` with `e` an encoding of `v`) and
complete (`read (e ++ r) = Ok (v, r)` for every encoding `e` of `v` and every `r`).
Round trips, consumption, rejection and independence of the rest of the tape follow.
For character strings, properties are about `step` (one round of `Program::next`)
and `next`/`run`, for all programs.

Where the code does not do what the property says, the property stays as it is,
a theorem with the suffix `_refuted` exhibits a concrete input, and a theorem with
the suffix `_partial` proves the property under the weakest guard found.

## Plan per property

| Property | Modelled by | Proof |
| --- | --- | --- |
| C01, C02 | `read_number` | relation `integer_encoding`; case analysis, arithmetic |
| C03 | `parse`, `parse_f32`, `f32_of_decimal` | induction over nibbles; rounding via Flocq |
| C04 | `parse` | induction over nibbles, both directions |
| C05 | `read_number` | prefixes of the encoding relation |
| C06 | `read_offset` | case analysis |
| C07 | `string_id_of_number` | refuted above 65535; partial below; the cut stated for all operands |
| C08, C09 | `operator_from`, `operator_default`, `t2_operator_from` | table in the specification; decision over the code range lifted to all codes |
| C10, C11, C12, C13 | `read_operations`, `operations_get` | induction over the operations |
| C14, C15, C16 | `read_index` | relation `index_encoding`; induction over offsets |
| C17, C18, C19 | `names_try_into`, `strings_get`, `Utf8` | grammar of well-formed UTF-8; induction |
| C20 | `dictionaries_get`, `dictionaries_try_into` | induction over the elements |
| C21, C22 | `read_character_set` | relation; induction over ranges |
| C23 | `character_set_get` | ISOAdobe partial; refuted for the expert sets |
| C24 | `encoding_get` | computation over the tables, lifted to all codes |
| C25 | `read_encoding` | relation |
| C26 | `read_encoding` | refuted |
| C27 | `character_set_get`, `encoding_get` | refuted |
| C28, C29, C31, C32, C33, C34, C35, C36 | `read_font_set` | relation `font_set_layout` on byte ranges, both directions; corollaries; for failures (C31) equality of the readers jump by jump |
| C30 | `font_set_count` | refuted; partial: right exactly when there are as many names as dictionaries |
| C37 | `read_font_set` | refuted; partial for non-negative offsets and sizes and non-empty glyph sets; `SpecPanic.font_set_panic` says exactly when it panics and how; reading ends |
| C38 | `read_operand` | relation; exactness via Flocq |
| C39, C40, C41 | `step`, `clear`, `reduce` | relation `legal_count` per operator; least remainder |
| C42 | `clear`, `EndChar`; the arguments of all clearing operators (`SpecWidth`) | refuted for masks and later operators; partial: induction on the rounds of any execution |
| C43, C44 | `execute`, `Float` | induction over expression trees; Flocq |
| C45 | `roll` and others | induction over the shift; refuted at `i32::MIN`, where the result is given exactly |
| C46, C47 | `call`, `Return` | simulation between the called and the inlined code |
| C48 | `EndChar` | refuted; partial |
| C49 | `execute` | case analysis |
| C50 | `next` | refuted by a self-call; explicit bound proved for every bound on the nesting of calls; divergence is equivalent to unbounded nesting |
| C51 | `step` | release profile proved; dev profile refuted, with the exact condition for a panic |
| C52 | `run` | induction over the operations |
| C53 | `read_font_set` | the readers of the profiles agree up to overflow panics; moving `font_set_layout` from one profile to the other |
| C54 | `run` | executions are simulated with more bytes behind the outermost routine |
| C55 | `step`, `run` | rounds of two profiles agree up to panics |
| C56 | `step`, `next`, `run` | rule-based semantics (`SpecExecution`) written without the model; both directions by induction on derivations and on executions |
| C57 | `read_font_set` | a writer of files (`SpecFile`), which computes the offsets; what it writes is laid out as C28 says, by induction on the fonts |
| C58 | `read_number`, `read_operations`, `read_operand` | an exact decimal literal for every binary32 datum; the converse from C01 and C04 |
| C59 | `read_font_set`, `new_program`, `next` | C57 for the parts, then the reference semantics of C56 for the execution |
| C60 | `step`, `read_operations`, `read_index` | the weight of C50 bounds the stack and what is emitted; induction on the rounds; a family of programs for the growth |
| C61 | `next` | refuted by a family of programs; partial: the weight of C50 bounds the rounds |
| C62 | all readers | a relation between outcomes before and after bytes are appended, closed under bind; completions for `UnexpectedEof` |
| C63 | `step`, `next`, `run` | the reasons are stated on states (`SpecFailure`); case analysis of a round in both directions, induction on executions |
| C64 | `step`, `next`, `run` | extending the outermost routine commutes with a round; a continuation for each way of being cut short |
| C65 | `step`, `next`, `run` | a big-step semantics of faults (`SpecFault`) next to that of C56; induction on the rules one way, on the rounds with the pending callers the other way |
| C66 | `read_font_set` and all the readers it calls | weights (`SpecSize`) bounded by bytes consumed, reader by reader; a family of files in which everything is shared, read through C28 |
| C67 | `Program::next` with its effects on `&mut self` (`T2Machine`) | agreement with `T2Program` statement by statement; the states after errors as rules (`SpecMachine`), one per way to fail, shown to be exact; invariants over any sequence of calls |
| C68 | sequences of calls of `next`, some of which fail | counterexamples for finality and for termination, the latter also with calls that never nest; the remaining cursor after an end of file; a measure on the code, and on the code and the subroutines that weighs bytes by depth, for termination |
| C69 | `FontSet::read` with the position of the tape (`C1Tape`) | agreement with `C1FontSet`; an equivalence with the layout extended by the place behind the last part that is read; files written by `SpecFile` end where the tape is left, and induction over files in a row |
| C70 | `FontSet::count` with the position of the tape | false for every written file that has names: the tape is left behind the number of names, and reading there fails; where it is left is an equivalence |
| C71 | `Program::next` counting the rounds of the loops of roll (`T2Effort`) | agreement with `T2Program`; false by a family of programs, 13 bytes for 2^30 rounds each; the exact number of rounds of each step; the bound that holds by induction over executions (`SpecEffort`) |
| C72 | all readers of font sets and their parts | the beginnings of each table up to where bytes are missing (`SpecCut`); equivalences for the two errors along the structure of the readers; uniqueness from the four equivalences |
| C73 | all readers of font sets as plans (`C1Plan`): a plan is done or asks for the byte at a place and goes on | agreement with `C1Tape`; a plan carried out on two tapes that agree where it asks; the places asked for as intervals, one for each part (`SpecParts`), along the structure of the readers |
| C74 | the number of places in C73 | a pass over the tape for each part, whatever the outcome; the number of fonts and dictionaries by C66; what is held in memory was asked for, and the family of C66 |
| C75 | `step`, `next`, `run` | replacing the tables commutes with a round, calls by the cases of C46; induction on executions; a table at a boundary of the bias |
| C76 | `read_font_set` | on the layout of C28, which is an equivalence: an index whose front stays the same is encoded by its new elements, cut like the old ones; the rest stands where it stood |
| C77 | `read_index`, `read_character_set`, `read_encoding`, `read_dictionary_encoding`, `read_font_set` | each encoding relation is injective; the layouts of C28 of two files for the same font set; two files for the exception |
| C78 | `step`, `next`, `run` | the places called and not returned from, by induction on executions; if none is repeated there are at most as many as subroutines; the bounds of C50, C60, C61; a subroutine that calls itself |
| C79 | the plans of C73, put to a device that can fail (`SpecDevice`) | induction on plans: up to the first failure the requests are those of the file; the parts of C73 for what is not read |
| C80 | the same, put to a device that answers anything | tables that are read once from the front to the back are read from the answers, one after the other; for the formats that are looked at twice, the case that the answers differ; two changing files for the exceptions |
| C81 | pieces of code as functions of the stack, and code in which some take the place of others (`SpecRewrite`) | simulation: induction on the number of rounds and then on the replaced code; both pieces are passed at once, and every other operator is executed on both sides; identities by the effects of the operators |
| C82 | a bound on the numbers that is followed along an execution (`SpecFinite`) | counterexamples by computation for every profile; the bound is an invariant: each operator is correctly rounded, and rounding keeps powers of two; without two-byte operators only written numbers are on the stack |
| C83 | code that stands for other code together with the code that this returns to (`SpecInline`) | simulation in both directions: induction on the number of rounds and then on the rewritten code, so that inlined calls and returns, for which only one side moves, come to an end; the callers are grouped by what has been inlined |
| C84 | a program with operands below its stack, and one with a width (`SpecDeep`) | every stack operator, `call` and `roll` leave what is below alone; programs that differ in the width take the same steps; simulation in both directions from the first clearing operator on |
| C85 | stack, pending calls and stem hints of a program (`T2Program`) | for every limit a program that exceeds it, with the addresses of the nested calls on the stack; an invariant over the rounds that weighs stems, operands and remaining bytes |
| C86 | code with and without hints (`SpecHint`) | forward simulation: the program without hints waits while the other executes one, and otherwise both take the same step with the same stack; C84 for the width |
| C87 | code with calls and without (`SpecFlat`) | induction on the code with calls, with a list of the code to return to, gives code without them that stands for it; then C83, and C47 for the end |
| C88 | the places of a font set that are not dictionaries, and font sets with other dictionaries (`SpecDress`) | the layout of C28 is carried from one tape to the other part by part; C10 for the order |
| C89 | font sets that differ in where their parts stand (`SpecRepack`) | from the layout of C28 the parts that the writer of C57 takes, font by font; dictionaries are encoded anew, with the literals of C58, whose lengths are bounded; the weights of C66 for the length |
| C90 | character strings as statements with expressions for operands (`SpecExpress`) | a number is a fixed-point number doubled or halved, which is exact, as often as its exponent says; statements are executed by the rules of C56, which the model follows; conversely C39 and the validity of all data in an execution |
| C91 | the limits of what font sets hold, without reference to bytes (`SpecContents`) | from the layout of C28, table by table; conversely a source for the writer of C57 is found for each part, with its length; C89 is then a special case |
| C92 | the reader of font sets with the width of `usize` as a parameter (`C1Word`); 64 gives the reader of the other files | the two agree, or the narrow one panics where the other has run out of bytes: kept through every part of the reader, since a count that makes a difference is greater than the length of the file |
| C93 | execution with the width of `usize` as a parameter (`T2Word`) | step by step: while the counter of stem hints stays low both take the same step; without subroutines C85 keeps it low, and checked addition never lets it decrease; for the exceptions, a glyph with 32 subroutines, each of which calls the previous one twice, and a hint mask of 2^29 bytes that all are `endchar` (`WordBoundFacts`) |
| C94 | font sets with other code for their glyphs and without subroutines, and what their glyphs draw (`SpecRedraw`) | the new contents are within the limits of C91, so there is a file; the code is that of C90, whose length is bounded by the operations |

## Trusted base

* The kernel of Coq 8.16.1 (`vm_compute` included).
* The axioms `Print Assumptions` lists, theorem by theorem (see the section on axioms).
* The reading of the Rust source into Gallina. Every definition cites its lines.
* The external crate `typeface` 0.5, whose source is not available here. Assumed:
  `take` reads big-endian and fails with `UnexpectedEof` when bytes are missing;
  `peek` restores the position; `take_given::<Vec<T>>(n)` reads `n` values in a row,
  reserving capacity first or not (both are covered by `preallocates`);
  `jump_take!(@unwrap tape, position, offset)` seeks to `position + offset as u64`;
  a `table!` field with `= { v }` rejects other values; `raise!` makes an error whose
  kind is not `UnexpectedEof`; `q32` converts to `raw / 65536`.
* The Rust standard library: `str::parse::<f32>` is correctly rounded (the library
  gives up exactness for exponents and digit counts beyond 65536, which would take a
  real number operand of over 32 kB),
  `String::from_utf8` and `from_utf8_lossy` follow the algorithm in `Utf8.v`,
  `HashMap` is a finite map, `f32` operations are IEEE 754 binary32.
* A 64-bit target, except in C92 and C93, which compare it with a 32-bit one; a tape over an
  in-memory buffer that nobody else modifies, so that seeking past the end succeeds and I/O errors other than end of file do not occur;
  sufficient memory and stack (allocation failure and stack overflow are not modelled).

## Axioms

No axiom is added. Theorems about real numbers (rounding, arithmetic) use those of
Coq's standard library: the two of the construction of the reals
(`ClassicalDedekindReals.sig_not_dec`, `ClassicalDedekindReals.sig_forall_dec`),
`FunctionalExtensionality.functional_extensionality_dep`, and
`Classical_Prop.classic`. Flocq is used for the definition of rounding
(`Flocq.Core`, `Flocq.IEEE754.BinarySingleNaN`); it adds no axiom of its own.
The list below is written by `tools/axioms.py`.

<!-- axioms -->
387 theorems.

These are closed under the global context (no axioms):

C75_boundary, C72_counts, C72_headers, C72_numbers, C72_offsets, C72_indices, C72_indices_malformed, C72_character_sets, C72_character_sets_malformed, C72_encodings, C72_encodings_malformed, C72_selectors, C72_selectors_malformed, C79_faults, C79_results, C79_stopped, C79_font_sets, C80_assertion, C80_supplements, C08_operator_codes, C08_unknown_codes, C08_codes_distinct, C08_type2_operator_codes, C08_type2_unknown_codes, C08_type2_codes_distinct, C76_untouched, C71_agrees, C71_rejected, C71_needless, C48_for_good_refuted, C48_for_good_partial, C51_refuted, C55_profiles, C57_file, C82_refuted, C28_places, C30_refuted, C31_checked_refuted, C31_borrowed_refuted, C31_counts, C36_formats, C36_other_formats, C36_settled, C37_refuted, C21_format0, C21_format0_only, C22_format1, C22_format2, C22_format1_overshoot, C22_format2_overshoot, C22_other_formats, C22_cut, C22_no_panic, C22_all_assigned, C23_iso_adobe_refuted, C23_expert_refuted, C23_expert_subset_refuted, C23_iso_adobe_partial, C23_iso_adobe_outside, C23_expert_partial, C23_expert_subset_partial, C24_standard, C24_expert, C24_outside, C24_named, C24_standard_labels, C24_expert_labels, C25_plain, C25_other_formats, C25_no_panic, C26_supplements_refuted, C26_supplements_only_partial, C27_character_set_refuted, C27_encoding_refuted, C27_character_sets_silent, C27_encodings_silent, C14_index_round_trip, C14_index_only, C15_index_consistent, C16_malformed_rejected, C16_truncated_rejected, C16_no_panic, C17_names, C17_lossy_determined, C18_standard, C18_custom, C18_beyond, C19_standard_names, C19_standard_defined, C19_standard_distinct, C20_all_decode, C20_get, C20_get_agrees, C20_get_outside, C77_tables, C67_agrees, C68_final_refuted, C68_nested_refuted, C78_unlimited, C01_dictionary_integers, C02_integer_round_trip, C03_every_literal_has_an_encoding, C04_reserved_nibble_is_an_error, C05_number_cut_short, C06_offsets, C06_offset_cut_short, C06_other_sizes, C07_string_id_refuted, C07_string_id_partial, C07_string_id_cut, C07_string_id_error, C38_others, C73_agrees, C73_asked, C73_count_asked, C73_count_places, C73_readers_agree, C73_readers, C73_readers_order, C74_readers, C94_same, C60_indices, C62_font_sets, C62_counts, C62_numbers, C62_operands, C62_offsets, C62_indices, C62_character_sets, C62_encodings, C62_selectors, C62_headers, C69_agrees, C70_partial, C92_wide, C93_wide, C93_within, C93_quiet, C93_checked, C93_bound, C93_silent.

These rest on `ClassicalDedekindReals.sig_forall_dec`, `ClassicalDedekindReals.sig_not_dec`, `Classical_Prop.classic`, `FunctionalExtensionality.functional_extensionality_dep`:

C75_uncalled, C75_succeeds, C75_appended, C75_none, C91_read, C91_written, C72_font_sets, C72_font_sets_malformed, C72_determined, C72_numbers_malformed, C72_operations, C72_operations_malformed, C72_operands, C84_deeper, C84_width, C84_changed, C84_lines, C79_unread, C80_tables, C80_panics, C80_ends, C80_still, C09_defaults, C10_last_occurrence_wins, C11_dictionary_cut, C12_accepted, C12_rejected, C12_result, C12_table, C12_no_panic_no_loop, C13_lookup, C13_operands, C88_dressed, C88_order, C76_edited, C76_glyph, C71_refuted, C71_rounds, C71_others, C71_partial, C71_no_subroutines_partial, C43_expressions, C43_passed, C44_add, C44_sub, C44_mul, C44_div, C44_div_zero, C44_sqrt, C44_sqrt_negative, C44_neg, C44_abs, C44_eq, C44_and, C44_or, C44_not, C44_ifelse, C44_valid, C45_dup, C45_exch, C45_drop, C45_index, C45_index_too_deep, C45_roll_refuted, C45_roll_partial, C45_roll_least, C45_roll_too_many, C45_fractions, C45_too_few, C46_called, C46_given, C46_others_partial, C46_overflow, C46_others_refuted, C47_inlined, C47_in_place, C48_endchar, C48_unfinished, C49_unsupported, C49_reserved, C49_return, C50_refuted, C50_partial, C50_diverges_partial, C50_no_subroutines, C51_partial, C51_runs_partial, C51_unchecked, C52_round_trip, C54_trailing, C90_numbers, C90_length, C90_written, C90_glyphs, C90_normal, C63_cut_short, C63_malformed, C63_next, C63_unchecked, C64_operations, C64_errors, C64_panics, C64_cut_short, C65_fails, C65_builds, C65_unique, C65_exclusive, C65_endless, C57_round_trip, C57_fonts, C58_numbers, C58_length, C58_dictionaries, C58_operands, C59_name_keyed, C59_cid_keyed, C82_partial, C82_plain_partial, C82_written_partial, C87_flat, C87_succeeds, C87_ends, C28_layout, C29_parallel, C29_top_dictionaries, C30_names, C30_partial, C31_unchecked, C31_partial, C31_otherwise, C31_same_partial, C32_font_set, C32_truncated, C32_tables, C33_kind, C33_operands, C34_font_dictionaries, C35_name_keyed, C35_cid_keyed, C37_partial, C37_quiet, C37_panics_partial, C37_ends, C37_rejected, C53_profiles, C53_otherwise, C86_outline, C86_width, C86_computed, C20_no_panic, C83_rewritten, C83_succeeds, C83_maskless, C83_ends, C83_trailing, C77_font_sets, C77_dictionaries, C85_stack_refuted, C85_calls_refuted, C85_stems_refuted, C85_partial, C67_left, C67_kept, C67_panics, C68_final_partial, C68_ends_refuted, C68_ends_partial, C68_subroutines_partial, C78_inside, C78_depth, C78_ends, C78_endless, C78_rounds, C78_amount, C78_ranked, C78_leaves, C03_reals_correctly_rounded, C04_reals_are_literals, C04_anything_else_is_an_error, C38_numbers, C38_integers, C38_fixed, C38_finite, C38_truncated, C39_operands, C39_passed, C39_too_few, C40_emitted, C40_run, C41_skipped, C41_truncated, C42_mask_refuted, C42_later_refuted, C42_accent_refuted, C42_partial, C42_endchar_partial, C42_kept, C42_taken, C42_taken_at_end, C73_elsewhere, C73_parts, C73_order, C74_bound, C74_success, C74_growth, C94_replaced, C94_pictures, C94_any, C89_repacked, C89_selected, C89_operands, C81_rewritten, C81_composed, C81_equivalence, C81_determined, C81_folded, C81_identities, C81_at_end, C81_masks, C56_executed, C56_meant, C56_unchecked, C56_unique, C56_fails, C60_programs, C60_no_subroutines, C60_growth, C60_dictionaries, C61_refuted, C61_partial, C61_no_subroutines_partial, C66_bound, C66_cubic, C66_growth, C62_operations, C69_left, C69_written, C69_sequence, C70_refuted, C42_surpluses, C42_exactly, C42_whole_partial, C42_implicit_refuted, C92_read, C92_fails, C93_no_subroutines.
<!-- end of axioms -->

## Checks on the model and the theorems

* The model was extracted to OCaml outside this repository and run on both fonts in
  `/repo/tests/fixtures`. Everything the crate's own tests assert about them came out
  the same: names, dictionaries, character sets, encodings, and the operations and widths
  of the character strings (547 and 101 glyphs run to their end).
* `tools/mutate.py` edits one definition of the model in a scratch copy, rebuilds, and
  lists the property theorems whose proofs break, directly or through a lemma.
  `tools/mutations.py` holds the edits, and `seeded/LOG.jsonl` has one line for each
  attempt: what was edited, the claim this breaks, and the theorems that failed.
  (A theorem counts as failed when a proof it rests on does. Proofs of equivalences
  with an independent specification cannot be repaired after an edit that changes
  behaviour, so for these the failure is not an artefact of the proof script.)
  Where an edit was first said to break a claim that it does not affect, the label was
  corrected after the run, and the entry has a note that says so.
* `coqchk -o` was run on all `Prop` modules and what they depend on. It accepts them and lists the
  four axioms named above, no type-in-type, no unsafe fixpoints and no assumed positivity.

## Not modelled

* NaN payloads and the sign of NaN.
* The iteration order of `HashMap`.
* `Debug` output, error messages, and `Clone`.
* The state of a tape after an error was returned (after a success it is, in `C1Tape`). That of a program is modelled in
  `T2Machine`, where the place of the cursor after a failed read is a parameter (it depends
  on the versions of the standard library and of `typeface`). The state after a panic is not.
* The size of the native stack. `Program::next` calls itself once per operator that does
  not produce an operation; the model loops instead and counts the steps. C61 says how deep
  the calls get; whether that overflows depends on the platform and on the compiler.
* Time and memory use, except for the termination theorems, C60, C61, C66, C71 and C74.
* Failures of the device other than at a request for a byte (C79): seeking, asking for the
  position, and what the standard library does to put bytes together (short reads, interruptions).

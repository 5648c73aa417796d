{
 "claims": [
  {
   "property": "C01",
   "status": "proved",
   "theorems": [
    "C01_dictionary_integers"
   ],
   "note": "Both directions, for all byte strings."
  },
  {
   "property": "C02",
   "status": "proved",
   "theorems": [
    "C02_integer_round_trip"
   ],
   "note": "Also proves that the shortest form has minimal length."
  },
  {
   "property": "C03",
   "status": "proved",
   "theorems": [
    "C03_reals_correctly_rounded",
    "C03_every_literal_has_an_encoding"
   ],
   "note": "Rounding is that of Flocq's real-number specification; str::parse::<f32> is modelled as exact decimal-to-binary rounding."
  },
  {
   "property": "C04",
   "status": "proved",
   "theorems": [
    "C04_reals_are_literals",
    "C04_anything_else_is_an_error",
    "C04_reserved_nibble_is_an_error"
   ],
   "note": "Both directions, plus rejection of everything else."
  },
  {
   "property": "C05",
   "status": "proved",
   "theorems": [
    "C05_number_cut_short"
   ],
   "note": ""
  },
  {
   "property": "C06",
   "status": "proved",
   "theorems": [
    "C06_offsets",
    "C06_offset_cut_short",
    "C06_other_sizes"
   ],
   "note": ""
  },
  {
   "property": "C07",
   "status": "partial",
   "theorems": [
    "C07_string_id_refuted",
    "C07_string_id_partial",
    "C07_string_id_cut",
    "C07_string_id_error"
   ],
   "note": "False of the code above 65535 (the identifier is cut to 16 bits): proved up to 65535, and the cut is stated for all operands."
  },
  {
   "property": "C08",
   "status": "proved",
   "theorems": [
    "C08_operator_codes",
    "C08_unknown_codes",
    "C08_codes_distinct",
    "C08_type2_operator_codes",
    "C08_type2_unknown_codes",
    "C08_type2_codes_distinct"
   ],
   "note": ""
  },
  {
   "property": "C09",
   "status": "proved",
   "theorems": [
    "C09_defaults"
   ],
   "note": ""
  },
  {
   "property": "C10",
   "status": "proved",
   "theorems": [
    "C10_last_occurrence_wins"
   ],
   "note": ""
  },
  {
   "property": "C11",
   "status": "proved",
   "theorems": [
    "C11_dictionary_cut"
   ],
   "note": ""
  },
  {
   "property": "C12",
   "status": "proved",
   "theorems": [
    "C12_accepted",
    "C12_rejected",
    "C12_result",
    "C12_table",
    "C12_no_panic_no_loop"
   ],
   "note": ""
  },
  {
   "property": "C13",
   "status": "proved",
   "theorems": [
    "C13_lookup",
    "C13_operands"
   ],
   "note": ""
  },
  {
   "property": "C14",
   "status": "proved",
   "theorems": [
    "C14_index_round_trip",
    "C14_index_only"
   ],
   "note": ""
  },
  {
   "property": "C15",
   "status": "proved",
   "theorems": [
    "C15_index_consistent"
   ],
   "note": ""
  },
  {
   "property": "C16",
   "status": "proved",
   "theorems": [
    "C16_malformed_rejected",
    "C16_truncated_rejected",
    "C16_no_panic"
   ],
   "note": ""
  },
  {
   "property": "C17",
   "status": "proved",
   "theorems": [
    "C17_names",
    "C17_lossy_determined"
   ],
   "note": ""
  },
  {
   "property": "C18",
   "status": "proved",
   "theorems": [
    "C18_standard",
    "C18_custom",
    "C18_beyond"
   ],
   "note": ""
  },
  {
   "property": "C19",
   "status": "proved",
   "theorems": [
    "C19_standard_names",
    "C19_standard_defined",
    "C19_standard_distinct"
   ],
   "note": ""
  },
  {
   "property": "C20",
   "status": "proved",
   "theorems": [
    "C20_all_decode",
    "C20_no_panic",
    "C20_get",
    "C20_get_agrees",
    "C20_get_outside"
   ],
   "note": ""
  },
  {
   "property": "C21",
   "status": "proved",
   "theorems": [
    "C21_format0",
    "C21_format0_only"
   ],
   "note": "Glyph counts from 1 to 2^62; count 0 is covered under C37."
  },
  {
   "property": "C22",
   "status": "proved",
   "theorems": [
    "C22_format1",
    "C22_format2",
    "C22_format1_overshoot",
    "C22_format2_overshoot",
    "C22_other_formats",
    "C22_cut",
    "C22_no_panic",
    "C22_all_assigned"
   ],
   "note": "Both directions, plus overshooting, truncation, absence of panics, and that every glyph but the first is assigned."
  },
  {
   "property": "C23",
   "status": "partial",
   "theorems": [
    "C23_iso_adobe_refuted",
    "C23_expert_refuted",
    "C23_expert_subset_refuted",
    "C23_iso_adobe_partial",
    "C23_iso_adobe_outside",
    "C23_expert_partial",
    "C23_expert_subset_partial"
   ],
   "note": "False of the code: ISOAdobe does not name glyph 0, and Expert and ExpertSubset are keyed by string identifiers. Proved for ISOAdobe from 1 on, and for the other two when given string identifiers."
  },
  {
   "property": "C24",
   "status": "proved",
   "theorems": [
    "C24_standard",
    "C24_expert",
    "C24_outside",
    "C24_named",
    "C24_standard_labels",
    "C24_expert_labels"
   ],
   "note": "Tables restated independently from the specification's appendices."
  },
  {
   "property": "C25",
   "status": "proved",
   "theorems": [
    "C25_plain",
    "C25_other_formats",
    "C25_no_panic"
   ],
   "note": ""
  },
  {
   "property": "C26",
   "status": "partial",
   "theorems": [
    "C26_supplements_refuted",
    "C26_supplements_only_partial"
   ],
   "note": "False of the code; the theorem with the suffix _partial says what is read instead."
  },
  {
   "property": "C27",
   "status": "partial",
   "theorems": [
    "C27_character_set_refuted",
    "C27_encoding_refuted",
    "C27_character_sets_silent",
    "C27_encodings_silent"
   ],
   "note": "False of the code; custom tables answer nothing, which is proved for all of them."
  },
  {
   "property": "C28",
   "status": "proved",
   "theorems": [
    "C28_layout",
    "C28_places"
   ],
   "note": "Tape below 2^63 bytes; negative offsets are covered too, with the wrapping sum spelled out in [located]."
  },
  {
   "property": "C29",
   "status": "proved",
   "theorems": [
    "C29_parallel",
    "C29_top_dictionaries"
   ],
   "note": ""
  },
  {
   "property": "C30",
   "status": "partial",
   "theorems": [
    "C30_refuted",
    "C30_names",
    "C30_partial"
   ],
   "note": "False of the code: count returns the number of names (C30_names); it is the number of fonts exactly when the name and dictionary indices have the same number of elements (C30_partial)."
  },
  {
   "property": "C31",
   "status": "partial",
   "theorems": [
    "C31_unchecked",
    "C31_checked_refuted",
    "C31_partial",
    "C31_otherwise",
    "C31_same_partial",
    "C31_borrowed_refuted",
    "C31_counts"
   ],
   "note": "True without overflow checks; with them it fails exactly when a Private operator leads back to a place before the font set, and then the outcome is an overflow panic (C31_partial, C31_otherwise). Failures are the same as well if no offset leads before the font set (C31_same_partial); otherwise bytes in front may complete the font set (C31_borrowed_refuted). Counting never depends on the place (C31_counts)."
  },
  {
   "property": "C32",
   "status": "proved",
   "theorems": [
    "C32_font_set",
    "C32_truncated",
    "C32_tables"
   ],
   "note": ""
  },
  {
   "property": "C33",
   "status": "proved",
   "theorems": [
    "C33_kind",
    "C33_operands"
   ],
   "note": "Identifiers above 65535 are truncated by StringID (C07), hence the remainder in the statement."
  },
  {
   "property": "C34",
   "status": "proved",
   "theorems": [
    "C34_font_dictionaries"
   ],
   "note": ""
  },
  {
   "property": "C35",
   "status": "proved",
   "theorems": [
    "C35_name_keyed",
    "C35_cid_keyed"
   ],
   "note": ""
  },
  {
   "property": "C36",
   "status": "proved",
   "theorems": [
    "C36_formats",
    "C36_other_formats",
    "C36_settled"
   ],
   "note": ""
  },
  {
   "property": "C37",
   "status": "partial",
   "theorems": [
    "C37_refuted",
    "C37_partial",
    "C37_quiet",
    "C37_panics_partial",
    "C37_ends",
    "C37_rejected"
   ],
   "note": "False of the code; proved when no dictionary is hostile, and without any guard when neither overflow checks nor preallocation can panic. The panics are characterised exactly (C37_panics_partial); reading always ends (C37_ends)."
  },
  {
   "property": "C38",
   "status": "proved",
   "theorems": [
    "C38_numbers",
    "C38_integers",
    "C38_fixed",
    "C38_finite",
    "C38_truncated",
    "C38_others"
   ],
   "note": "Both directions; rounding is Flocq's."
  },
  {
   "property": "C39",
   "status": "proved",
   "theorems": [
    "C39_operands",
    "C39_passed",
    "C39_too_few"
   ],
   "note": "Stem counts below 2^64 - 7 (a usize cannot hold more)."
  },
  {
   "property": "C40",
   "status": "proved",
   "theorems": [
    "C40_emitted",
    "C40_run"
   ],
   "note": ""
  },
  {
   "property": "C41",
   "status": "proved",
   "theorems": [
    "C41_skipped",
    "C41_truncated"
   ],
   "note": "For every execution from the start, with the declared stems counted along it."
  },
  {
   "property": "C42",
   "status": "partial",
   "theorems": [
    "C42_mask_refuted",
    "C42_later_refuted",
    "C42_accent_refuted",
    "C42_partial",
    "C42_endchar_partial",
    "C42_kept",
    "C42_taken",
    "C42_taken_at_end",
    "C42_surpluses",
    "C42_exactly",
    "C42_whole_partial",
    "C42_implicit_refuted"
   ],
   "note": "False of the code in four ways, each refuted. C42_exactly says what the width is after any execution of any string, and C42_whole_partial that it is the specified one if the first clearing operator has the width and nothing else left over, or if nothing is ever left over (C42_partial gives the same for straight-line strings in terms of their code)."
  },
  {
   "property": "C43",
   "status": "proved",
   "theorems": [
    "C43_expressions",
    "C43_passed"
   ],
   "note": ""
  },
  {
   "property": "C44",
   "status": "proved",
   "theorems": [
    "C44_add",
    "C44_sub",
    "C44_mul",
    "C44_div",
    "C44_div_zero",
    "C44_sqrt",
    "C44_sqrt_negative",
    "C44_neg",
    "C44_abs",
    "C44_eq",
    "C44_and",
    "C44_or",
    "C44_not",
    "C44_ifelse",
    "C44_valid"
   ],
   "note": "Stated on the operators themselves, including division by zero and the square root of negative numbers."
  },
  {
   "property": "C45",
   "status": "partial",
   "theorems": [
    "C45_dup",
    "C45_exch",
    "C45_drop",
    "C45_index",
    "C45_index_too_deep",
    "C45_roll_refuted",
    "C45_roll_partial",
    "C45_roll_least",
    "C45_roll_too_many",
    "C45_fractions",
    "C45_too_few"
   ],
   "note": "roll is wrong for the shift -2^31 only (refuted); what it does then, and everything else, is proved."
  },
  {
   "property": "C46",
   "status": "partial",
   "theorems": [
    "C46_called",
    "C46_given",
    "C46_others_partial",
    "C46_overflow",
    "C46_others_refuted"
   ],
   "note": "Operands that select no subroutine are errors, except that the sum overflows for the operands given by C46_overflow where overflow is checked."
  },
  {
   "property": "C47",
   "status": "proved",
   "theorems": [
    "C47_inlined",
    "C47_in_place"
   ],
   "note": ""
  },
  {
   "property": "C48",
   "status": "partial",
   "theorems": [
    "C48_endchar",
    "C48_unfinished",
    "C48_for_good_refuted",
    "C48_for_good_partial"
   ],
   "note": "The first half is proved; after endchar the remaining bytes of the outermost routine are executed by later calls, so the second half is refuted, and proved when there are none."
  },
  {
   "property": "C49",
   "status": "proved",
   "theorems": [
    "C49_unsupported",
    "C49_reserved",
    "C49_return"
   ],
   "note": ""
  },
  {
   "property": "C50",
   "status": "partial",
   "theorems": [
    "C50_refuted",
    "C50_partial",
    "C50_diverges_partial",
    "C50_no_subroutines"
   ],
   "note": "False for self-calling subroutines; proved with an explicit bound for every bound on the nesting of calls, and the programs that do not terminate are exactly those whose calls nest without bound."
  },
  {
   "property": "C51",
   "status": "partial",
   "theorems": [
    "C51_refuted",
    "C51_partial",
    "C51_runs_partial",
    "C51_unchecked"
   ],
   "note": "False in checked builds (refuted); proved without overflow checks, and checked builds panic exactly when an operator is reached with extreme operands. The native stack is not modelled."
  },
  {
   "property": "C52",
   "status": "proved",
   "theorems": [
    "C52_round_trip"
   ],
   "note": ""
  },
  {
   "property": "C53",
   "status": "proved",
   "theorems": [
    "C53_profiles",
    "C53_otherwise"
   ],
   "note": ""
  },
  {
   "property": "C54",
   "status": "proved",
   "theorems": [
    "C54_trailing"
   ],
   "note": ""
  },
  {
   "property": "C55",
   "status": "proved",
   "theorems": [
    "C55_profiles"
   ],
   "note": ""
  },
  {
   "property": "C56",
   "status": "proved",
   "theorems": [
    "C56_executed",
    "C56_meant",
    "C56_unchecked",
    "C56_unique",
    "C56_fails"
   ],
   "note": "The semantics in SpecExecution does not mention the interpreter; C56_unchecked says what builds without overflow checks add."
  },
  {
   "property": "C57",
   "status": "proved",
   "theorems": [
    "C57_round_trip",
    "C57_file",
    "C57_fonts"
   ],
   "note": "The writer uses four-byte offsets in indices and five-byte integers for the offsets in dictionaries; all other parts are in any encoding."
  },
  {
   "property": "C58",
   "status": "proved",
   "theorems": [
    "C58_numbers",
    "C58_length",
    "C58_dictionaries",
    "C58_operands"
   ],
   "note": "Both directions; str::parse::<f32> is assumed to round correctly (see DESIGN.md)."
  },
  {
   "property": "C59",
   "status": "proved",
   "theorems": [
    "C59_name_keyed",
    "C59_cid_keyed"
   ],
   "note": "Combines C57 with C56. The choice of the font dictionary for a glyph (FDSelect) is left to the caller, as in the code."
  },
  {
   "property": "C60",
   "status": "proved",
   "theorems": [
    "C60_programs",
    "C60_no_subroutines",
    "C60_growth",
    "C60_dictionaries",
    "C60_indices"
   ],
   "note": "The bound for programs with subroutines is for calls of bounded depth (unbounded depth means divergence, C50_diverges_partial); C60_growth, which shows that the bound cannot be linear, is for up to 215 subroutines."
  },
  {
   "property": "C61",
   "status": "partial",
   "theorems": [
    "C61_refuted",
    "C61_partial",
    "C61_no_subroutines_partial"
   ],
   "note": "False of the code, which is recursive where a loop would do (tail calls are not eliminated in general); the depth is bounded by the amount of code. The rounds of the model are the nested calls; the size of the native stack is not modelled."
  },
  {
   "property": "C62",
   "status": "proved",
   "theorems": [
    "C62_font_sets",
    "C62_counts",
    "C62_numbers",
    "C62_operands",
    "C62_offsets",
    "C62_operations",
    "C62_indices",
    "C62_character_sets",
    "C62_encodings",
    "C62_selectors",
    "C62_headers"
   ],
   "note": "Operations::read is left out: it takes UnexpectedEof for the end of a dictionary (C11, C12)."
  },
  {
   "property": "C63",
   "status": "proved",
   "theorems": [
    "C63_cut_short",
    "C63_malformed",
    "C63_next",
    "C63_unchecked"
   ],
   "note": "Stated on the states that an execution gets to; what makes code cut short or malformed is said without the interpreter. Operands that overflow (C51) are panics in builds with checks, hence neither."
  },
  {
   "property": "C64",
   "status": "proved",
   "theorems": [
    "C64_operations",
    "C64_errors",
    "C64_panics",
    "C64_cut_short"
   ],
   "note": "The position in the code is not part of the comparison, since it lies in different strings."
  },
  {
   "property": "C65",
   "status": "proved",
   "theorems": [
    "C65_fails",
    "C65_builds",
    "C65_unique",
    "C65_exclusive",
    "C65_endless"
   ],
   "note": "The rules are in SpecFault and SpecExecution; they use the types of operators and numbers only."
  },
  {
   "property": "C66",
   "status": "proved",
   "theorems": [
    "C66_bound",
    "C66_cubic",
    "C66_growth"
   ],
   "note": "What is counted is defined in SpecSize (font_set_weight). Bytes and entries are counted, not the overhead of the allocator or unused capacity."
  },
  {
   "property": "C67",
   "status": "proved",
   "theorems": [
    "C67_agrees",
    "C67_left",
    "C67_kept",
    "C67_panics"
   ],
   "note": "Where a failed read leaves the cursor is a parameter of the model. C67_panics and C67_left are for every state that calls of next lead to, failed ones included."
  },
  {
   "property": "C68",
   "status": "partial",
   "theorems": [
    "C68_final_refuted",
    "C68_final_partial",
    "C68_ends_refuted",
    "C68_ends_partial",
    "C68_nested_refuted",
    "C68_subroutines_partial"
   ],
   "note": "Finality fails of the code; C68_final_partial is for unexpected ends of file when failed reads move to the end (current standard library). Termination fails of the code too, in two ways (C68_ends_refuted, C68_nested_refuted); C68_ends_partial is for character strings without subroutines and C68_subroutines_partial for subroutines without endchar."
  },
  {
   "property": "C69",
   "status": "proved",
   "theorems": [
    "C69_agrees",
    "C69_left",
    "C69_written",
    "C69_sequence"
   ],
   "note": "After a font set the tape stands behind the part that is read last, which is not the end of the file if a producer places parts in another order; C69_written and C69_sequence are for files with the parts in the order of SpecFile, and C69_left is for every tape."
  },
  {
   "property": "C70",
   "status": "partial",
   "theorems": [
    "C70_refuted",
    "C70_partial"
   ],
   "note": "Fails of the code: FontSet::count moves the tape and does not move it back. C70_partial says where the tape is left. C70_refuted is for every file of SpecFile with at least one name."
  },
  {
   "property": "C71",
   "status": "partial",
   "theorems": [
    "C71_agrees",
    "C71_refuted",
    "C71_rounds",
    "C71_rejected",
    "C71_others",
    "C71_needless",
    "C71_partial",
    "C71_no_subroutines_partial"
   ],
   "note": "Fails of the code. What is counted are the rounds of the loops of Roll, the only loops whose number of rounds is an operand; C71_agrees says that counting changes nothing. C71_partial and C71_no_subroutines_partial give the bound that does hold."
  },
  {
   "property": "C72",
   "status": "proved",
   "theorems": [
    "C72_font_sets",
    "C72_font_sets_malformed",
    "C72_determined",
    "C72_counts",
    "C72_headers",
    "C72_numbers",
    "C72_numbers_malformed",
    "C72_offsets",
    "C72_operations",
    "C72_operations_malformed",
    "C72_indices",
    "C72_indices_malformed",
    "C72_character_sets",
    "C72_character_sets_malformed",
    "C72_encodings",
    "C72_encodings_malformed",
    "C72_selectors",
    "C72_selectors_malformed",
    "C72_operands"
   ],
   "note": "Exact conditions for both errors, for font sets and for each part. Operations::read is left out: it never reports UnexpectedEof (C12). The errors of Program::next are C63."
  },
  {
   "property": "C73",
   "status": "proved",
   "theorems": [
    "C73_elsewhere",
    "C73_agrees",
    "C73_parts",
    "C73_order",
    "C73_asked",
    "C73_count_asked",
    "C73_count_places",
    "C73_readers_agree",
    "C73_readers",
    "C73_readers_order"
   ],
   "note": "The places that are asked for are part of the model C1Plan, which C73_agrees ties to C1Tape and thereby to C1FontSet; C73_elsewhere mentions C1FontSet only. A read of several bytes is modelled as asking for them one after the other."
  },
  {
   "property": "C74",
   "status": "proved",
   "theorems": [
    "C74_bound",
    "C74_success",
    "C74_growth",
    "C74_readers"
   ],
   "note": "What is counted are the bytes of the tape that are asked for in C1Plan. The work done on bytes once they are in memory (chunks of private dictionaries are parsed, dictionaries are looked up) is not counted."
  },
  {
   "property": "C75",
   "status": "proved",
   "theorems": [
    "C75_uncalled",
    "C75_succeeds",
    "C75_appended",
    "C75_boundary",
    "C75_none"
   ],
   "note": "comes_to collects the operands of the calls of an execution; the subroutine a number selects is that of C46. Two tables whose lengths are biased differently may disagree about an overflow of the sum, which C75_uncalled excludes for profiles that check it."
  },
  {
   "property": "C76",
   "status": "proved",
   "theorems": [
    "C76_edited",
    "C76_untouched",
    "C76_glyph"
   ],
   "note": "The elements are those of the indices of names, strings, global and local subroutines and character strings; font_set_frame is the rest of what C73 calls the parts. The frame is stated from the layout of C28 and not from the reader."
  },
  {
   "property": "C77",
   "status": "proved",
   "theorems": [
    "C77_tables",
    "C77_font_sets",
    "C77_dictionaries"
   ],
   "note": "font_set_kept is font_set_part of C73 without the dictionaries and the index of top dictionaries. C77_dictionaries shows a private dictionary that cannot be told."
  },
  {
   "property": "C78",
   "status": "proved",
   "theorems": [
    "C78_inside",
    "C78_depth",
    "C78_ends",
    "C78_endless",
    "C78_rounds",
    "C78_amount",
    "C78_ranked",
    "C78_leaves",
    "C78_unlimited"
   ],
   "note": "inside_of follows the calls and returns of an execution and names the subroutines it is inside of by their places. recurs says that one of them is there twice. The bounds are those of C50, C60 and C61 with the number of subroutines for the nesting."
  },
  {
   "property": "C79",
   "status": "proved",
   "theorems": [
    "C79_faults",
    "C79_results",
    "C79_stopped",
    "C79_font_sets",
    "C79_unread"
   ],
   "note": "The readers are the plans of C73; put_to puts their requests to a device. A request is for one byte; how the standard library puts bytes together (short reads, interruptions) and failures of seeking are not modelled."
  },
  {
   "property": "C80",
   "status": "proved",
   "theorems": [
    "C80_tables",
    "C80_panics",
    "C80_ends",
    "C80_still",
    "C80_assertion",
    "C80_supplements"
   ],
   "note": "font_set_loosely is the layout of C28 without the places of the parts, and with the two exceptions. sized says that there are no bytes at positions of 2^63 and more."
  },
  {
   "property": "C81",
   "status": "proved",
   "theorems": [
    "C81_rewritten",
    "C81_composed",
    "C81_equivalence",
    "C81_determined",
    "C81_folded",
    "C81_identities",
    "C81_at_end",
    "C81_masks"
   ],
   "note": "alike compares pieces by what step does with their operators, wherever they stand. masks_of says how long the masks are that the program comes to; it is needed only for code split at masks. C81_at_end and C81_masks show that the two conditions are needed. NaN is one datum in the model, so signs of NaN do not count."
  },
  {
   "property": "C82",
   "status": "partial",
   "theorems": [
    "C82_refuted",
    "C82_partial",
    "C82_plain_partial",
    "C82_written_partial"
   ],
   "note": "Finiteness fails of the code (C82_refuted). C82_partial is for executions in which the bound stays below 2^128, C82_plain_partial for code without two-byte operators."
  },
  {
   "property": "C83",
   "status": "proved",
   "theorems": [
    "C83_rewritten",
    "C83_succeeds",
    "C83_maskless",
    "C83_ends",
    "C83_trailing"
   ],
   "note": "Only calls with a written number in front of them are related; computed numbers are not. C83_trailing shows that ends_cleanly is needed, C81_masks that masks_of is."
  },
  {
   "property": "C84",
   "status": "proved",
   "theorems": [
    "C84_deeper",
    "C84_width",
    "C84_changed",
    "C84_lines"
   ],
   "note": "C84_lines shows that the first clearing operator must be one that may have the width."
  },
  {
   "property": "C85",
   "status": "partial",
   "theorems": [
    "C85_stack_refuted",
    "C85_calls_refuted",
    "C85_stems_refuted",
    "C85_partial"
   ],
   "note": "The code enforces none of the limits (C85_*_refuted); C85_partial is the bound that holds in a font without subroutines. Missing is the rejection."
  },
  {
   "property": "C86",
   "status": "proved",
   "theorems": [
    "C86_outline",
    "C86_width",
    "C86_computed"
   ],
   "note": "For character strings that succeed, and for the operations returned before a failure. C86_computed shows that the hypothesis about the arguments of the hints is needed."
  },
  {
   "property": "C87",
   "status": "proved",
   "theorems": [
    "C87_flat",
    "C87_succeeds",
    "C87_ends"
   ],
   "note": "The masks must have the length they are executed with, and endchar must not be executed in a subroutine with code left to return to, which is an error; for a character string that succeeds the latter holds."
  },
  {
   "property": "C88",
   "status": "proved",
   "theorems": [
    "C88_dressed",
    "C88_order"
   ],
   "note": ""
  },
  {
   "property": "C89",
   "status": "proved",
   "theorems": [
    "C89_repacked",
    "C89_selected",
    "C89_operands"
   ],
   "note": "Sizes of offsets and the header are not kept."
  },
  {
   "property": "C90",
   "status": "proved",
   "theorems": [
    "C90_numbers",
    "C90_length",
    "C90_written",
    "C90_glyphs",
    "C90_normal"
   ],
   "note": ""
  },
  {
   "property": "C91",
   "status": "proved",
   "theorems": [
    "C91_read",
    "C91_written"
   ],
   "note": ""
  },
  {
   "property": "C92",
   "status": "proved",
   "theorems": [
    "C92_wide",
    "C92_read",
    "C92_fails"
   ],
   "note": ""
  },
  {
   "property": "C93",
   "status": "proved",
   "theorems": [
    "C93_wide",
    "C93_no_subroutines",
    "C93_within",
    "C93_quiet",
    "C93_checked",
    "C93_bound",
    "C93_silent"
   ],
   "note": ""
  },
  {
   "property": "C94",
   "status": "proved",
   "theorems": [
    "C94_replaced",
    "C94_pictures",
    "C94_any",
    "C94_same"
   ],
   "note": ""
  }
 ]
}
{
 "C01": "Both directions, for all byte strings.",
 "C02": "Also proves that the shortest form has minimal length.",
 "C03": "Rounding is that of Flocq's real-number specification; str::parse::<f32> is modelled as exact decimal-to-binary rounding.",
 "C04": "Both directions, plus rejection of everything else.",
 "C07": "False of the code above 65535 (the identifier is cut to 16 bits): proved up to 65535, and the cut is stated for all operands.",
 "C21": "Glyph counts from 1 to 2^62; count 0 is covered under C37.",
 "C22": "Both directions, plus overshooting, truncation, absence of panics, and that every glyph but the first is assigned.",
 "C23": "False of the code: ISOAdobe does not name glyph 0, and Expert and ExpertSubset are keyed by string identifiers. Proved for ISOAdobe from 1 on, and for the other two when given string identifiers.",
 "C24": "Tables restated independently from the specification's appendices.",
 "C26": "False of the code; the theorem with the suffix _partial says what is read instead.",
 "C27": "False of the code; custom tables answer nothing, which is proved for all of them.",
 "C28": "Tape below 2^63 bytes; negative offsets are covered too, with the wrapping sum spelled out in [located].",
 "C30": "False of the code: count returns the number of names (C30_names); it is the number of fonts exactly when the name and dictionary indices have the same number of elements (C30_partial).",
 "C31": "True without overflow checks; with them it fails exactly when a Private operator leads back to a place before the font set, and then the outcome is an overflow panic (C31_partial, C31_otherwise). Failures are the same as well if no offset leads before the font set (C31_same_partial); otherwise bytes in front may complete the font set (C31_borrowed_refuted). Counting never depends on the place (C31_counts).",
 "C33": "Identifiers above 65535 are truncated by StringID (C07), hence the remainder in the statement.",
 "C37": "False of the code; proved when no dictionary is hostile, and without any guard when neither overflow checks nor preallocation can panic. The panics are characterised exactly (C37_panics_partial); reading always ends (C37_ends).",
 "C38": "Both directions; rounding is Flocq's.",
 "C39": "Stem counts below 2^64 - 7 (a usize cannot hold more).",
 "C41": "For every execution from the start, with the declared stems counted along it.",
 "C42": "False of the code in four ways, each refuted. C42_exactly says what the width is after any execution of any string, and C42_whole_partial that it is the specified one if the first clearing operator has the width and nothing else left over, or if nothing is ever left over (C42_partial gives the same for straight-line strings in terms of their code).",
 "C44": "Stated on the operators themselves, including division by zero and the square root of negative numbers.",
 "C45": "roll is wrong for the shift -2^31 only (refuted); what it does then, and everything else, is proved.",
 "C46": "Operands that select no subroutine are errors, except that the sum overflows for the operands given by C46_overflow where overflow is checked.",
 "C48": "The first half is proved; after endchar the remaining bytes of the outermost routine are executed by later calls, so the second half is refuted, and proved when there are none.",
 "C50": "False for self-calling subroutines; proved with an explicit bound for every bound on the nesting of calls, and the programs that do not terminate are exactly those whose calls nest without bound.",
 "C51": "False in checked builds (refuted); proved without overflow checks, and checked builds panic exactly when an operator is reached with extreme operands. The native stack is not modelled.",
 "C56": "The semantics in SpecExecution does not mention the interpreter; C56_unchecked says what builds without overflow checks add.",
 "C57": "The writer uses four-byte offsets in indices and five-byte integers for the offsets in dictionaries; all other parts are in any encoding.",
 "C58": "Both directions; str::parse::<f32> is assumed to round correctly (see DESIGN.md).",
 "C59": "Combines C57 with C56. The choice of the font dictionary for a glyph (FDSelect) is left to the caller, as in the code.",
 "C60": "The bound for programs with subroutines is for calls of bounded depth (unbounded depth means divergence, C50_diverges_partial); C60_growth, which shows that the bound cannot be linear, is for up to 215 subroutines.",
 "C61": "False of the code, which is recursive where a loop would do (tail calls are not eliminated in general); the depth is bounded by the amount of code. The rounds of the model are the nested calls; the size of the native stack is not modelled.",
 "C62": "Operations::read is left out: it takes UnexpectedEof for the end of a dictionary (C11, C12).",
 "C63": "Stated on the states that an execution gets to; what makes code cut short or malformed is said without the interpreter. Operands that overflow (C51) are panics in builds with checks, hence neither.",
 "C64": "The position in the code is not part of the comparison, since it lies in different strings.",
 "C65": "The rules are in SpecFault and SpecExecution; they use the types of operators and numbers only.",
 "C66": "What is counted is defined in SpecSize (font_set_weight). Bytes and entries are counted, not the overhead of the allocator or unused capacity.",
 "C67": "Where a failed read leaves the cursor is a parameter of the model. C67_panics and C67_left are for every state that calls of next lead to, failed ones included.",
 "C68": "Finality fails of the code; C68_final_partial is for unexpected ends of file when failed reads move to the end (current standard library). Termination fails of the code too, in two ways (C68_ends_refuted, C68_nested_refuted); C68_ends_partial is for character strings without subroutines and C68_subroutines_partial for subroutines without endchar.",
 "C69": "After a font set the tape stands behind the part that is read last, which is not the end of the file if a producer places parts in another order; C69_written and C69_sequence are for files with the parts in the order of SpecFile, and C69_left is for every tape.",
 "C70": "Fails of the code: FontSet::count moves the tape and does not move it back. C70_partial says where the tape is left. C70_refuted is for every file of SpecFile with at least one name.",
 "C71": "Fails of the code. What is counted are the rounds of the loops of Roll, the only loops whose number of rounds is an operand; C71_agrees says that counting changes nothing. C71_partial and C71_no_subroutines_partial give the bound that does hold.",
 "C72": "Exact conditions for both errors, for font sets and for each part. Operations::read is left out: it never reports UnexpectedEof (C12). The errors of Program::next are C63.",
 "C73": "The places that are asked for are part of the model C1Plan, which C73_agrees ties to C1Tape and thereby to C1FontSet; C73_elsewhere mentions C1FontSet only. A read of several bytes is modelled as asking for them one after the other.",
 "C74": "What is counted are the bytes of the tape that are asked for in C1Plan. The work done on bytes once they are in memory (chunks of private dictionaries are parsed, dictionaries are looked up) is not counted.",
 "C75": "comes_to collects the operands of the calls of an execution; the subroutine a number selects is that of C46. Two tables whose lengths are biased differently may disagree about an overflow of the sum, which C75_uncalled excludes for profiles that check it.",
 "C76": "The elements are those of the indices of names, strings, global and local subroutines and character strings; font_set_frame is the rest of what C73 calls the parts. The frame is stated from the layout of C28 and not from the reader.",
 "C77": "font_set_kept is font_set_part of C73 without the dictionaries and the index of top dictionaries. C77_dictionaries shows a private dictionary that cannot be told.",
 "C78": "inside_of follows the calls and returns of an execution and names the subroutines it is inside of by their places. recurs says that one of them is there twice. The bounds are those of C50, C60 and C61 with the number of subroutines for the nesting.",
 "C79": "The readers are the plans of C73; put_to puts their requests to a device. A request is for one byte; how the standard library puts bytes together (short reads, interruptions) and failures of seeking are not modelled.",
 "C80": "font_set_loosely is the layout of C28 without the places of the parts, and with the two exceptions. sized says that there are no bytes at positions of 2^63 and more.",
 "C81": "alike compares pieces by what step does with their operators, wherever they stand. masks_of says how long the masks are that the program comes to; it is needed only for code split at masks. C81_at_end and C81_masks show that the two conditions are needed. NaN is one datum in the model, so signs of NaN do not count.",
 "C82": "Finiteness fails of the code (C82_refuted). C82_partial is for executions in which the bound stays below 2^128, C82_plain_partial for code without two-byte operators.",
 "C83": "Only calls with a written number in front of them are related; computed numbers are not. C83_trailing shows that ends_cleanly is needed, C81_masks that masks_of is.",
 "C84": "C84_lines shows that the first clearing operator must be one that may have the width.",
 "C85": "The code enforces none of the limits (C85_*_refuted); C85_partial is the bound that holds in a font without subroutines. Missing is the rejection.",
 "C86": "For character strings that succeed, and for the operations returned before a failure. C86_computed shows that the hypothesis about the arguments of the hints is needed.",
 "C87": "The masks must have the length they are executed with, and endchar must not be executed in a subroutine with code left to return to, which is an error; for a character string that succeeds the latter holds.",
 "C89": "Sizes of offsets and the header are not kept."
}

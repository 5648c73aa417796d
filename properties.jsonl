{"id": "C01", "title": "Dictionary integers decode exactly as tabulated", "statement": "Reading a compact1 Number whose first byte is 0x1c, 0x1d or 0x20..=0xfe yields Integer(v) precisely when the bytes at the front of the tape are one of the five integer encodings of v in the CFF specification, consumes exactly that encoding (1, 2, 3 or 5 bytes) and leaves every following byte untouched; no other bytes ever read as an integer.", "quantifier": "every byte string and every i32 value", "why_tests_cant": "There are 2^40 encodings and unboundedly many continuations; tests sample nine.", "anchors": ["src/compact1/number.rs: Number, Read for Number"]}
{"id": "C02", "title": "Every i32 survives a dictionary round trip", "statement": "For every i32 value, encoding it in its shortest form or in the five-byte form and reading it back returns Integer of that same value.", "quantifier": "every i32 value, every following byte string", "why_tests_cant": "2^32 values.", "anchors": ["src/compact1/number.rs: Read for Number"]}
{"id": "C03", "title": "Dictionary reals are correctly rounded", "statement": "For every decimal literal (optional minus sign, digits with an optional point, optional signed exponent) packed into nibbles and terminated by 0xf, reading the Number yields Real(x) where x is the binary32 value nearest to the literal's exact value with ties to even, and an infinity when that value overflows.", "quantifier": "every decimal literal of any length and any exponent", "why_tests_cant": "Infinitely many literals; rounding ties are measure zero under sampling.", "anchors": ["src/compact1/number.rs: parse", "src/compact1/number.rs: Read for Number"]}
{"id": "C04", "title": "Dictionary reals stop at the first terminator and reject anything that is not a decimal literal", "statement": "A real Number consumes bytes up to and including the byte holding the first 0xf nibble and nothing more; it succeeds if and only if the nibbles before the terminator spell a decimal literal, and a reserved 0xd nibble or a malformed literal is an error rather than a value.", "quantifier": "every nibble sequence and continuation", "why_tests_cant": "Unbounded nibble sequences.", "anchors": ["src/compact1/number.rs: parse"]}
{"id": "C05", "title": "A number cut short is an end-of-file error, never a value", "statement": "For every complete encoding of a compact1 Number and every proper prefix of it, reading the prefix fails with kind UnexpectedEof.", "quantifier": "every number encoding and every cut point", "why_tests_cant": "All cut points of all encodings.", "anchors": ["src/compact1/number.rs: Read for Number", "src/compact1/operation.rs: Read for Operations"]}
{"id": "C06", "title": "Offsets are big-endian of the declared size", "statement": "Reading an Offset with size 1, 2, 3 or 4 succeeds exactly when that many bytes are available, consumes exactly that many, and returns their big-endian value; any other size is an error whatever the tape holds.", "quantifier": "every size in 0..=255 and every byte string", "why_tests_cant": "2^32 values times continuations.", "anchors": ["src/compact1/offset.rs: Offset"]}
{"id": "C07", "title": "String identifiers survive conversion from operands", "statement": "Converting an Operand to a StringID returns the operand's own value when it is a non-negative integer and an error otherwise.", "quantifier": "every Number", "why_tests_cant": "Wrap-around at 65536 shows only on operands no fixture contains.", "anchors": ["src/compact1/mod.rs: TryFrom<Number> for StringID"]}
{"id": "C08", "title": "Operator codes form an exact bijection", "statement": "The compact1 operator lookup succeeds exactly on the operator codes of the CFF specification, maps distinct codes to distinct operators, reaches every operator, and fails on all other 16-bit codes; the same holds for the Type 2 operators.", "quantifier": "every u16 code and every operator", "why_tests_cant": "The whole 16-bit domain, both directions.", "anchors": ["src/compact1/operation.rs: Operator::from", "src/type2/operation.rs: Operator::from"]}
{"id": "C09", "title": "Default operands are those of the CFF specification", "statement": "Operator::default returns the specification's default for each operator that has one, with reals being the binary32 values nearest to the specified decimals, and None for every other operator.", "quantifier": "every operator", "why_tests_cant": "A table of 52 entries; also quantified over the rounding of literals.", "anchors": ["src/compact1/operation.rs: Operator::default"]}
{"id": "C10", "title": "Dictionary decoding keeps the last occurrence of each operator", "statement": "Reading Operations from the concatenation of any sequence of well-formed operations succeeds, and looking up an operator returns the operands, in order, of its last occurrence in the sequence, and nothing if it does not occur.", "quantifier": "every sequence of operations of any length, any operand lists, any mix of encodings", "why_tests_cant": "Unbounded sequences with repeated keys.", "anchors": ["src/compact1/operation.rs: Read for Operations", "src/compact1/operation.rs: Read for Operation"]}
{"id": "C11", "title": "A dictionary cut at any byte keeps exactly the operations that are complete", "statement": "For every well-formed dictionary and every cut point in its bytes, reading the prefix succeeds and is the same as reading only the operations that lie entirely before the cut; a partial operand, a pending operand list or half an escape operator is dropped silently.", "quantifier": "every dictionary and every cut point", "why_tests_cant": "Every crash point of every dictionary.", "anchors": ["src/compact1/operation.rs: Read for Operations"]}
{"id": "C12", "title": "A dictionary with an unknown operator or malformed number is rejected", "statement": "Reading Operations succeeds if and only if the bytes are a sequence of well-formed operations followed by an incomplete tail; in every other case the result is an error, never a partial map, and it never panics or loops.", "quantifier": "every byte string", "why_tests_cant": "All byte strings, including garbage after valid prefixes.", "anchors": ["src/compact1/operation.rs: Read for Operations", "src/compact1/operation.rs: Operator::from"]}
{"id": "C13", "title": "Operand lookup falls back to the default only when the operator is absent", "statement": "Operations::get returns the stored operands when the operator is present, even if the list is empty or differs from the default, and otherwise the default; get_single and get_double return the first and the first two operands of that list when there are enough, else nothing.", "quantifier": "every operation map and every operator", "why_tests_cant": "All maps and operators.", "anchors": ["src/compact1/operation.rs: Operations::get, get_single, get_double"]}
{"id": "C14", "title": "Index round trip", "statement": "For every list of at most 65535 byte strings and every offset size 1..=4 in which its end offset fits, reading the INDEX encoding of the list returns exactly these byte strings in order together with the count, the offset size and the offsets, and stops right after the last element.", "quantifier": "every list of byte strings, every admissible offset size, every continuation", "why_tests_cant": "Unbounded element lists.", "anchors": ["src/compact1/index/mod.rs: Read for Index"]}
{"id": "C15", "title": "Every accepted index is internally consistent", "statement": "If Index::read succeeds then count, the number of elements and (for a non-empty index) one less than the number of offsets agree, the first offset is 1, offsets never decrease, element i has length offset[i+1]-offset[i], and the elements are consecutive slices of the tape that start right after the offset array.", "quantifier": "every byte string on which reading succeeds", "why_tests_cant": "All inputs, adversarial ones included.", "anchors": ["src/compact1/index/mod.rs: Read for Index"]}
{"id": "C16", "title": "Malformed or truncated indices are rejected", "statement": "Index::read fails, without panicking, on every byte string that has no INDEX encoding as a prefix: a truncated header, offset array or data area, an offset size outside 1..=4, a first offset other than 1, or a decreasing offset.", "quantifier": "every byte string", "why_tests_cant": "All malformed inputs.", "anchors": ["src/compact1/index/mod.rs: Read for Index"]}
{"id": "C17", "title": "Names are one valid UTF-8 string per element", "statement": "Converting Names to Vec<String> never fails, yields exactly one string per element in order, returns valid UTF-8 elements unchanged, and returns valid UTF-8 in every case.", "quantifier": "every index contents", "why_tests_cant": "All byte strings, including invalid UTF-8.", "anchors": ["src/compact1/index/names.rs: TryFrom<Names> for Vec<String>"]}
{"id": "C18", "title": "String lookup separates standard and custom strings", "statement": "Strings::get returns the name that appendix A of the specification lists for i when i < 391, the (lossily decoded) element i-391 of the index for 391 <= i < 391 + len, and None beyond, independently of the index contents in the first case.", "quantifier": "every string identifier and every string index", "why_tests_cant": "Every u16 and every index.", "anchors": ["src/compact1/index/strings.rs: Strings::get"]}
{"id": "C19", "title": "Standard strings are the 391 distinct names of the specification", "statement": "get_standard_string is defined precisely on 0..391, assigns to every identifier the name listed for it in appendix A of the specification, and different names to different identifiers.", "quantifier": "every u16 identifier", "why_tests_cant": "The existing test looks at identifiers 390 and 391 only.", "anchors": ["src/compact1/index/strings.rs: get_standard_string"]}
{"id": "C20", "title": "Dictionary index access decodes the matching element", "statement": "Converting Dictionaries to Vec<Operations> succeeds exactly when every element decodes, and then its i-th entry is the decoding of the i-th element; Dictionaries::get(i) is that decoding for i < len and panics for i >= len in every profile.", "quantifier": "every dictionary index and every position", "why_tests_cant": "All index contents and positions.", "anchors": ["src/compact1/index/dictionaries.rs: Dictionaries::get, TryFrom"]}
{"id": "C21", "title": "A format 0 character set names one string per glyph but the first", "statement": "For every glyph count n >= 1, reading a format 0 character set succeeds exactly when format byte 0 and n-1 big-endian identifiers are present, and returns these identifiers in order.", "quantifier": "every glyph count and byte string", "why_tests_cant": "All counts and contents.", "anchors": ["src/compact1/character_set.rs: Read for CharacterSet0"]}
{"id": "C22", "title": "Range character sets cover exactly the glyphs of the font", "statement": "Reading a format 1 or 2 character set with glyph count n succeeds if and only if the tape holds the format byte followed by ranges whose sizes (1 + left_count) add up to exactly n-1, returns these ranges in order, and reads nothing beyond them; overshooting the count is an error.", "quantifier": "every glyph count and byte string", "why_tests_cant": "All range sequences.", "anchors": ["src/compact1/character_set.rs: Read for CharacterSet1, CharacterSet2"]}
{"id": "C23", "title": "Predefined character sets name glyphs as the CFF specification does", "statement": "CharacterSet::get on ISOAdobe, Expert and ExpertSubset returns, for every glyph of the set, the name the CFF specification assigns to that glyph index.", "quantifier": "every predefined character set and every u16 glyph identifier", "why_tests_cant": "The whole glyph-identifier domain.", "anchors": ["src/compact1/character_set.rs: get_iso_adobe, get_expert, get_expert_subset"]}
{"id": "C24", "title": "Predefined encodings are total on bytes and agree with the standard strings", "statement": "Encoding::get on Standard and Expert is defined exactly on 0..=255, and the string identifier it returns is that of the glyph name listed for the code; it is always a standard string.", "quantifier": "every u16 code", "why_tests_cant": "All codes of both tables.", "anchors": ["src/compact1/encoding.rs: get_standard, get_expert"]}
{"id": "C25", "title": "Encoding tables parse by format and keep every entry", "statement": "Reading an Encoding with format byte 0 or 1 succeeds exactly when the announced number of codes or ranges is present and returns all of them in order; format bytes 2..=127 are rejected.", "quantifier": "every byte string", "why_tests_cant": "All counts and contents.", "anchors": ["src/compact1/encoding.rs: Read for Encoding"]}
{"id": "C26", "title": "Supplemental encodings keep base codes and supplements", "statement": "An encoding table whose format byte has the high bit set (format 0 or 1 with supplements) reads as its base codes or ranges together with its supplements.", "quantifier": "every encoding table with supplements", "why_tests_cant": "All contents.", "anchors": ["src/compact1/encoding.rs: EncodingSupplemental, Read for Encoding"]}
{"id": "C27", "title": "Custom character sets and encodings resolve glyphs", "statement": "CharacterSet::get and Encoding::get on a table read from the font return the name or string identifier the table assigns.", "quantifier": "every custom table and every glyph", "why_tests_cant": "All tables and glyphs.", "anchors": ["src/compact1/character_set.rs: CharacterSet0::get, CharacterSet1::get, CharacterSet2::get", "src/compact1/encoding.rs: Encoding0::get, Encoding1::get, EncodingSupplemental::get"]}
{"id": "C28", "title": "A font set is read from the places its offsets designate", "statement": "FontSet::read on a tape at position p succeeds with value f if and only if the header stands at p, the name, dictionary, string and global subroutine indices follow one another from p + header_size, and for every top dictionary the character strings, character set, encoding, private dictionary, local subroutines, FDSelect and FDArray stand at p plus the offsets given in the dictionaries and have the contents reported in f.", "quantifier": "every tape, position and font set (non-negative offsets, no 64-bit wrap-around)", "why_tests_cant": "All layouts, orders and overlaps of tables.", "anchors": ["src/compact1/font_set/mod.rs: Read for FontSet"]}
{"id": "C29", "title": "The per-font vectors of a font set are parallel", "statement": "If FontSet::read succeeds, operations, encodings, character_strings, character_sets and records all have the same length, and entry i of each belongs to top dictionary i.", "quantifier": "every tape and position", "why_tests_cant": "All inputs.", "anchors": ["src/compact1/font_set/mod.rs: Read for FontSet"]}
{"id": "C30", "title": "FontSet::count predicts the number of fonts read", "statement": "If FontSet::read succeeds, FontSet::count on the same tape and position succeeds and returns the number of entries of the font set.", "quantifier": "every tape and position", "why_tests_cant": "Fixtures have one font each.", "anchors": ["src/compact1/font_set/mod.rs: FontSet::count"]}
{"id": "C31", "title": "Reading a font set does not depend on where it is embedded", "statement": "If reading a font set at position p succeeds, then prepending any bytes to the tape and reading at the shifted position succeeds with the same value; and if it fails, so does reading at the shifted position, in the same way. Counting the fonts does not depend on the place either.", "quantifier": "every tape, position and prefix (below 2^64 bytes)", "why_tests_cant": "All prefixes.", "anchors": ["src/compact1/font_set/mod.rs: Read for FontSet", "src/compact1/font_set/character_id_keyed.rs", "src/compact1/font_set/character_name_keyed.rs"]}
{"id": "C32", "title": "Bytes after the font data do not change the result", "statement": "If reading a font set (or any table read from a tape) succeeds, then appending any bytes to the tape does not change the result; consequently truncating a font either fails or gives the same value.", "quantifier": "every tape, position and suffix", "why_tests_cant": "All suffixes and cut points.", "anchors": ["src/compact1/font_set/mod.rs: Read for FontSet"]}
{"id": "C33", "title": "The record kind follows the ROS operator", "statement": "The record of a font is character-ID-keyed if and only if its top dictionary contains ROS; for such a record to be read ROS must have exactly three operands, of which the first two are string identifiers, and registry, ordering and supplement are these operands.", "quantifier": "every tape and position", "why_tests_cant": "All dictionaries.", "anchors": ["src/compact1/font_set/mod.rs: Read for Record", "src/compact1/font_set/character_id_keyed.rs: Read for Record"]}
{"id": "C34", "title": "Character-ID-keyed records have one private record per font dictionary", "statement": "In every character-ID-keyed record read, records and operations have equal length and records[i] is the private record designated by the Private operator of operations[i].", "quantifier": "every tape and position", "why_tests_cant": "All inputs.", "anchors": ["src/compact1/font_set/character_id_keyed.rs: Read for Record"]}
{"id": "C35", "title": "Private dictionaries and local subroutines are located by Private and Subrs", "statement": "A private record holds the decoding of exactly size bytes at the Private offset, and its subroutines are the index at Private offset plus Subrs offset when Subrs is present, and empty otherwise.", "quantifier": "every tape, position and top dictionary", "why_tests_cant": "All offsets, overlapping ranges included.", "anchors": ["src/compact1/font_set/character_name_keyed.rs: Read for Record", "src/compact1/font_set/character_id_keyed.rs: Read for RecordInner"]}
{"id": "C36", "title": "FDSelect tables parse by format and cover what they announce", "statement": "A glyph-to-dictionary encoding in format 0 has exactly one identifier per character string; in format 3 it has exactly range_count ranges followed by the sentinel; other formats are rejected.", "quantifier": "every byte string and glyph count", "why_tests_cant": "All contents.", "anchors": ["src/compact1/font_set/character_id_keyed.rs: Read for Encoding, Encoding0, Encoding3"]}
{"id": "C37", "title": "Reading a font set never panics", "statement": "FontSet::read returns a value or an error on every tape and position in every build profile.", "quantifier": "every tape, position and profile", "why_tests_cant": "Panics need adversarial offsets, sizes or counts.", "anchors": ["src/compact1/font_set/mod.rs", "src/compact1/character_set.rs: Read for CharacterSet0", "src/compact1/font_set/character_name_keyed.rs"]}
{"id": "C38", "title": "Character-string numbers decode exactly", "statement": "Reading a Type 2 operand yields v precisely when the front of the code is an encoding of v in the Type 2 specification: integers exactly, and 16.16 fixed-point values as the nearest binary32 value; the encoding and nothing else is consumed.", "quantifier": "every byte string, every encoding", "why_tests_cant": "2^32 fixed-point values.", "anchors": ["src/type2/number.rs: read"]}
{"id": "C39", "title": "Operators receive the operand counts of the Type 2 specification", "statement": "Whenever Program::next returns an operation, its operands are the longest suffix of the argument stack whose length the Type 2 specification allows for that operator; if no suffix has an allowed length, next returns an error.", "quantifier": "every program state and every path or hint operator", "why_tests_cant": "Every stack depth for every operator.", "anchors": ["src/type2/program.rs: clear!, Program::next"]}
{"id": "C40", "title": "Only path and hint operators are emitted, and each starts from an empty stack", "statement": "Program::next never returns an arithmetic, conditional, storage, subroutine, return or endchar operator, and after it returned an operation the argument stack is empty, so no operand is ever reported twice.", "quantifier": "every program and every number of calls", "why_tests_cant": "All executions.", "anchors": ["src/type2/program.rs: Program::next"]}
{"id": "C41", "title": "Hint masks have one bit per declared stem", "statement": "At hintmask and cntrmask the program skips exactly ceil(n/8) bytes, where n is the number of stem hints declared so far, counting pairs left on the stack as implicit vertical stems, and execution resumes right after them.", "quantifier": "every program with any number of stems", "why_tests_cant": "Unbounded stem counts; off-by-one at multiples of eight.", "anchors": ["src/type2/program.rs: HintMask, CntrMask"]}
{"id": "C42", "title": "The width is the extra argument of the first stack-clearing operator", "statement": "After executing a character string, Program::width is the bottom-most surplus argument of the first stack-clearing operator (stem hints, moves, masks, endchar) if there is one, and None otherwise.", "quantifier": "every character string", "why_tests_cant": "All argument counts and operator orders.", "anchors": ["src/type2/program.rs: width, clear!, EndChar"]}
{"id": "C43", "title": "Arithmetic expressions evaluate as written", "statement": "For every expression tree over numbers with abs, add, sub, div, neg, mul, sqrt, and, or, not, eq and ifelse, executing its postfix code followed by an operator passes that operator the value of the tree under binary32 arithmetic, with operands taken in source order.", "quantifier": "every expression tree of any depth", "why_tests_cant": "Unbounded trees.", "anchors": ["src/type2/program.rs: Program::next arithmetic operators"]}
{"id": "C44", "title": "Arithmetic is correctly rounded IEEE 754 binary32", "statement": "On finite operands, add, sub, mul, div and sqrt produce the exact real result rounded to nearest-even when it does not overflow, neg and abs are exact, comparisons agree with the real numbers, and every value on the stack is a valid binary32 datum.", "quantifier": "all pairs of binary32 values", "why_tests_cant": "2^64 operand pairs.", "anchors": ["src/type2/program.rs: Program::next arithmetic operators"]}
{"id": "C45", "title": "Stack operators permute as specified", "statement": "dup, exch, drop, index and roll transform the stack as the Type 2 specification says; in particular N J roll rotates the top N elements by J modulo N positions upward, for positive and negative J alike, and leaves deeper elements alone.", "quantifier": "every stack, every N and J", "why_tests_cant": "All stack depths and shifts.", "anchors": ["src/type2/program.rs: Exch, Index, Roll, Dup, Drop"]}
{"id": "C46", "title": "Subroutine numbers are biased by the size of the index", "statement": "callsubr and callgsubr with operand a transfer control to element a + bias of the local or global index, bias being 107, 1131 or 32768 for fewer than 1240, fewer than 33900 or more elements; any other operand is an error.", "quantifier": "every index size and every operand", "why_tests_cant": "All sizes around the two thresholds and all operands.", "anchors": ["src/type2/program.rs: CallSubr, CallGSubr, bias"]}
{"id": "C47", "title": "Calling a subroutine is the same as inlining it", "statement": "If a subroutine body runs to its return, calling it has the same effect on the emitted operations, stack, stem count and width as executing its body in place of the call, for any caller and any nesting.", "quantifier": "every body, caller, stack and call depth", "why_tests_cant": "All programs and nestings.", "anchors": ["src/type2/program.rs: CallSubr, CallGSubr, Return"]}
{"id": "C48", "title": "endchar ends the program for good", "statement": "endchar makes next return None only if every active subroutine has no bytes left, and after next has returned None every later call returns None as well.", "quantifier": "every program state", "why_tests_cant": "All executions and call histories.", "anchors": ["src/type2/program.rs: EndChar, Program::next"]}
{"id": "C49", "title": "Operators that are not implemented are errors", "statement": "random, put, get and all reserved operator codes make next return an error whatever the stack holds, and a return outside a subroutine is an error.", "quantifier": "every program state", "why_tests_cant": "All states.", "anchors": ["src/type2/program.rs: Program::next", "src/type2/operation.rs: Operator::from"]}
{"id": "C50", "title": "Executing a character string terminates", "statement": "Program::next returns after finitely many steps on every program.", "quantifier": "every program", "why_tests_cant": "Non-termination cannot be observed by a test.", "anchors": ["src/type2/program.rs: Program::next"]}
{"id": "C51", "title": "Executing a character string never panics", "statement": "Program::next returns a value or an error, and does not panic, on every program in every build profile.", "quantifier": "every program and profile", "why_tests_cant": "Panics need extreme operands.", "anchors": ["src/type2/program.rs: CallSubr, Roll"]}
{"id": "C52", "title": "Character-string round trip", "statement": "For every sequence of path and hint operations with operand counts allowed by the Type 2 specification, encoded one after another (masks included) and ended by endchar, executing the code returns exactly that sequence and then None, with no width.", "quantifier": "every sequence of operations of any length", "why_tests_cant": "Unbounded sequences.", "anchors": ["src/type2/program.rs: Program::next", "src/type2/number.rs: read"]}
{"id": "C53", "title": "The build profile does not change what is read", "statement": "If FontSet::read succeeds in a build with overflow checks, it succeeds with the same value in every other build; builds that agree on overflow checks agree on every successful read, whatever debug assertions or allocation strategy they use.", "quantifier": "every tape, position and pair of profiles", "why_tests_cant": "Tests run in one profile; the difference shows on adversarial offsets only.", "anchors": ["src/compact1/font_set/mod.rs: Read for FontSet"]}
{"id": "C54", "title": "What follows endchar does not matter", "statement": "If executing a character string reaches endchar in the outermost routine, appending any bytes to it changes neither the operations returned before the first None nor the width.", "quantifier": "every character string, every trailing byte string", "why_tests_cant": "All strings and all continuations.", "anchors": ["src/type2/program.rs: EndChar, Program::next"]}
{"id": "C55", "title": "The build profile does not change what a character string means", "statement": "If executing a character string in a build with overflow checks does not panic, it returns the same operations, errors and width in every other build.", "quantifier": "every program and pair of profiles", "why_tests_cant": "Tests run in one profile.", "anchors": ["src/type2/program.rs: Program::next"]}
{"id": "C56", "title": "Character strings have the meaning given by a rule-based semantics", "statement": "A rule-based semantics in the style of the specification (one rule per kind of operator: numbers, stack operators, path operators, stem hints, masks, calls that return, end or run out, return, endchar) assigns to a character string, its global and its local subroutines at most one sequence of operations and final state. Program::next, called until it returns None, returns exactly that sequence and ends with that width, in every build; in a build with overflow checks it gets to None for no other character string, and in a build without them only for ones on which the checked build panics.", "quantifier": "every character string, every collection of fewer than 2^31 global and local subroutines, every nesting of calls, every build profile", "why_tests_cant": "Two descriptions of an unbounded language must agree on every string; tests compare them on fixtures only.", "anchors": ["src/type2/program.rs: Program::new, Program::next, Program::width"]}
{"id": "C57", "title": "A font set assembled from its parts is read back", "statement": "Take any names, as many as there are fonts or not, any fonts (the remaining entries of the top dictionary, glyph programs, a predefined or stored character set and encoding, a private dictionary with local subroutines or the registry, ordering, supplement, glyph-to-dictionary encoding and font dictionaries of a character-ID-keyed font), any strings and any global subroutines, in any of the encodings the format allows. Lay them out as the specification says: header, names, top dictionaries, strings, global subroutines, then the data of each font, with the offsets in the dictionaries computed accordingly. FontSet::read at the position of the file, whatever comes before and after, returns exactly these parts.", "quantifier": "every file below 2^31 bytes with fewer than 2^16 elements per index, every position, every surrounding data, every build profile", "why_tests_cant": "Fixtures exercise a few files of particular producers; the claim ranges over all combinations of parts, counts, lengths and encodings.", "anchors": ["src/compact1/font_set/mod.rs: Read for FontSet", "src/compact1/operation.rs: Read for Operations", "src/compact1/index/mod.rs: Read for Index"]}
{"id": "C58", "title": "Which operands and dictionaries there are", "statement": "The numbers that Number::read can return are exactly the 32-bit integers and the binary32 data other than NaN (both zeros and both infinities included): each of them has an encoding that is read back as that very datum, and nothing else is ever returned. Every one of them has such an encoding of at most 60 bytes. Accordingly, the tables that Operations::read can return are exactly those of sequences of operations with such operands. The operands that type2 number::read can return are exactly the multiples of 1/65536 in [-32768, 32768), each rounded to nearest-even in binary32, with no negative zero.", "quantifier": "every i32, every binary32 datum, every sequence of operations of any length, every byte string", "why_tests_cant": "There are 2^32 data of each kind and unboundedly many dictionaries.", "anchors": ["src/compact1/number.rs: Read for Number", "src/compact1/operation.rs: Read for Operations", "src/type2/number.rs: read"]}
{"id": "C59", "title": "Glyphs of an assembled font set execute as written", "statement": "Take any font set assembled from its parts as in C57 and any glyph program in it that has a meaning under the Type 2 specification, given the global subroutines of the set and the local subroutines of the font (or of one of the font dictionaries of a character-ID-keyed font). FontSet::read returns a set in which the character string found at the glyph's place, executed by Program::new and Program::next with the global subroutines of the set and the local subroutines of the record found at the font's place, yields exactly the operations that the glyph program means, and then the width that it means.", "quantifier": "every file below 2^31 bytes, every font, glyph, subroutine and font dictionary in it, every position and surrounding data, every build profile", "why_tests_cant": "The claim combines every layout of a file with every program and every nesting of subroutine calls.", "anchors": ["src/compact1/font_set/mod.rs: Read for FontSet, Record", "src/type2/program.rs: Program::new, Program::next"]}
{"id": "C60", "title": "What is returned is bounded by what is read", "statement": "The operations (each operator and each operand counted) that Program::next returns for a character string, together with the operands left on its stack, are no more than the bytes of the character string if there are no subroutines, and no more than those bytes times (b + 1)^d if subroutines have at most b bytes and calls are nested at most d deep. That is not linear: some programs with n subroutines and 5 + 5 n bytes in all return 2^n operations. Operations::read returns no more operators and operands than there are bytes, and Index::read takes exactly the bytes that its count, offset size and elements account for.", "quantifier": "every character string, every set of subroutines, every number of calls of next, every dictionary, every index, every build profile", "why_tests_cant": "The bound is over all programs and all nestings of calls; a test sees one program.", "anchors": ["src/type2/program.rs: Program::next", "src/compact1/operation.rs: Read for Operations", "src/compact1/index/mod.rs: Read for Index"]}
{"id": "C61", "title": "A call of next recurses to a bounded depth", "statement": "Program::next ends by calling itself after every operator that yields no operation, so the depth of the native stack it takes is the number of such operators in a row. The depth ought not to depend on the character string. It does: for every n a string of 3 + 2 n bytes makes it recurse n + 1 times (refuted). It is at most one more than the bytes of the string if there are no subroutines, and at most 1 + bytes * (b + 1)^d if subroutines have at most b bytes and calls are nested at most d deep.", "quantifier": "every character string, every set of subroutines, every call of next in its execution, every build profile", "why_tests_cant": "Only strings that are longer than those of ordinary fonts exhaust the stack; the bound is over all strings.", "anchors": ["src/type2/program.rs: Program::next"]}
{"id": "C62", "title": "UnexpectedEof means that more bytes matter, and nothing else does", "statement": "Reading a font set (or the number of its fonts) reports UnexpectedEof if and only if the outcome depends on the bytes that may be appended to the file: a value, any other error and a panic stay as they are whatever is appended, and after UnexpectedEof some continuation of the file, however far away the missing bytes are, ends otherwise. The same holds of the parts of a font set (numbers, offsets, dictionary entries, indices, character sets, encodings, font dictionary selectors, headers) and of the numbers of character strings, which moreover leave what follows them unread.", "quantifier": "every byte string, every continuation, every position, every glyph count and offset size, every build profile", "why_tests_cant": "It relates the outcome on every prefix to the outcome on every continuation of it.", "anchors": ["src/compact1/number.rs: Number::read, parse", "src/compact1/offset.rs: Offset::read", "src/compact1/operation.rs: Operation::read", "src/compact1/index/mod.rs: Index::read", "src/compact1/character_set.rs: CharacterSet::read", "src/compact1/encoding.rs: Encoding::read", "src/compact1/font_set/character_id_keyed.rs: Encoding::read", "src/compact1/font_set/mod.rs: FontSet::read, FontSet::count", "src/type2/number.rs: read"]}
{"id": "C63", "title": "Character strings fail for the stated reasons and no others, with the right kind of error", "statement": "The execution of a character string reports UnexpectedEof if and only if it gets to code that is cut short: numbers without an operator after them, the beginning of a number or of an operator, or a mask with too few bytes for the stem hints declared so far. It reports any other error if and only if it gets to malformed code: bytes that start neither a number nor an operator, an operator that is not supported (random, put, get), a stack operator on operands it is not defined for, a path or stem operator with too few operands, a call of a subroutine that does not exist, return outside of subroutines, or endchar in a subroutine with code after it. Builds without overflow checks report the same errors, or builds with them panic.", "quantifier": "every character string, every set of subroutines (fewer than 2^31), every point of the execution, every build profile", "why_tests_cant": "Exactness over all programs: no input fails for another reason, and none that has a reason passes.", "anchors": ["src/type2/program.rs: Program::next", "src/type2/number.rs: read", "src/type2/operation.rs: Operator::from"]}
{"id": "C64", "title": "Execution depends only on the code that has been executed", "statement": "Bytes appended to a character string do not change what its execution has returned, nor the width and the stack, up to any point before its end. An error other than UnexpectedEof, and a panic, stay as they are whatever is appended. UnexpectedEof stays whatever is appended if and only if it is a subroutine that is cut short; otherwise some continuation ends differently.", "quantifier": "every character string, every continuation, every set of subroutines, every build profile", "why_tests_cant": "It relates the executions of every string and of every continuation of it.", "anchors": ["src/type2/program.rs: Program::next, Program::new"]}
{"id": "C65", "title": "Character strings have a complete semantics given by rules", "statement": "Rules that do not mention the interpreter say which operations a character string returns before it breaks off, and whether it is incomplete, invalid or computes a number out of range. Calling next again and again returns exactly these operations and then reports UnexpectedEof, another error or an overflow, respectively; nothing else fails. A character string has at most one fault, and none if it has a meaning; it has neither if and only if its execution does not end. Faults other than overflows are the same in every build.", "quantifier": "every character string, every set of subroutines (fewer than 2^31), every build profile", "why_tests_cant": "Agreement of an interpreter with an independent semantics over all programs, in both directions, including those that do not end.", "anchors": ["src/type2/program.rs: Program::new, Program::next", "src/type2/number.rs: read", "src/type2/operation.rs: Operator::from"]}
{"id": "C66", "title": "Font sets take memory at most cubic in the length of the file, and can take that much", "statement": "What a font set holds in memory (bytes, elements and offsets of indices, operators and operands of dictionaries, entries of character sets and encodings) is at most 2n + 6nf + 3np, where n is the length of the file, f the number of fonts and p the number of private dictionaries; f is at most n, and so is the number of private dictionaries of each font, so that it is at most 2n + 6n^2 + 3n^3. It is not bounded by the length of the file, nor its square: for every k from 1 to 65535 there is a file of 25 + 57k bytes that is read without errors and whose font set holds at least k^3.", "quantifier": "every file, every position, every build profile", "why_tests_cant": "A resource bound over all files, and a family of files of every size that attains its order.", "anchors": ["src/compact1/font_set/mod.rs: FontSet::read", "src/compact1/font_set/character_id_keyed.rs: Record::read, RecordInner::read", "src/compact1/font_set/character_name_keyed.rs: Record::read", "src/compact1/index/mod.rs: Index::read"]}
{"id": "C67", "title": "What a failed call of next leaves behind", "statement": "After Program::next has returned an error, the program is in a determined state: the bytes up to and including the failing operator have been consumed (or the reader stands where the failed read left it), an unknown operator changes nothing else, an operator with the wrong number of operands keeps the stack, a refused call, index or roll loses only its own operands, any other stack operator empties the stack, a refused stem or mask operator has counted its hints already, and endchar with unfinished callers loses these. The width does not change. Calling next again from there never panics except on overflow in a build that checks it, and neither the width once known nor the subroutines ever change.", "quantifier": "every character string, every set of subroutines, every sequence of earlier calls (failed or not), every build profile, every behaviour of the cursor on failed reads", "why_tests_cant": "The state after an error is reached in as many ways as there are programs and fault sites; later calls depend on all of it.", "anchors": ["src/type2/program.rs: Program::next, Program::width", "src/type2/number.rs: read"]}
{"id": "C68", "title": "Calling next again after an error", "statement": "An error of Program::next is final: later calls do not return operations. And a client that ignores errors comes to an end. Both are false: after an unknown operator execution goes on behind it, and half an operator at the end of the code fails for ever if a failed read does not move, and so does, wherever failed reads move, a subroutine that goes on after endchar and calls itself there, although calls never nest in it. After an unexpected end of file all later calls return None and change nothing, if a failed read moves to the end; and if half an operator is passed over, a character string without subroutines gives at most as many operations and errors as it has bytes; with subroutines that are without endchar and calls that nest at most d deep, at most the length of the code times (1 + the length of the longest subroutine) to the power of d.", "quantifier": "every character string, every sequence of calls of next, every build profile", "why_tests_cant": "It is about all sequences of calls on all malformed programs, of any length.", "anchors": ["src/type2/program.rs: Program::next"]}
{"id": "C69", "title": "Where the tape stands after a font set", "statement": "After FontSet::read has returned a font set, the tape stands right behind the part that belongs to it and was read last: the local subroutines or the private dictionary of the last font (or of its last font dictionary), or the global subroutines if there are no fonts. For a file with its parts in the usual order this is the end of the file, so that font sets written one after another, between any other data, are read by calling FontSet::read as often as there are font sets, each call giving the next one.", "quantifier": "every tape, every position, every build profile; every list of well-formed files with any numbers of fonts", "why_tests_cant": "The position depends on all offsets in the file and on which parts are present; the number of files in a row is unbounded.", "anchors": ["src/compact1/font_set/mod.rs: FontSet::read", "src/compact1/font_set/character_id_keyed.rs: Record::read", "src/compact1/font_set/character_name_keyed.rs: Record::read"]}
{"id": "C70", "title": "Counting the fonts before reading them", "statement": "FontSet::count leaves the tape where it was, so that the font set can be read afterwards. This is false: the tape is left two bytes behind the header, and for every well-formed file with at least one name the call of FontSet::read that follows fails. A client has to seek back.", "quantifier": "every well-formed file, every position, every build profile; where the tape is left: every tape", "why_tests_cant": "The failure is for every file there is, and where the tape is left is for every tape.", "anchors": ["src/compact1/font_set/mod.rs: FontSet::count, FontSet::read"]}
{"id": "C71", "title": "Work done by a character string", "statement": "The number of rounds of all loops that Program::next executes is bounded by the amount of code it executes. This is false: the operator roll moves one operand per round, as many rounds as its shift says, so that 13 bytes of code can take 2^30 rounds and n times as many bytes n times as many rounds, all in one call of Program::next that yields no operation. Each roll takes exactly as many rounds as the absolute value of its shift, all other operators take none, there are no more than 2^31 - 1 rounds per byte of code executed, and the shift modulo the number of operands rolled would have the same effect.", "quantifier": "every program state, every code, every n, every build profile", "why_tests_cant": "The bound is over all programs, and the programs that take long are too long-running to be tests.", "anchors": ["src/type2/program.rs: Program::next"]}
{"id": "C72", "title": "Which error is reported", "statement": "Reading a font set or any of its parts reports UnexpectedEof exactly if the end of the tape comes before everything else that is wrong: what is there up to the end is the beginning of a table, every part read so far being well formed, and the table or element being read goes on past the end. Other is reported exactly if the bytes are neither well formed, nor cut short in this way, nor among those on which reading panics. Together with the descriptions of what is read and of the panics this leaves no freedom: any way to read font sets that agrees with the four descriptions does the same on every tape.", "quantifier": "every tape, position, sequence of bytes, number of glyphs and build profile", "why_tests_cant": "A client that streams a font decides by the kind of error whether to wait for more bytes or to give up; a reader that rejects late, or asks for more of something it can already see to be malformed, differs only on particular malformed inputs.", "anchors": ["src/compact1/font_set/mod.rs: FontSet::read, FontSet::count", "src/compact1/index/mod.rs: Index::read", "src/compact1/character_set.rs: CharacterSet::read", "src/compact1/encoding.rs: Encoding::read", "src/compact1/font_set/character_id_keyed.rs: Encoding::read, Record::read", "src/compact1/number.rs", "src/compact1/operation.rs: Operation::read", "src/type2/number.rs: read"]}
{"id": "C73", "title": "Which bytes of a file matter", "statement": "What reading a font set gives depends on no other bytes of the tape than those of its parts: the header, the four indices, and of each font the character strings, the character set and the encoding unless they are predefined, the private dictionaries with their local subroutines, and for a character-ID-keyed font the selector and the array of font dictionaries. If these stay the same, all other bytes can change, appear or disappear, and the same font set is read. All bytes of these parts are asked for, and no others: part by part in a fixed order, each part from its beginning to its end, and the format of a character set, an encoding or a selector once more beforehand. An error or a panic likewise depends only on the bytes that were asked for, and readers of a single structure ask for exactly the bytes they take. Counting fonts asks for the header and the two bytes at the size of the header.", "quantifier": "every two tapes, every position, every place on the tape, every outcome, every build profile", "why_tests_cant": "That a byte is never looked at cannot be observed with finitely many values of the other bytes.", "anchors": ["src/compact1/font_set/mod.rs: FontSet::read, FontSet::count, Record::read", "src/compact1/font_set/character_name_keyed.rs: Record::read", "src/compact1/font_set/character_id_keyed.rs: Record::read, Encoding::read", "src/compact1/index/mod.rs: Index::read", "src/compact1/character_set.rs: CharacterSet::read", "src/compact1/encoding.rs: Encoding::read"]}
{"id": "C74", "title": "Work done by reading a font set", "statement": "Reading a font set, whatever comes of it, asks for at most 2 (L + 2)^3 bytes of a tape of L bytes, counting each byte as often as it is asked for. A font set that is read takes at most five passes over the tape, five more and three bytes per font and two per private dictionary, and no less than half of what it holds in memory. The exponent is needed: for each n below 2^16 there is a file of 25 + 57 n bytes, the reading of which asks for n^3 / 2 bytes or more. Indices, character sets, encodings and selectors take one pass over the tape.", "quantifier": "every tape, position, outcome and n, every build profile", "why_tests_cant": "A bound on the work done on every file, malformed ones included.", "anchors": ["src/compact1/font_set/mod.rs: FontSet::read", "src/compact1/font_set/character_id_keyed.rs: Record::read", "src/compact1/font_set/character_name_keyed.rs: Record::read", "src/compact1/index/mod.rs: Index::read"]}
{"id": "C75", "title": "Only the subroutines that are called matter", "statement": "What executing a character string gives, an operation, an error or a panic of each call, the final state and whether it ends at all, depends on the tables of subroutines only through the subroutines it calls: with other tables, in which the numbers that are called select the same code, it is the same. If the execution succeeds, so far or to the end, it is enough that the called subroutines are found in the other tables; in particular, subroutines can be appended to a table as long as the number added to subroutine numbers stays the same, and not beyond. An execution without calls does not depend on the tables.", "quantifier": "every code, every four tables of fewer than 2^31 subroutines, every number of rounds, every build profile", "why_tests_cant": "That a subroutine does not matter is a claim about all values it can have.", "anchors": ["src/type2/program.rs: Program::new, Program::next, bias"]}
{"id": "C76", "title": "Overwriting names, strings, subroutines or glyphs in place changes them and nothing else", "statement": "If a file contains a font set and bytes of the names, strings, subroutines or character strings are overwritten without changing the length of the file, the result is read as a font set too, however malformed the new contents are as text or code: with the same header, dictionaries, encodings, character sets, selectors and table layouts, each element being what now stands at its place. An element none of whose bytes has been overwritten is as before, and replacing the bytes of one glyph by others of the same number gives a font set in which that glyph consists of the new bytes. The only condition is that the overwritten bytes are not at the same time part of the rest of the font set.", "quantifier": "every position, font set and file of fewer than 2^63 bytes it is read from, every file of the same length that agrees on the rest of the font set, every build profile", "why_tests_cant": "It has to hold for all font sets and all ways of overwriting them, including elements that overlap.", "anchors": ["src/compact1/font_set/mod.rs: FontSet::read", "src/compact1/index/mod.rs: Index::read", "src/compact1/font_set/character_name_keyed.rs: Record::read", "src/compact1/font_set/character_id_keyed.rs: Record::read"]}
{"id": "C77", "title": "Tables are kept byte for byte", "statement": "Reading loses nothing of a header, an index, a character set, an encoding or a glyph-to-dictionary selector: wherever the same value is read, the same bytes were taken, and no others. Hence two files from which the same font set is read agree on the header, the names, the character strings, character sets, encodings, selectors and local subroutines, place by place, and on the strings and global subroutines up to a shift. Dictionaries are the exception: different ones can read the same.", "quantifier": "every two files of fewer than 2^63 bytes, every position and font set, every build profile; for the readers, every two inputs and every two numbers of glyphs below 2^16", "why_tests_cant": "Injectivity is about all pairs of files.", "anchors": ["src/compact1/font_set/mod.rs: FontSet::read", "src/compact1/index/mod.rs: Index::read", "src/compact1/character_set.rs: CharacterSet::read", "src/compact1/encoding.rs: Encoding::read", "src/compact1/font_set/character_id_keyed.rs: Encoding::read"]}
{"id": "C78", "title": "Only recursion nests calls deeply or runs forever", "statement": "The calls that are in progress are calls of subroutines of the two tables, one for each routine that waits. Unless a subroutine is called inside of itself, no more of them are in progress than there are subroutines, every call of next returns, the program ends, and the number of rounds, operations and operands is bounded in terms of the sizes of the code and the tables; whatever runs forever is recursive. Programs whose subroutines can be ranked, each calling only lower ones, are not recursive, and subroutines without call operators are never nested. With recursion there is no limit on the nesting, neither the ten levels of the specification nor any other.", "quantifier": "every code, every tables of fewer than 2^31 subroutines, every execution of any length, every build profile", "why_tests_cant": "Termination and the absence of unbounded nesting are about all programs and all rounds of their executions.", "anchors": ["src/type2/program.rs: Program::next", "src/type2/program.rs: Program::execute", "src/type2/program.rs: Routine"]}
{"id": "C79", "title": "Failures of the device are passed on", "statement": "If the device a font set is read from fails at a request for a byte, the caller gets that failure: the first one, unchanged, and nothing is tried again or asked for afterwards. If no request fails, the result is that of the file the device holds. A device that fails now and then therefore never leads to a font set, an error or a panic the file itself does not lead to, and what it does with bytes outside of the parts of the font set does not matter.", "quantifier": "every device that holds a file and can fail at any request, every kind of failure, every file, position and build profile, every reader", "why_tests_cant": "The failure can come at any of the requests of any file; tests try a few.", "anchors": ["src/compact1/font_set/mod.rs: FontSet::read", "src/compact1/index/mod.rs: Index::read", "src/compact1/font_set/character_id_keyed.rs: Record::read", "src/compact1/font_set/character_name_keyed.rs: Record::read"]}
{"id": "C80", "title": "Files that change while they are read", "statement": "Whatever a device answers, even if it answers the same request differently the next time, reading ends; a font set that comes of it has well-formed tables, as many fonts as dictionaries and as many glyphs as its character strings say; and the only panics are those the build checks for, indexing out of bounds not being one of them. Two formats that are looked at twice are exceptions: a selector of format 0 can come out with another format in builds without debug assertions, and panics in builds with them, which no file that stays what it is causes; and an encoding with supplements can come out without the bit that announces them.", "quantifier": "every function from requests and positions to answers (with no byte at positions of 2^63 and more), every position and build profile", "why_tests_cant": "A file that is written to during reading can change between any two requests.", "anchors": ["src/compact1/font_set/mod.rs: FontSet::read", "src/compact1/font_set/character_id_keyed.rs: Encoding::read, Encoding0::read", "src/compact1/encoding.rs: Encoding::read, EncodingSupplemental::read", "src/compact1/character_set.rs: CharacterSet::read"]}
{"id": "C81", "title": "Code that does the same can be rewritten", "statement": "If pieces of numbers and stack operators in a character string or in its subroutines are replaced by pieces that make the same of every stack - a constant expression by its value, a number by another of its encodings, exch add by add, neg add by sub, 2 1 roll by exch, a number and drop by nothing - then calling next returns the same operations one after the other and the same width at the end, or it fails in the same way at the same point, or it goes on forever with the same operations. Two conditions are needed: something has to follow a replaced piece, because numbers at the very end are an error and operators are not; and the code in front of it has to be split at the sizes the masks really have.", "quantifier": "every character string, all tables of subroutines, every set of replaced pieces in them, every number of calls of next, every build profile", "why_tests_cant": "The pieces can stand anywhere, in subroutines called from anywhere with any stack, and the stack operators act on every stack of 32-bit numbers.", "anchors": ["src/type2/program.rs: Program::next, Program::width", "src/type2/number.rs: read"]}
{"id": "C82", "title": "Operands and widths need not be finite numbers", "statement": "Every operand of the operations of a glyph and its width should be a finite number. The code does not see to that: 1 0 div gives infinity, 0 0 div and -1 sqrt give something that is not a number, a repeated product overflows, and next returns them as operands and width as the width, in every build profile. What holds: in code and subroutines without the byte 12 every operand, every number left on the stack and the width is a number written in the code, and finite with a magnitude of at most 2^15; and in any execution along which sums double the bound, products square it and quotients multiply it by 2^j for divisors of at least 2^-j, starting from 2^15 and staying below 2^128, and in which square roots are taken of numbers that are not negative, everything is finite and within the bound.", "quantifier": "every character string, all tables of subroutines, every number of calls of next, every build profile", "why_tests_cant": "A bound has to hold for every combination of arithmetic operators with every stack, and rounding has to respect it at each of them.", "anchors": ["src/type2/program.rs: Program::next, Program::width", "src/type2/number.rs: read"]}
{"id": "C83", "title": "Subroutines can be inlined, renumbered and moved", "statement": "If a font is rewritten so that some calls are replaced by the subroutines they call, other subroutines change their numbers or move from one table to the other with the numbers in front of the calls changed to match, unused ones are dropped, and pieces that do the same (C81) replace each other, then a glyph whose calls have their numbers written in front of them still returns the same operations and the same width, fails in the same way at the same point, or goes on forever with the same operations. If it succeeded it still succeeds with the same result. The masks in rewritten code must have the sizes they really have, and the glyph must not be one that ends in a subroutine with code left to return to: that is an error which inlining can remove. Both hold if the bytes of the mask operators occur nowhere and that of endchar not in the subroutines.", "quantifier": "every character string and all tables of subroutines before and after, every correspondence between subroutines, every choice of calls to inline and at every depth, every build profile", "why_tests_cant": "Subroutines call each other to any depth, even recursively, from any place and with any stack; optimisers produce any combination of these changes.", "anchors": ["src/type2/program.rs: Program::next (CallSubr, CallGSubr, Return, EndChar), Program::width"]}
{"id": "C84", "title": "A width in front of a character string changes the width and nothing else", "statement": "Code that runs without failing does the same if there are more operands below those it has, up to the first operator that clears the stack. Hence, if the first operator of a character string that clears the stack is a stem hint, a mask, a move or endchar and takes all its arguments, a number written in front of the character string becomes its width and changes nothing else: the operations returned, a failure and its kind, and whether execution ends at all stay as they are. One such number can take the place of another. For other operators this fails: a line takes the number for one of its own operands.", "quantifier": "every character string with all subroutines and expressions in it, all operands below the stack, every encoding of every width, every build profile", "why_tests_cant": "What comes before the first clearing operator is arbitrary code with calls, rolls and conditions, and what comes after is the rest of an arbitrary glyph, which may fail or not end.", "anchors": ["src/type2/program.rs: Program::next, Program::width"]}
{"id": "C85", "title": "The limits of the Type 2 format are enforced", "statement": "A character string that exceeds a limit of the format (48 operands on the stack, 10 nested calls, 96 stem hints) is rejected. (It is not: for every n there is a character string that succeeds with more than n operands on the stack, with calls more than n deep, and with more than n stem hints. Without subroutines the length of the character string is what bounds them: twice the stem hints and the operands together are at most its bytes, and no call is ever pending.)", "quantifier": "every limit, every character string without subroutines and every state of its execution, every build profile", "why_tests_cant": "That no limit is enforced is a statement about all limits, and the bound in terms of the bytes one about all character strings.", "anchors": ["src/type2/program.rs: Program::next"]}
{"id": "C86", "title": "Hints do not change the outline", "statement": "If the hint operators of a character string and of its subroutines are dropped, together with the numbers right in front of them and their masks, then the moves, lines and curves that next returns are the same, one after the other and up to the end. The width, if it stood in front of a hint, can be put in front of what is left. The arguments of the hints must be numbers right in front of them, and the masks must have the length they are executed with; if arguments are computed, dropping the operator alone changes the outline.", "quantifier": "every character string with all subroutines that succeeds or has returned any number of operations, every build profile", "why_tests_cant": "Hints are spread over arbitrary code and subroutines, and what follows depends on the stack that they clear, on the stems that they count and on the bytes of their masks.", "anchors": ["src/type2/program.rs: Program::next, Program::width"]}
{"id": "C87", "title": "Subroutines can be done without", "statement": "A character string in which every call has the number of an existing subroutine right in front of it, in which no subroutine calls itself, directly or through others, and in which everything returns or ends with endchar, comes to an end, and there is a character string without calls that returns the same operations and the same width, with no subroutines at all.", "quantifier": "every such character string with all its subroutines, every build profile", "why_tests_cant": "The calls can be nested to any depth and shared in any way, and the code that returns must go on with the stack, the stems and the width of the subroutine.", "anchors": ["src/type2/program.rs: Program::next, Program::width"]}
{"id": "C88", "title": "Dictionaries can be overwritten in place", "statement": "If the dictionaries of a font set are overwritten with others that have the same operands for the operators that locate the rest (CharStrings, CharstringType, charset, Encoding, ROS, and Private or FDSelect and FDArray in a top dictionary, Private in a font dictionary, Subrs in a private dictionary), each at its place and the top dictionaries in as many bytes as before, then what is read has the new dictionaries and is otherwise the same. For a dictionary in which every operator occurs once it does not matter in which order the operations stand and which of the encodings of the operands is used.", "quantifier": "every position, font set and file of fewer than 2^63 bytes it is read from, every other file with the same bytes in the rest of the font set, all dictionaries, every build profile", "why_tests_cant": "It has to hold for all font sets and all dictionaries, of which any number can be overwritten at once.", "anchors": ["src/compact1/font_set/mod.rs: FontSet::read", "src/compact1/font_set/character_name_keyed.rs: Record::read", "src/compact1/font_set/character_id_keyed.rs: Record::read", "src/compact1/operation.rs: Operations::read, Operations::get"]}
{"id": "C89", "title": "Font sets can be repacked", "statement": "Whatever a file looks like that FontSet::read accepts (parts that overlap, that are shared by several fonts or written twice, gaps, any order, any offsets), what it holds can be written again as a file in which one part follows another, in any build profile read at any position with any bytes around. That file has at most 128 bytes for each byte, entry, operator and operand that the font set holds, and 128 more, which have to be fewer than 2^31. The names, strings, subroutines, glyphs, character sets, encodings, glyph-to-dictionary encodings, registries, orderings and supplements are the same, and the dictionaries have the same entries except for the operators that say where something is or which kind of font it is. The same holds for any selection of the fonts, in any order.", "quantifier": "every position, font set and file of fewer than 2^63 bytes it is read from, every selection of fewer than 2^16 fonts, every surrounding data, every two build profiles", "why_tests_cant": "It has to hold for all font sets that can be read, most of which no producer writes.", "anchors": ["src/compact1/font_set/mod.rs: FontSet::read", "src/compact1/font_set/character_name_keyed.rs: Record::read", "src/compact1/font_set/character_id_keyed.rs: Record::read", "src/compact1/operation.rs: Operations::read", "src/compact1/index/mod.rs: Index::read"]}
{"id": "C90", "title": "Which numbers and which glyphs there are", "statement": "The numbers that the code of a character string can compute are exactly the binary32 data, among them every subnormal number, the negative zero, the infinities and NaN, and each takes at most 404 bytes. The lists of operations and widths with which an execution can end are exactly the lists of path and hint operators with as many operands as each takes, the operands and the width being such data. So every glyph that is executed to the end, whatever its code and its subroutines are, can be written as its operations one after another, the operands being expressions, without subroutines, with the width in front of the first operation if that may have it and in front of endchar otherwise; that code is at most 405 bytes long plus 404 for each operand and, for each operation, three more than there are operands, and it gives the same operations and the same width in every build profile and with any subroutines.", "quantifier": "every binary32 datum, every list of operations with fewer than 2^64 - 7 operands, every character string with any subroutines that is executed to the end, every two build profiles", "why_tests_cant": "It has to hold for all 2^32 numbers and for all lists of operations; that no others occur is a statement about all character strings.", "anchors": ["src/type2/program.rs: Program::next", "src/type2/number.rs: read"]}
{"id": "C91", "title": "What font sets can hold", "statement": "Whatever FontSet::read returns is within these limits: indices have fewer than 2^16 elements; operands of dictionaries are integers of 32 bits or single-precision numbers other than NaN; there is an encoding, a character set, an index of character strings and a record for each top dictionary, which asks for character strings of type 2; a stored character set has two-byte identifiers for all glyphs but the first and no others, a stored encoding as many one-byte codes as it says, a glyph-to-dictionary encoding of format 0 one byte for each glyph; registry and ordering have two bytes, and there is a private dictionary for each font dictionary. Conversely there are no further limits: whatever meets these is read from some file of at most 60 bytes for each thing held, 130 for each font, 28 for each font dictionary and 32 more (fewer than 2^31 in total), apart from the operators that say where something is.", "quantifier": "every position and file of fewer than 2^63 bytes, every build profile; every font set within the limits, every surrounding data", "why_tests_cant": "Both directions range over infinitely many font sets; that no client sees anything outside the limits is a statement about all files.", "anchors": ["src/compact1/font_set/mod.rs: FontSet::read", "src/compact1/character_set.rs: CharacterSet::read", "src/compact1/encoding.rs: Encoding::read", "src/compact1/font_set/character_id_keyed.rs: Record::read", "src/compact1/font_set/character_name_keyed.rs: Record::read"]}
{"id": "C92", "title": "The width of the machine does not matter to reading", "statement": "A file of fewer than 2^31 bytes, which is what fits in the memory of a 32-bit machine, can be read as a font set on a 32-bit machine exactly if it can be on a 64-bit machine, and gives the same font set. If it cannot be read, then the outcome is the same on both, except that a 32-bit machine may panic for want of address space where a 64-bit machine reports the end of the file, and only if vectors are reserved before they are read.", "quantifier": "every file of fewer than 2^31 bytes, every position, every build profile", "why_tests_cant": "Tests run on one machine, and the places where the width of usize comes in (a negative size of a private dictionary, a font without glyphs, an element of more than 2^31 bytes) are reached only by malformed files; that there are no others is a statement about all files.", "anchors": ["src/compact1/font_set/mod.rs: FontSet::read", "src/compact1/index/mod.rs: Index::read", "src/compact1/character_set.rs: CharacterSet0::read", "src/compact1/font_set/character_name_keyed.rs: Record::read"]}
{"id": "C93", "title": "The width of the machine does not matter to execution", "statement": "A glyph without subroutines whose code has fewer than 2^32 bytes is executed alike on 32-bit and on 64-bit machines, whatever the outcome. A glyph with subroutines that a checked build executes to the end on a 64-bit machine gives the same operations and the same width on a 32-bit machine, in every build, if it declares fewer than 2^32 - 7 stem hints. Whatever a checked build makes of a glyph on a 32-bit machine without panicking, be it success or failure, every build makes of it on both machines. In a checked build the only way in which the outcomes differ at all is that the 32-bit machine panics, and some glyphs of less than a gigabyte, with 32 subroutines of at most five bytes, make it do so. In an unchecked build the counter wraps around instead: such a glyph is then executed on the 32-bit machine without any error but with operations missing.", "quantifier": "every character string and all subroutines, every build profile, any number of rounds", "why_tests_cant": "The counter of stem hints overflows only after billions of hints, and subroutines let a short glyph declare that many; that nothing else depends on the width is a statement about all programs.", "anchors": ["src/type2/program.rs: Program::next"]}
{"id": "C94", "title": "Glyphs can be replaced, and subroutines dispensed with", "statement": "Whatever code is given for the glyphs of a font set that is read, valid or not, there is a file from which the font set is read with that code, without subroutines and otherwise with the same contents, if the bound of its length below is less than 2^31 bytes. In particular, if every glyph of every font can be executed with the subroutines of the file, then there is a file from which the same font set is read without any subroutines, global or local, and in which every glyph is executed with the same operations and the same width in every build profile. More generally, every list of operations and every width that can be drawn at all (C90) can be put into every font set in the place of the glyphs. A font set that is laid out again as in C89 draws what it drew. The file has at most 128 bytes for each thing that the font set holds and 60 for each byte of the new code, whose length is bounded as in C90.", "quantifier": "every file that is read as a font set, all code for its glyphs, all pictures that its glyphs draw, every build profile, everything that may surround the new file", "why_tests_cant": "It says of every font set that another file exists, and compares two readings and the executions of all glyphs; a test would have to produce such a file from each font.", "anchors": ["src/compact1/font_set/mod.rs: FontSet::read", "src/type2/program.rs: Program::new, Program::next, Program::width", "src/compact1/index/mod.rs: Index::read"]}

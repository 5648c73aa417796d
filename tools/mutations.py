"""The wrong programs the theorems are tested against (see mutate.py)."""
MUTATIONS = []

def m(ident, file, definition, edits, edit, *claims):
    MUTATIONS.append(dict(id=ident, file=file, definition=definition,
                          edits=edits, edit=edit, claims=list(claims)))

# Base
m("B01", "Base", "take_u16", [("Ok (bz b1 * 2 ^ 8 + bz b0, r)", "Ok (bz b0 * 2 ^ 8 + bz b1, r)")], "little-endian u16", "C01", "C06", "C14", "C38")
m("B02", "Base", "take_u32", [("bz b2 * 2 ^ 16 + bz b1 * 2 ^ 8 + bz b0, r)", "bz b1 * 2 ^ 16 + bz b2 * 2 ^ 8 + bz b0, r)")], "middle bytes of a u32 swapped", "C01", "C06", "C38")
m("B03", "Base", "as_i16", [("Definition as_i16 (z : Z) : Z := (z + 2 ^ 15) mod 2 ^ 16 - 2 ^ 15.", "Definition as_i16 (z : Z) : Z := z mod 2 ^ 16.")], "16-bit integers not sign-extended", "C01", "C38")
m("B04", "Base", "as_i32", [("Definition as_i32 (z : Z) : Z := (z + 2 ^ 31) mod 2 ^ 32 - 2 ^ 31.", "Definition as_i32 (z : Z) : Z := z mod 2 ^ 32.")], "32-bit integers read as unsigned", "C01", "C02", "C38")
m("B05", "Base", "take_vec", [("(Z.of_nat (length s) + 1))) s", "(Z.of_nat (length s)))) s")], "a vector cut short by the end of the tape is accepted", "C16", "C21", "C25")
m("B06", "Base", "rest_at", [("skipn (Z.to_nat position) data.", "skipn (S (Z.to_nat position)) data.")], "jumps land one byte late", "C28", "C35")
m("B07", "Base", "jump", [("let* target := add_u64 cfg position (as_u64 offset) in", "let* target := add_u64 cfg 0 (as_u64 offset) in")], "offsets taken from the beginning of the tape instead of the font set", "C28", "C31")
m("B08", "Base", "as_u64", [("Definition as_u64 (z : Z) : Z := z mod 2 ^ 64.", "Definition as_u64 (z : Z) : Z := Z.abs z mod 2 ^ 64.")], "negative offsets lose their sign", "C28")
m("B09", "Base", "in_i32", [("(z <? 2 ^ 31)", "(z <=? 2 ^ 31)")], "i32 addition does not overflow at 2^31", "C35")
m("B10", "Base", "take_n", [("Ok (x :: xs, s2)", "Ok (xs ++ [x], s2)")], "vectors come out reversed", "C14", "C21", "C25")
m("B11", "Base", "take_vec", [("(isize_max <? count * size)", "(isize_max <? count)")], "capacity overflow computed from the count alone", "C37")

# Float
m("F01", "Float", "f32_sub", [("f32_sub : f32 -> f32 -> f32 := SFsub prec emax.", "f32_sub : f32 -> f32 -> f32 := fun a b => SFsub prec emax b a.")], "subtraction with swapped arguments", "C43", "C44")
m("F02", "Float", "i32_of_f32", [("Z.max (- 2 ^ 31) (Z.min v (2 ^ 31 - 1))", "v")], "float-to-integer casts do not saturate", "C45")
m("F03", "Float", "f32_of_q32", [("raw (-16) false", "raw (-15) false")], "fixed point with 15 fractional bits", "C38")
m("F04", "Float", "f32_of_decimal", [("binary_round_aux prec emax sign q e' l\n", "binary_round_aux prec emax sign q e' loc_Exact\n")], "decimal fractions truncated instead of rounded", "C03", "C09")
m("F05", "Float", "f32_leb", [("f32_leb : f32 -> f32 -> bool := SFleb.", "f32_leb : f32 -> f32 -> bool := SFltb.")], "strict comparison in ifelse", "C43", "C44")
m("F06", "Float", "f32_of_decimal", [("| _ => S754_zero sign", "| _ => S754_zero false")], "negative zero loses its sign", "C03")
m("F07", "Float", "emax", [("Definition emax : Z := 128.", "Definition emax : Z := 127.")], "too small an exponent range", "C03", "C44")
m("F08", "Float", "f32_abs", [("f32_abs : f32 -> f32 := SFabs.", "f32_abs : f32 -> f32 := fun x => x.")], "abs does nothing", "C43", "C44")
m("F09", "Float", "i32_of_f32", [("let v := if s then - t else t in", "let v := t in")], "float-to-integer casts lose the sign", "C45", "C46")

# C1Number
m("N01", "C1Number", "read_number", [("Integer (first - 139)", "Integer (first - 138)")], "one-byte integers off by one", "C01", "C02")
m("N02", "C1Number", "read_number", [("(first <=? 0xf6)", "(first <=? 0xf7)")], "0xf7 read as a one-byte integer", "C01", "C02")
m("N03", "C1Number", "read_number", [("+ b + 108), s2)", "+ b + 107), s2)")], "positive two-byte integers off by one", "C01", "C02")
m("N04", "C1Number", "read_number", [("- b - 108), s2)", "- b - 107), s2)")], "negative two-byte integers off by one", "C01", "C02")
m("N05", "C1Number", "read_number", [("(first <=? 0xfe)", "(first <=? 0xff)")], "0xff read as a two-byte integer", "C01")
m("N06", "C1Number", "read_number", [("Integer (as_i16 w)", "Integer w")], "three-byte integers unsigned", "C01")
m("N07", "C1Number", "read_number", [("let* (w, s2) := take_u32 s1 in Ok (Integer (as_i32 w), s2)", "let* (w, s2) := take_u16 s1 in Ok (Integer (as_i32 w), s2)")], "five-byte integers take two bytes", "C01", "C02")
m("N08", "C1Number", "on_nibble", [("else if n =? 0x0e then Push [x2d]", "else if (n =? 0x0e) || (n =? 0x0d) then Push [x2d]")], "reserved nibble accepted as a minus sign", "C04")
m("N09", "C1Number", "on_nibble", [("Push [x65]       (* 'e' *)", "Push [x65; x2d]"), ("Push [x65; x2d]  (* \"e-\" *)", "Push [x65]")], "e and e- swapped", "C03", "C04")
m("N10", "C1Number", "parse_loop", [("| Stop => Ok (buffer, r)", "| Stop => Ok (buffer, b :: r)")], "byte with a terminator in its high half left on the tape", "C04")
m("N11", "C1Number", "parse_loop", [("| Stop => Ok (buffer ++ high, r)", "| Stop => Ok (buffer, r)")], "digit in front of a low terminator dropped", "C03", "C04")
m("N12", "C1Number", "parse_f32", [("f32_of_decimal sign m (- shift)", "f32_of_decimal sign m (shift)")], "decimal point moved the wrong way", "C03")
m("N13", "C1Number", "parse_f32", [("(if negative then - e else e)", "e")], "sign of the exponent ignored", "C03")
m("N14", "C1Number", "parse_f32", [("| [] => None\n", "| [] => Some f32_zero\n")], "a literal without digits reads as zero", "C04")
m("N15", "C1Number", "parse_f32", [("| _ :: _, [] =>", "| _, [] =>")], "exponent without digits accepted", "C04")
m("N16", "C1Number", "read_offset", [("v0 * 2 ^ 16 + v1 * 2 ^ 8 + v2, r)", "v2 * 2 ^ 16 + v1 * 2 ^ 8 + v0, r)")], "three-byte offsets little-endian", "C06")
m("N17", "C1Number", "read_offset", [("if size =? 1 then take_u8 s", "if size =? 0 then Ok (0, s) else if size =? 1 then take_u8 s")], "size zero accepted", "C06", "C16")
m("N18", "C1Number", "string_id_of_number", [("if 0 <=? value", "if 0 <? value")], "string identifier 0 rejected", "C07")
m("N19", "C1Number", "parse_loop", [("          | Reject => Err Other\n", "          | Reject => Err UnexpectedEof\n")], "reserved nibble reported as end of file", "C04", "C12")
m("N20", "C1Number", "parse_loop", [("| [] => Err UnexpectedEof", "| [] => Err Other")], "truncated real reported as malformed", "C05", "C11")
m("N21", "C1Number", "string_id_of_number", [("| Real _ => Err Other", "| Real x => Ok (as_u16 (i32_of_f32 x))")], "reals accepted as string identifiers", "C07")
m("N22", "C1Number", "span_digits", [("Some d => let (ds, r') := span_digits r in (d :: ds, r')", "Some d => let (ds, r') := span_digits r in (ds ++ [d], r')")], "digits reversed", "C03")

# C1Operation
m("O01", "C1Operation", "operator_codes", [("(0x0a, Op_StdHW)", "(0x0a, Op_StdVW)"), ("(0x0b, Op_StdVW)", "(0x0b, Op_StdHW)")], "codes of StdHW and StdVW swapped", "C08")
m("O02", "C1Operation", "operator_codes", [("   (0x0c25, Op_FDSelect);\n   (0x0c26, Op_FontName)\n", "   (0x0c25, Op_FDSelect)\n")], "FontName missing", "C08")
m("O03", "C1Operation", "operator_default", [("Integer (-100)", "Integer 100")], "default underline position positive", "C09")
m("O04", "C1Operation", "lit_0_039625", [("f32_of_decimal false 39625 (-6)", "f32_of_decimal false 39625 (-5)")], "default BlueScale ten times too large", "C09")
m("O05", "C1Operation", "operator_default", [("  | Op_ForceBold => Some [Integer 0]\n", "")], "no default for ForceBold", "C09")
m("O06", "C1Operation", "map_insert", [("  (o, v) :: filter (fun kv => negb (operator_eqb o (fst kv))) ops.", "  if existsb (fun kv => operator_eqb o (fst kv)) ops then ops else (o, v) :: ops.")], "first occurrence of an operator wins", "C10")
m("O07", "C1Operation", "operations_get", [("  | Some operands => Some operands\n  | None => operator_default o", "  | Some (x :: l) => Some (x :: l)\n  | _ => operator_default o")], "an empty operand list falls back to the default", "C13")
m("O08", "C1Operation", "get_double", [("Some (x, y)", "Some (y, x)")], "get_double swaps its operands", "C13", "C35")
m("O09", "C1Operation", "get_single", [("  | Some (x :: _) => Some x", "  | Some [x] => Some x")], "get_single requires exactly one operand", "C13")
m("O10", "C1Operation", "starts_operand", [("(code =? 0x1d) || (code =? 0x1e) ||", "(code =? 0x1d) ||")], "reals not recognised as operands", "C10", "C12")
m("O11", "C1Operation", "read_operation_loop", [("(operands ++ [x]) r", "(x :: operands) r")], "operands reversed", "C10")
m("O12", "C1Operation", "read_operation_loop", [("if code =? 0x0c then take_u16 s else take_u8 s", "take_u8 s")], "escape operators not read as two bytes", "C10", "C12")
m("O13", "C1Operation", "read_operations_loop", [("| Err UnexpectedEof => Ok ops", "| Err UnexpectedEof => match s with [] => Ok ops | _ => Err UnexpectedEof end")], "truncated dictionary rejected", "C11")
m("O14", "C1Operation", "read_operations_loop", [("| Err Other => Err Other\n      | Panic", "| Err Other => Ok ops\n      | Panic")], "malformed dictionary ends silently", "C12")
m("O15", "C1Operation", "read_operations_loop", [("(map_insert o operands ops) r", "(match operands with [] => ops | _ => map_insert o operands ops end) r")], "operators without operands forgotten", "C10", "C13")
m("O16", "C1Operation", "operator_default", [("Real lit_0_001; Real lit_0_0; Real lit_0_0; Real lit_0_001; Real lit_0_0; Real lit_0_0", "Real lit_0_001; Real lit_0_0; Real lit_0_0; Real lit_0_001; Real lit_0_0")], "default FontMatrix with five entries", "C09")
m("O17", "C1Operation", "get_double", [("  | Some (x :: y :: _) => Some (x, y)\n", "  | Some (x :: y :: _) => Some (x, y)\n  | Some [x] => Some (x, x)\n")], "get_double accepts a single operand", "C13")

# C1Index
m("I01", "C1Index", "read_index", [("(Z.to_nat (n + 1))", "(Z.to_nat n)")], "one offset too few", "C14", "C15")
m("I02", "C1Index", "read_index", [("    | 1 :: _ =>\n", "    | _ :: _ =>\n")], "first offset not checked", "C15", "C16")
m("I03", "C1Index", "read_elements", [("if o2 <? o1 then Err Other\n      else\n", "if false then Err Other\n      else\n")], "decreasing offsets accepted", "C15", "C16")
m("I04", "C1Index", "read_elements", [("if o2 <? o1", "if o2 <=? o1")], "empty elements rejected", "C14")
m("I05", "C1Index", "read_index", [("if n =? 0 then Ok (empty_index, s1)", "if n =? 0 then let* (_, s2) := take_u8 s1 in Ok (empty_index, s2)")], "empty index takes an offset size", "C14")
m("I06", "C1Index", "read_elements", [("(o2 - o1) s in", "(o2 - o1 + 1) s in")], "elements one byte too long", "C14", "C15")
m("I07", "C1Index", "read_character_strings", [("if format =? 2 then read_index cfg s else Err Other", "if (format =? 1) || (format =? 2) then read_index cfg s else Err Other")], "Type 1 character strings accepted", "C28")
m("I08", "C1Index", "names_try_into", [("| None => from_utf8_lossy chunk", "| None => chunk")], "malformed names kept as they are", "C17")
m("I09", "C1Index", "number_of_standard_strings", [("Z := 391.", "Z := 390.")], "one standard string too few", "C18")
m("I10", "C1Index", "strings_get", [("if string_id <? number_of_standard_strings", "if string_id <=? number_of_standard_strings")], "first custom string unreachable", "C18")
m("I11", "C1Index", "strings_get", [("Z.to_nat (string_id - number_of_standard_strings)", "Z.to_nat string_id")], "custom strings not shifted", "C18")
m("I12", "C1Index", "dictionaries_loop", [("let* ops := dictionaries_get cfg d i in\n", "let* ops := dictionaries_get cfg d 0 in\n")], "first dictionary decoded over and over", "C20", "C28")
m("I13", "C1Index", "dictionaries_try_into", [("(seq 0 (length (data d)))", "(seq 0 (length (data d) - 1))")], "last dictionary dropped", "C20", "C28", "C34")
m("I14", "C1Index", "strings_get", [("Some (from_utf8_lossy chunk)", "from_utf8 chunk")], "malformed custom strings missing", "C18")
m("I15", "C1Index", "names_try_into", [("(data names))", "(filter (fun c => negb (Nat.eqb (length c) 0)) (data names)))")], "empty names skipped", "C17")
m("I16", "C1Index", "dictionaries_get", [("| None => Panic IndexOutOfBounds", "| None => Ok []")], "out-of-range dictionary reads as empty", "C20")
m("I17", "C1Index", "read_index", [("offsets := offs; data := chunks |}, s4)", "offsets := tl offs; data := chunks |}, s4)")], "first offset not kept", "C14", "C15")

# Utf8
m("U01", "Utf8", "second_of_three", [("between 0x80 0x9f b", "between 0x80 0xbf b")], "surrogates accepted", "C17")
m("U02", "Utf8", "second_of_three", [("between 0xa0 0xbf b", "between 0x80 0xbf b")], "overlong three-byte sequences accepted", "C17")
m("U03", "Utf8", "second_of_four", [("between 0x80 0x8f b", "between 0x80 0xbf b")], "code points beyond U+10FFFF accepted", "C17")
m("U04", "Utf8", "inspect", [("between 0xc2 0xdf (bz a)", "between 0xc0 0xdf (bz a)")], "overlong two-byte sequences accepted", "C17")
m("U05", "Utf8", "replacement", [("[xef; xbf; xbd]", "[xef; xbf]")], "replacement character cut short", "C17")
m("U06", "Utf8", "valid_loop", [("let (valid, n) := inspect s in valid && valid_loop fuel' (skipn n s)", "let (valid, n) := inspect s in valid")], "only the first character validated", "C17")
m("U07", "Utf8", "inspect", [("              | c :: _ => if is_continuation c then (true, 3%nat) else (false, 2%nat)", "              | c :: _ => if is_continuation c then (true, 3%nat) else (false, 3%nat)")], "byte after a broken three-byte sequence swallowed", "C18")
m("U08", "Utf8", "inspect", [("if is_continuation b then (true, 2%nat) else (false, 1%nat)", "if is_continuation b then (true, 2%nat) else (false, 2%nat)")], "byte after a broken two-byte sequence swallowed", "C18")
m("U09", "Utf8", "lossy_loop", [("(if valid then firstn n s else replacement)", "(if valid then firstn n s else [])")], "malformed bytes dropped", "C18")
m("U10", "Utf8", "inspect", [("if bz a <? 0x80 then (true, 1%nat)", "if bz a <? 0x7f then (true, 1%nat)")], "U+007F rejected", "C17")

# C1Glyphs
m("G01", "C1Glyphs", "read_character_set1", [("read_ranges read_range1 (S (length s1)) glyph_count 1 s1", "read_ranges read_range1 (S (length s1)) glyph_count 0 s1")], "format 1 counts .notdef as covered by a range", "C22")
m("G02", "C1Glyphs", "read_ranges", [("(found_count + (1 + left_count range))", "(found_count + left_count range)")], "range sizes off by one", "C22")
m("G03", "C1Glyphs", "read_character_set2", [("read_range2 (S (length s1)) glyph_count 1 s1 in\n    if negb (found =? glyph_count) then", "read_range2 (S (length s1)) glyph_count 1 s1 in\n    if found <? glyph_count then")], "format 2 may overshoot the glyph count", "C22")
m("G04", "C1Glyphs", "read_character_set0", [("sub_usize cfg glyph_count 1", "sub_usize cfg glyph_count 0")], "format 0 reads an identifier for .notdef", "C21")
m("G05", "C1Glyphs", "read_range2", [("Definition read_range2 : reader string_range := fun s =>\n  let* (first, s1) := take_u16 s in\n  let* (more, s2) := take_u16 s1 in", "Definition read_range2 : reader string_range := fun s =>\n  let* (first, s1) := take_u16 s in\n  let* (more, s2) := take_u8 s1 in")], "format 2 ranges with one-byte counts", "C22")
m("G06", "C1Glyphs", "read_character_set", [("else if format =? 2 then read_character_set2 glyph_count s", "else if format =? 2 then read_character_set1 glyph_count s")], "format 2 dispatched to format 1", "C22")
m("G07", "C1Glyphs", "character_set_get", [("| ExpertSet => lookup_code glyph_id expert_names", "| ExpertSet => lookup_code glyph_id expert_subset_names")], "Expert names taken from the subset", "C23")
m("G08", "C1Glyphs", "encoding_get", [("| ExpertEncoding => lookup_code glyph_id expert_encoding", "| ExpertEncoding => lookup_code glyph_id standard_encoding")], "Expert encoding confused with Standard", "C24")
m("G09", "C1Glyphs", "read_encoding0", [("take_vec cfg 1 take_u8 n s2", "take_vec cfg 1 take_u8 (n + 1) s2")], "one code too many", "C25")
m("G10", "C1Glyphs", "read_code_range", [("{| first_code := first; codes_left := more |}", "{| first_code := more; codes_left := first |}")], "range fields swapped", "C25")
m("G11", "C1Glyphs", "read_encoding", [("0 <? Z.land format 0x80", "0 <? Z.land format 0x40")], "wrong bit for supplements", "C25")
m("G12", "C1Glyphs", "read_supplement", [("let* (glyph, s2) := take_u16 s1 in", "let* (glyph, s2) := take_u8 s1 in")], "supplement glyphs of one byte", "C26")
m("G13", "C1Glyphs", "read_encoding1", [("let* (ranges, s3) := take_vec cfg 2 read_code_range n s2 in", "let* (ranges, s3) := take_vec cfg 2 read_code_range (n - 1) s2 in")], "last range dropped", "C25")
m("G14", "C1Glyphs", "encoding_get", [("| Standard => lookup_code glyph_id standard_encoding", "| Standard => lookup_code (glyph_id + 1) standard_encoding")], "codes off by one", "C24")
m("G15", "C1Glyphs", "character_set_get", [("| ISOAdobe => lookup_code glyph_id iso_adobe_names", "| ISOAdobe => lookup_code (glyph_id - 1) iso_adobe_names")], "glyphs off by one", "C23")
m("G16", "C1Glyphs", "read_encoding0", [("Ok (EncFormat0 format n codes, s3)", "Ok (EncFormat0 format n (rev codes), s3)")], "codes reversed", "C25")
m("G17", "C1Glyphs", "read_ranges", [("Ok ((range :: ranges, found), s2)", "Ok ((ranges ++ [range], found), s2)")], "ranges reversed", "C22")

# C1FontSet
m("S01", "C1FontSet", "read_header", [("minor := b; header_size := c;", "minor := c; header_size := b;")], "header fields swapped", "C28")
m("S02", "C1FontSet", "need_single", [("Definition need_single (ops : operations) (o : operator) : outcome Z :=\n  match get_single ops o with\n  | Some (Integer value) => Ok value\n  | Some (Real _) => Err Other\n  | None => Err Other", "Definition need_single (ops : operations) (o : operator) : outcome Z :=\n  match get_single ops o with\n  | Some (Integer value) => Ok value\n  | Some (Real _) => Err Other\n  | None => Ok 0")], "missing offsets read as zero", "C28")
m("S03", "C1FontSet", "read_private", [("let* (size, offset) := need_double top Op_Private in", "let* (offset, size) := need_double top Op_Private in")], "Private operands swapped", "C28", "C35")
m("S04", "C1FontSet", "read_private", [("add_i32 cfg offset another_offset", "add_i32 cfg 0 another_offset")], "Subrs offset taken from the beginning of the font set", "C28", "C35")
m("S05", "C1FontSet", "read_private", [("(as_usize size) s in", "(as_usize (size - 1)) s in")], "last byte of the private dictionary ignored", "C35")
m("S06", "C1FontSet", "read_cid", [("| Some [operand0; operand1; operand2] =>", "| Some (operand0 :: operand1 :: operand2 :: _) =>")], "surplus ROS operands accepted", "C33")
m("S07", "C1FontSet", "read_cid", [("{| registry := r; ordering := o;", "{| registry := o; ordering := r;")], "registry and ordering swapped", "C33")
m("S08", "C1FontSet", "read_cid", [("let* offset := need_single top Op_FDArray in", "let* offset := need_single top Op_FDSelect in")], "font dictionaries read from the FDSelect offset", "C28", "C34")
m("S09", "C1FontSet", "read_privates", [("Ok (record :: records)", "Ok (records ++ [record])")], "private records reversed", "C34")
m("S10", "C1FontSet", "read_record", [("if map_contains ops Op_ROS then", "if map_contains ops Op_FDArray then")], "record kind decided by FDArray", "C33")
m("S11", "C1FontSet", "read_font", [("else if offset =? 2 then Ok ExpertSubset\n", "")], "ExpertSubset read as an offset", "C28")
m("S12", "C1FontSet", "read_font", [("    else if offset =? 1 then Ok ExpertEncoding\n", "")], "Expert encoding read as an offset", "C28")
m("S13", "C1FontSet", "read_font", [("  match nth_error css i with       (* &character_strings[i] *)", "  match nth_error css 0 with")], "records read with the character strings of the first font", "C28")
m("S14", "C1FontSet", "read_font", [("encodings := encodings g ++ [enc];", "encodings := enc :: encodings g;")], "encodings in reverse order", "C29")
m("S15", "C1FontSet", "read_fonts", [("read_fonts cfg tape position (S i) rest g'", "read_fonts cfg tape position i rest g'")], "round number not advanced", "C28")
m("S16", "C1FontSet", "read_font_set", [("  let* (strings, s3) := read_index cfg s2 in\n  let* (subroutines, _) := read_index cfg s3 in", "  let* (subroutines, s3) := read_index cfg s2 in\n  let* (strings, _) := read_index cfg s3 in")], "strings and global subroutines swapped", "C28")
m("S17", "C1FontSet", "read_font_set", [("  let* s := jump cfg tape position (header_size h) in\n  let* (names, s1)", "  let* s := jump cfg tape position 4 in\n  let* (names, s1)")], "header size ignored", "C28")
m("S18", "C1FontSet", "font_set_count", [("  let* s := jump cfg tape position (header_size h) in\n  let* (n, _)", "  let* s := jump cfg tape position 0 in\n  let* (n, _)")], "count read from the header", "C30")
m("S19", "C1FontSet", "read_dictionary_encoding0", [("take_vec cfg 1 take_u8 glyphs s1", "take_vec cfg 1 take_u8 (glyphs - 1) s1")], "one dictionary identifier too few", "C36")
m("S20", "C1FontSet", "read_dictionary_encoding3", [("let* (sentinel, s4) := take_u16 s3 in", "let* (sentinel, s4) := take_u8 s3 in")], "sentinel of one byte", "C36")
m("S21", "C1FontSet", "read_range3", [("{| first_glyph_id := first; dictionary_id := fd |}", "{| first_glyph_id := fd; dictionary_id := first |}")], "range fields swapped", "C36")
m("S22", "C1FontSet", "read_font", [("let* (cs, _) := read_character_strings cfg format s in", "let* (cs, _) := read_character_strings cfg 2 s in")], "CharStringType ignored", "C28")
m("S23", "C1FontSet", "read_font_set", [("  let* (h, _) := read_header (rest_at tape position) in\n  let* s := jump cfg tape position (header_size h) in\n  let* (names, s1)", "  let* (h, _) := read_header tape in\n  let* s := jump cfg tape position (header_size h) in\n  let* (names, s1)")], "header read from the beginning of the tape", "C28", "C31")
m("S24", "C1FontSet", "read_font", [("| Some cs_i => let* (set, _) := read_character_set cfg (count cs_i) s in Ok set", "| Some cs_i => let* (set, _) := read_character_set cfg (count cs_i + 1) s in Ok set")], "character set read with one glyph too many", "C28")
m("S25", "C1FontSet", "try_single", [("Definition try_single (ops : operations) (o : operator) : outcome (option Z) :=\n  match get_single ops o with\n  | Some (Integer value) => Ok (Some value)\n  | Some (Real _) => Err Other", "Definition try_single (ops : operations) (o : operator) : outcome (option Z) :=\n  match get_single ops o with\n  | Some (Integer value) => Ok (Some value)\n  | Some (Real _) => Ok None")], "real Subrs operand ignored", "C28", "C35")
m("S26", "C1FontSet", "read_cid", [("cid_supplement := operand2;", "cid_supplement := operand0;")], "supplement is the registry", "C33")
m("S27", "C1FontSet", "read_dictionary_encoding", [("else if format =? 3 then", "else if (format =? 3) || (format =? 4) then")], "FDSelect format 4 dispatched to format 3")
m("S28", "C1FontSet", "read_font_set", [("fs_character_sets := character_sets g;", "fs_character_sets := tl (character_sets g);")], "first character set dropped", "C28", "C29")
m("S29", "C1FontSet", "read_dictionary_encoding3", [("let* (ranges, s3) := take_vec cfg 4 read_range3 n s2 in", "let* (ranges, s3) := take_vec cfg 4 read_range3 (n - 1) s2 in")], "last FDSelect range dropped", "C36")

# T2Number
m("P01", "T2Number", "read_operand", [("f32_of_q32 (as_i32 w)", "f32_of_i32 (as_i32 w)")], "fixed point read as an integer", "C38")
m("P02", "T2Number", "read_operand", [("f32_of_q32 (as_i32 w)", "f32_of_q32 w")], "fixed point unsigned", "C38")
m("P03", "T2Number", "read_operand", [("f32_of_i32 (as_i16 w)", "f32_of_i32 w")], "short integers unsigned", "C38")
m("P04", "T2Number", "read_operand", [("- b - 108), s2)", "- b + 108), s2)")], "negative two-byte integers shifted the wrong way", "C38")
m("P05", "T2Number", "read_operand", [("(first <=? 0xfa)", "(first <=? 0xfb)")], "0xfb read as positive", "C38")
m("P06", "T2Number", "read_operand", [("first - 247) * 256", "first - 247) * 255")], "two-byte integers scaled wrongly", "C38")

# T2Operation
m("Q01", "T2Operation", "t2_operator_codes", [("(0x1e, T2_VHCurveTo)", "(0x1e, T2_HVCurveTo)"), ("(0x1f, T2_HVCurveTo)", "(0x1f, T2_VHCurveTo)")], "codes of vhcurveto and hvcurveto swapped", "C08")
m("Q02", "T2Operation", "t2_operator_codes", [("   (0x01, T2_HStem);\n", "   (0x01, T2_HStem);\n   (0x02, T2_HStem);\n")], "reserved code accepted", "C08", "C49")
m("Q03", "T2Operation", "t2_operator_codes", [("   (0x0c24, T2_HFlex1);\n   (0x0c25, T2_Flex1)\n", "   (0x0c24, T2_HFlex1)\n")], "flex1 missing", "C08", "C52")

# T2Program
m("R01", "T2Program", "bias", [("count <? 1240", "count <? 1241")], "bias boundary off by one", "C46")
m("R02", "T2Program", "reduce", [("if Nat.ltb left m then Some left else Some m", "if Nat.ltb m left then Some left else Some m")], "shortest instead of longest operand list", "C39")
m("R03", "T2Program", "execute", [("clear o [[equal 1; maybe_modulo 2]; [modulo 2]] p", "clear o [[equal 1; maybe_modulo 2]] p")], "hlineto with an even count loses an operand", "C39")
m("R04", "T2Program", "execute", [("[[equal 4; maybe_modulo 8; maybe_equal 1]; [modulo 8; maybe_equal 1]]", "[[equal 4; maybe_modulo 8; maybe_equal 1]; [modulo 8]]")], "hvcurveto loses its last operand", "C39")
m("R05", "T2Program", "execute", [("clear o [[modulo 6; equal 2]] p", "clear o [[modulo 6; maybe_equal 2]] p")], "rcurveline without a line", "C39")
m("R06", "T2Program", "execute", [("clear o [[equal 13]] p", "clear o [[equal 12]] p")], "flex with 12 operands", "C39")
m("R07", "T2Program", "reduce", [("(seq 1 (left / c))", "(seq 0 (left / c + 1))")], "modulo accepts no operands at all", "C39")
m("R08", "T2Program", "execute", [("clear o [[maybe_equal 1; modulo 4]] p", "clear o [[equal 1; modulo 4]] p")], "hhcurveto requires the optional operand", "C39")
m("R09", "T2Program", "clear", [("if Nat.ltb 0 min && match width p with None => true | Some _ => false end then", "if Nat.ltb 0 min then")], "later operators overwrite the width", "C42")
m("R10", "T2Program", "clear", [("(set_width (set_stack p []) w)", "(set_width p w)")], "stack not cleared", "C40", "C52")
m("R11", "T2Program", "clear", [("let operands := skipn min st in", "let operands := firstn (length st - min) st in")], "operands taken from the bottom", "C39")
m("R12", "T2Program", "execute", [("let p := set_frames p r [] in", "let p := set_frames p r (callers p) in")], "endchar keeps the callers", "C48")
m("R13", "T2Program", "unwind", [("if done r then unwind c cs' else Err Other", "unwind c cs'")], "bytes after endchar in a subroutine ignored", "C48")
m("R14", "T2Program", "execute", [("| Some (top, _), None => Some top", "| Some (top, _), None => None")], "endchar does not set the width", "C42")
m("R15", "T2Program", "execute", [("      let* n := add_u64 cfg (stems p) (Z.shiftr (Z.of_nat (length (stack p))) 1) in\n      clear o", "      let* n := add_u64 cfg (stems p) (Z.of_nat (length (stack p))) in\n      clear o")], "stem operands counted one by one", "C41")
m("R16", "T2Program", "execute", [("let* m := add_u64 cfg n 7 in", "let* m := add_u64 cfg n 0 in")], "mask size rounded down", "C41", "C52")
m("R17", "T2Program", "execute", [("      let* n := add_u64 cfg (stems p) (Z.shiftr (Z.of_nat (length (stack p))) 1) in\n      let* m", "      let* n := add_u64 cfg (stems p) 0 in\n      let* m")], "implicit vertical stems not counted", "C41")
m("R18", "T2Program", "execute", [("clear o [[equal 0]] (set_routine (set_stems p n) r)", "clear o [[equal 0]] (set_stems p n)")], "mask bytes executed", "C41", "C52")
m("R19", "T2Program", "execute", [("with_stack p (binary f32_sub (stack p))", "with_stack p (binary (fun a b => f32_sub b a) (stack p))")], "sub with swapped operands", "C43")
m("R20", "T2Program", "execute", [("Ok (push lhs (push rhs st)))", "Ok (push rhs (push lhs st)))")], "exch does nothing", "C45")
m("R21", "T2Program", "execute", [("read_from_top (if 0 <=? i then i else 0) st", "read_from_top i st")], "negative index not treated as zero", "C45")
m("R22", "T2Program", "execute", [("read_from_top (if 0 <=? i then i else 0) st", "read_from_top (if 0 <=? i then i else 0) (push f32_zero st)")], "index counts its own operand", "C45")
m("R23", "T2Program", "roll", [("match shift ?= 0 with", "match 0 ?= shift with")], "roll turns the wrong way", "C45")
m("R24", "T2Program", "roll", [("else if length <? span then Err Other", "else if length <=? span then Err Other")], "roll of the whole stack rejected", "C45")
m("R25", "T2Program", "roll", [("Z.to_nat (length - span)", "Z.to_nat (length - span + 1)")], "roll moves one element too few", "C45")
m("R26", "T2Program", "execute", [("with_stack p (let* (_, st) := pop (stack p) in Ok st)", "with_stack p (let* (_, st) := pop (stack p) in Ok (stack p))")], "drop does nothing", "C45")
m("R27", "T2Program", "execute", [("(let* x := read_from_top 0 (stack p) in", "(let* x := read_from_top 1 (stack p) in")], "dup copies the element below the top", "C45")
m("R28", "T2Program", "execute", [("push_bool (lhs && rhs)", "push_bool (lhs || rhs)")], "and behaves as or", "C43")
m("R29", "T2Program", "execute", [("(if f32_leb lhs rhs then yes else no)", "(if f32_leb lhs rhs then no else yes)")], "ifelse branches swapped", "C43")
m("R30", "T2Program", "execute", [("call cfg (local p) p", "call cfg (global p) p")], "callsubr calls global subroutines", "C46")
m("R31", "T2Program", "call", [("(routine p :: callers p)", "(callers p)")], "caller not remembered", "C46", "C47")
m("R32", "T2Program", "call", [("(set_stack p st) code", "p code")], "subroutine number left on the stack", "C46", "C47")
m("R33", "T2Program", "call", [("(count <=? i)", "(count <? i)")], "number one past the end accepted", "C46", "C51")
m("R34", "T2Program", "execute", [("      | c :: cs => Ok (Again (set_frames p c cs))\n      | [] => Err Other", "      | c :: cs => Ok (Again (set_frames p c cs))\n      | [] => Ok (Yield None p)")], "return without a caller ends the program", "C49")
m("R35", "T2Program", "execute", [("| T2_Random | T2_Put | T2_Get => Err Other", "| T2_Random => with_stack p (Ok (push f32_one (stack p)))\n  | T2_Put | T2_Get => Err Other")], "random pushes a constant", "C49")
m("R36", "T2Program", "execute", [("| T2_Random | T2_Put | T2_Get => Err Other", "| T2_Put => with_stack p (let* (_, st) := pop (stack p) in let* (_, st) := pop st in Ok st)\n  | T2_Random | T2_Get => Err Other")], "put ignored", "C49")
m("R37", "T2Program", "t2_starts_operand", [("(code <=? 0xff)", "(code <=? 0xfe)")], "fixed-point operands not recognised", "C52")
m("R38", "T2Program", "push_operands", [("push_operands fuel' (push x st) r", "push_operands fuel' (x :: st) r")], "operands pushed at the bottom", "C43", "C52")
m("R39", "T2Program", "step", [("if done (routine p) then Ok (Yield None p)", "if done (routine p) then match callers p with c :: cs => Ok (Again (set_frames p c cs)) | [] => Ok (Yield None p) end")], "a subroutine without return returns by itself", "C48")
m("R40", "T2Program", "pop_i32", [("      if f32_eqb (f32_of_i32 (i32_of_f32 value)) value then Ok (i32_of_f32 value, st')\n      else Err Other", "      Ok (i32_of_f32 value, st')")], "fractional operands truncated", "C45", "C46")
m("R41", "T2Program", "pop_bool", [("negb (f32_eqb value f32_zero)", "f32_eqb value f32_one")], "only one counts as true", "C43", "C44", "C56")
m("R42", "T2Program", "execute", [("| T2_HMoveTo | T2_VMoveTo => clear o [[equal 1]] p", "| T2_HMoveTo => clear o [[equal 1]] p\n  | T2_VMoveTo => clear o [[equal 2]] p")], "vmoveto takes two operands", "C39")
m("R43", "T2Program", "execute", [("clear o [[equal 2; maybe_modulo 2]] (set_stems p n)", "clear o [[equal 2; maybe_modulo 4]] (set_stems p n)")], "stem hints in groups of four", "C39")
m("R44", "T2Program", "read_t2_operator", [("if code =? 0x0c then take_u16 s else take_u8 s", "take_u8 s")], "escape operators not recognised", "C43", "C52")
m("R45", "T2Program", "execute", [("clear o [[equal 2; maybe_modulo 2]] (set_stems p n)", "clear o [[equal 2; maybe_modulo 2]] p")], "stems not counted", "C41")
m("R46", "T2Program", "roll", [("        let* n := neg_i32 cfg shift in\n        Z.iter n", "        Z.iter shift")], "negative roll does nothing", "C45")
m("R47", "T2Program", "execute", [("with_stack p (unary f32_sqrt (stack p))", "with_stack p (unary f32_abs (stack p))")], "sqrt computes abs", "C43")
m("R48", "T2Program", "execute", [("with_stack p (binary f32_div (stack p))", "with_stack p (binary (fun a b => f32_div b a) (stack p))")], "div with swapped operands", "C43")
m("R49", "T2Program", "clear", [("if Nat.ltb 0 min && match width", "if Nat.ltb 1 min && match width")], "width ignored when it is the only surplus argument", "C42")
m("R50", "T2Program", "call", [("(routine p :: callers p)", "[routine p]")], "outer callers forgotten", "C47")
m("R51", "T2Program", "clear", [("match nth_error rest (min - 1) with", "match nth_error rest 0 with")], "bottom-most instead of top-most surplus argument becomes the width")
m("R52", "T2Program", "execute", [("push_bool (f32_eqb lhs rhs)", "push_bool (negb (f32_eqb lhs rhs))")], "eq negated", "C43")
m("R53", "T2Program", "execute", [("push_bool (negb b)", "push_bool b")], "not does nothing", "C43")
m("R54", "T2Program", "execute", [("| T2_CallGSubr => let* p := call cfg (global p) p in Ok (Again p)", "| T2_CallGSubr => let* p := call cfg (global p) (set_stack p (stack p ++ [])) in Ok (Again (set_stems p 0))")], "global calls forget the stems", "C41", "C47")
m("R55", "T2Program", "execute", [("| T2_Return =>\n      match callers p with\n      | c :: cs => Ok (Again (set_frames p c cs))", "| T2_Return =>\n      match callers p with\n      | c :: cs => Ok (Again (set_frames p c []))")], "return forgets the outer callers", "C47")
m("R56", "T2Program", "new_program", [("width := None |}", "width := Some f32_zero |}")], "width preset to zero", "C42", "C52")
m("R57", "T2Program", "execute", [("let* r := unwind (routine p) (callers p) in", "let* r := Ok (routine p) in")], "endchar in a subroutine does not unwind", "C48")
m("R58", "T2Program", "execute", [("clear o [[modulo 2; equal 6]] p", "clear o [[equal 2; equal 6]] p")], "rlinecurve with a single line", "C39")
m("R59", "T2Program", "roll", [("if span <? 0 then Err Other", "if span <? 0 then Ok st")], "negative span ignored", "C45")
m("R60", "T2Program", "push_bool", [("(if b then f32_one else f32_zero)", "(if b then f32_neg f32_one else f32_zero)")], "true is minus one", "C43")
m("R61", "T2Program", "execute", [("         Ok (push (f32_add a b) st))", "         Ok (push (f32_add a a) st))")], "add doubles the top", "C43")
m("R62", "T2Program", "execute", [("| T2_RMoveTo => clear o [[equal 2]] p", "| T2_RMoveTo => clear o [[modulo 2]] p")], "rmoveto takes surplus pairs", "C39", "C42")

# Definitions the others leave out, and the properties that came later
m("X01", "Base", "add_i32", [("if in_i32 (a + b) then Ok (a + b)\n  else if overflow_checks cfg then Panic ArithmeticOverflow else Ok (as_i32 (a + b)).", "Ok (as_i32 (a + b)).")], "i32 addition wraps in every profile", "C46", "C51", "C37")
m("X02", "Base", "neg_i32", [("if in_i32 (- a) then Ok (- a)\n  else if overflow_checks cfg then Panic ArithmeticOverflow else Ok (as_i32 (- a)).", "Ok (as_i32 (- a)).")], "i32 negation wraps in every profile", "C45", "C51")
m("X03", "Base", "add_u64", [("if in_u64 (a + b) then Ok (a + b)\n  else if overflow_checks cfg then Panic ArithmeticOverflow else Ok (as_u64 (a + b)).", "Ok (as_u64 (a + b)).")], "offsets wrap around in every profile", "C31", "C37")
m("X04", "Base", "sub_usize", [("if in_u64 (a - b) then Ok (a - b)\n  else if overflow_checks cfg then Panic ArithmeticOverflow else Ok (as_usize (a - b)).", "Ok (Z.max 0 (a - b)).")], "saturating subtraction of the glyph count", "C37", "C53")
m("X05", "Base", "take_u8x3", [("Ok ((bz b2, bz b1, bz b0), r)", "Ok ((bz b0, bz b1, bz b2), r)")], "three-byte offsets little-endian", "C06", "C14")
m("X06", "Base", "take_u8", [("Ok (bz b, r)", "Ok (bz b mod 128, r)")], "top bit of bytes lost", "C01", "C06")
m("X07", "Base", "take_byte", [("| b :: r => Ok (b, r)\n  | _ => Err UnexpectedEof\n  end.\n\n(** [tape.take::<u16>", "| b :: r => Ok (b, r)\n  | _ => Err Other\n  end.\n\n(** [tape.take::<u16>")], "chunks cut short give another kind of error", "C16", "C32", "C41")
m("X08", "Base", "peek_u8", [("let* (b, _) := take_u8 s in Ok b.", "match s with [] => Ok 0 | _ => let* (b, _) := take_u8 s in Ok b end.")], "peeking at the end gives zero (what is read next fails in the same way, so nothing observable changes)")
m("X09", "Base", "isize_max", [("Definition isize_max : Z := 2 ^ 63 - 1.", "Definition isize_max : Z := 2 ^ 31 - 1.")], "capacity limit of a 32-bit target", "C37")
m("X10", "Base", "rest_at", [("if Z.of_nat (length data) <=? position then [] else", "if Z.of_nat (length data) <? position then [] else if Z.of_nat (length data) <=? position then data else")], "seeking to the end starts over", "C32")
m("X11", "Base", "as_u16", [("Definition as_u16 (z : Z) : Z := z mod 2 ^ 16.", "Definition as_u16 (z : Z) : Z := Z.min z (2 ^ 16 - 1).")], "string identifiers saturate", "C07")
m("X12", "Base", "in_u64", [("(0 <=? z) && (z <? 2 ^ 64)", "(0 <=? z) && (z <? 2 ^ 63)")], "u64 addition overflows at 2^63", "C31", "C37")
m("X13", "Float", "f32_add", [("f32_add : f32 -> f32 -> f32 := SFadd prec emax.", "f32_add : f32 -> f32 -> f32 := SFadd 53 1024.")], "addition in double precision", "C44")
m("X14", "Float", "f32_mul", [("f32_mul : f32 -> f32 -> f32 := SFmul prec emax.", "f32_mul : f32 -> f32 -> f32 := SFdiv prec emax.")], "division in place of multiplication", "C43", "C44")
m("X15", "Float", "f32_div", [("f32_div : f32 -> f32 -> f32 := SFdiv prec emax.", "f32_div : f32 -> f32 -> f32 := fun a b => SFdiv prec emax b a.")], "division with swapped arguments", "C43", "C44")
m("X16", "Float", "f32_neg", [("f32_neg : f32 -> f32 := SFopp.", "f32_neg : f32 -> f32 := SFsub prec emax (S754_zero false).")], "negation as subtraction from zero: zero stays positive", "C44")
m("X17", "Float", "f32_sqrt", [("f32_sqrt : f32 -> f32 := SFsqrt prec emax.", "f32_sqrt : f32 -> f32 := fun x => SFsqrt prec emax (SFabs x).")], "square root of the absolute value", "C44")
m("X18", "Float", "f32_eqb", [("f32_eqb : f32 -> f32 -> bool := SFeqb.", "f32_eqb : f32 -> f32 -> bool := fun a b => match a, b with S754_zero s, S754_zero t => Bool.eqb s t | _, _ => SFeqb a b end.")], "zeros of different signs differ", "C44")
m("X19", "Float", "f32_of_i32", [("binary_normalize prec emax z 0 false.\n\n(** [f32 as i32]", "binary_normalize prec emax (Z.abs z) 0 false.\n\n(** [f32 as i32]")], "conversion of integers loses the sign", "C38")
m("X20", "Float", "i32_of_f32", [("Zpos m / 2 ^ (- e) in", "(Zpos m + 2 ^ (- e) - 1) / 2 ^ (- e) in")], "casts round away from zero", "C45")
m("X21", "Float", "f32_of_decimal", [("(Z.to_pos (Zpos p * 10 ^ e)) 0", "(Z.to_pos (Zpos p * 2 ^ e)) 0")], "positive exponents taken as powers of two", "C03", "C58")
m("X22", "C1Number", "digit_of", [("(bz c <=? 57)", "(bz c <=? 56)")], "the digit nine is not a digit", "C03", "C04", "C58")
m("X23", "C1Number", "digits_value", [("10 * acc + d", "acc + 10 * d")], "digits weighed wrongly", "C03", "C58")
m("X24", "C1Number", "strip_sign", [("if Byte.eqb c x2d then (true, r) else (false, s)", "if Byte.eqb c x2d then (false, r) else (false, s)")], "minus signs ignored", "C03", "C58")
m("X25", "C1Number", "parse", [("| None => Err Other\n  end.\n\n(** ** Numbers *)", "| None => Ok (f32_zero, r)\n  end.\n\n(** ** Numbers *)")], "malformed reals read as zero", "C04", "C58")
m("X26", "C1Number", "on_nibble", [("if (0 <=? n) && (n <=? 9) then", "if (0 <=? n) && (n <=? 8) then")], "nibble nine rejected", "C03", "C58")
m("X27", "C1Number", "parse_f32", [("match whole ++ fraction with\n  | [] => None", "match whole with\n  | [] => None")], "reals such as .5 rejected", "C03", "C04", "C58")
m("X28", "C1Operation", "operator_eqb", [("if operator_eq_dec a b then true else false.", "match a, b with Op_Subrs, Op_Private => true | _, _ => if operator_eq_dec a b then true else false end.")], "two operators taken for one key", "C10", "C12", "C13")
m("X29", "C1Operation", "lookup_code", [("if code =? k then Some v else lookup_code code rest", "if code <=? k then Some v else lookup_code code rest")], "an unknown code finds the next arm", "C08", "C19", "C23", "C24")
m("X30", "C1Operation", "lit_0_06", [("f32_of_decimal false 6 (-2)", "f32_of_decimal false 6 (-1)")], "expansion factor 0.6", "C09")
m("X31", "C1Operation", "lit_0_001", [("f32_of_decimal false 1 (-3)", "f32_of_decimal false 1 (-2)")], "font matrix 0.01", "C09")
m("X32", "C1Operation", "lit_0_0", [("f32_of_decimal false 0 (-1)", "f32_of_decimal true 0 (-1)")], "negative zeros in the font matrix", "C09")
m("X33", "C1Operation", "map_get", [("if operator_eqb o k then Some v else map_get rest o", "if operator_eqb o k then (match map_get rest o with Some w => Some w | None => Some v end) else map_get rest o")], "the oldest entry of a table is found", "C13")
m("X34", "C1Operation", "map_contains", [("match map_get ops o with Some _ => true | None => false end.", "match operations_of_contains ops o with Some (_ :: _) => true | _ => false end."), ("Definition map_contains", "Definition operations_of_contains := map_get.\nDefinition map_contains")], "an operator without operands is not contained", "C33")
m("X35", "C1Operation", "operator_from", [("| None => Err Other\n  end.\n\n(** The [f32] literals", "| None => Ok Op_Version\n  end.\n\n(** The [f32] literals")], "unknown operators accepted", "C08", "C12")
m("X36", "C1Operation", "read_operation_loop", [("(operands ++ [x]) r", "(x :: operands) r")], "operands in reverse", "C12", "C13", "C57")
m("X37", "C1Operation", "operator_codes", [("(0x11, Op_CharStrings);\n   (0x12, Op_Private);", "(0x11, Op_Private);\n   (0x12, Op_CharStrings);")], "CharStrings and Private swapped", "C08", "C57")
m("X38", "C1Index", "empty_index", [("count := 0; offset_size := 0; offsets := []; data := [] |}.", "count := 0; offset_size := 1; offsets := [1]; data := [] |}.")], "empty indices report an offset", "C14", "C15")
m("X39", "C1Index", "get_standard_string", [("lookup_code string_id standard_strings.", "lookup_code (string_id + 1) standard_strings.")], "standard strings off by one", "C18", "C19")
m("X40", "C1Index", "read_elements", [("if o2 <? o1 then Err Other", "if o2 <=? o1 then Err Other")], "empty elements rejected", "C14", "C57")
m("X41", "C1Index", "read_index", [("let* (chunks, s4) := read_elements cfg offs s3 in", "let* (chunks, s4) := read_elements cfg offs s2 in")], "elements read from the offsets on", "C14", "C57", "C60")
m("X42", "C1Index", "read_index", [("Ok ({| count := n; offset_size := size; offsets := offs; data := chunks |}, s4)", "Ok ({| count := n; offset_size := size; offsets := offs; data := chunks |}, s3)")], "the elements are not consumed", "C14", "C28", "C57", "C60")
m("X43", "C1Index", "names_try_into", [("| None => from_utf8_lossy chunk", "| None => []")], "ill-formed names become empty", "C17")
m("X44", "C1Glyphs", "read_range1", [("first_string_id := first; left_count := more |}, s2).\n\n(** [<Range2", "first_string_id := more; left_count := first |}, s2).\n\n(** [<Range2")], "fields of a range swapped", "C22")
m("X45", "C1Glyphs", "read_encoding_supplemental", [("take_vec cfg 4 read_supplement n s2", "take_vec cfg 4 read_supplement (n - 1) s2")], "one supplement too few", "C26")
m("X47", "C1FontSet", "need_double", [("Ok (value0, value1)", "Ok (value1, value0)")], "size and offset of the private dictionary swapped", "C35", "C57", "C59")
m("X48", "C1FontSet", "read_font", [("encodings := encodings g ++ [enc];", "encodings := enc :: encodings g;")], "encodings in reverse", "C28", "C57")
m("X49", "C1FontSet", "read_private", [("let* sum := add_i32 cfg offset another_offset in", "let* sum := Ok another_offset in")], "local subroutines relative to the font set", "C35", "C57", "C59")
m("X50", "C1FontSet", "read_private", [("| None => Ok {| private_operations := ops; private_subroutines := empty_index |}", "| None => Err Other")], "fonts without local subroutines rejected", "C35", "C57")
m("X51", "C1FontSet", "read_cid", [("registry := r; ordering := o;", "registry := o; ordering := r;")], "registry and ordering swapped", "C33", "C57")
m("X52", "C1FontSet", "read_font_set", [("fs_subroutines := subroutines;", "fs_subroutines := strings;")], "strings returned as global subroutines", "C28", "C57", "C59")
m("X53", "C1FontSet", "read_font", [("let* r := read_record cfg tape position ops cs_i in", "let* r := read_record cfg tape 0 ops cs_i in")], "records read from the beginning of the tape", "C28", "C57", "C59")
m("X54", "C1FontSet", "font_set_count", [("let* (n, _) := take_u16 s in\n  Ok n.", "let* (n, _) := take_u16 s in\n  Ok (n + 1).")], "count off by one", "C30")
m("X55", "C1FontSet", "read_dictionary_encoding3", [("Ok (DictFormat3 format n ranges sentinel, s4).", "Ok (DictFormat3 format n ranges n, s4).")], "sentinel dropped", "C36", "C57")
m("X56", "C1FontSet", "read_font", [("let* format := need_single ops Op_CharStringType in\n  let* (cs, _) := read_character_strings cfg format s in", "let* (cs, _) := read_index cfg s in")], "type of the character strings not checked", "C33", "C28")
m("X57", "T2Operation", "t2_operator_from", [("| None => Err Other", "| None => Ok T2_Drop")], "unknown operators drop an operand", "C08", "C49")
m("X58", "T2Program", "done", [("match code with [] => true | _ => false end.", "match code with [] => true | [_] => true | _ => false end.")], "the last byte of a routine is not executed", "C39", "C48", "C56")
m("X59", "T2Program", "pop", [("| Some (value, st') => Ok (value, st')\n  | None => Err Other\n  end.\n\n(** [pop!(bool)]", "| Some (value, st') => Ok (value, st')\n  | None => Ok (f32_zero, [])\n  end.\n\n(** [pop!(bool)]")], "popping an empty stack gives zero", "C45", "C56")
m("X60", "T2Program", "push", [("list f32 := st ++ [x].", "list f32 := x :: st.")], "pushing at the bottom", "C39", "C44", "C56")
m("X61", "T2Program", "read_from_top", [("if length <=? index then Err Other", "if length <? index then Err Other")], "index one beyond the bottom panics", "C45", "C51", "C56")
m("X62", "T2Program", "read_from_top", [("(Z.to_nat (length - 1 - index))", "(Z.to_nat index)")], "index counted from the bottom", "C45", "C56")
m("X63", "T2Program", "vec_insert", [("firstn position l ++ x :: skipn position l", "x :: l")], "roll inserts at the bottom", "C45", "C56")
m("X64", "T2Program", "vec_remove", [("Ok (x, firstn position l ++ skipn (S position) l)", "Ok (x, l)")], "roll downwards copies instead of moving", "C45", "C56", "C60")
m("X65", "T2Program", "unary", [("Ok (push (f x) st).\n\n(** A binary", "Ok (push (f x) (push x st)).\n\n(** A binary")], "unary operators keep their operand", "C44", "C56")
m("X66", "T2Program", "binary", [("Ok (push (f lhs rhs) st).", "Ok (push (f rhs lhs) st).")], "binary operators with swapped arguments", "C43", "C44", "C56")
m("X67", "T2Program", "with_stack", [("Ok (Again (set_stack p st)).", "Ok (Again p).")], "results of stack operators dropped", "C44", "C45", "C56")
m("X68", "T2Program", "next", [("| Again p' => next cfg fuel' p'\n      end", "| Again p' => Ok (None, p')\n      end")], "next stops after a stack operator", "C43", "C47", "C56", "C59")
m("X69", "T2Program", "run", [("Ok (operation :: operations, p'')", "Ok (operations ++ [operation], p'')")], "operations collected in reverse", "C40", "C56", "C59")
m("X70", "T2Program", "new_program", [("global := global; local := local;\n     stack := [];", "global := local; local := global;\n     stack := [];")], "local and global subroutines swapped", "C46", "C56", "C59")
m("X71", "T2Program", "clear", [("(set_width (set_stack p []) w)", "(set_width p w)")], "the stack is not cleared", "C39", "C56", "C60")
m("X72", "T2Program", "call", [("Ok (set_frames (set_stack p st) code (routine p :: callers p))", "Ok (set_frames p code (routine p :: callers p))")], "the address stays on the stack", "C46", "C47", "C56", "C59")
m("X73", "T2Program", "call", [("code (routine p :: callers p))", "code (callers p))")], "the caller is forgotten", "C46", "C47", "C56", "C59")
m("X74", "T2Program", "roll", [("let* n := neg_i32 cfg shift in\n        Z.iter n", "let* n := neg_i32 cfg shift in\n        Z.iter (n + 1)")], "roll downwards one position too far", "C45", "C56")
m("X75", "T2Program", "execute", [("let* n := add_u64 cfg (stems p) (Z.shiftr (Z.of_nat (length (stack p))) 1) in\n      clear o", "let* n := add_u64 cfg 0 (Z.shiftr (Z.of_nat (length (stack p))) 1) in\n      clear o")], "stems of earlier operators forgotten", "C41", "C56")
m("X76", "T2Program", "execute", [("| T2_Dup => with_stack p (let* x := read_from_top 0 (stack p) in Ok (push x (stack p)))", "| T2_Dup => with_stack p (let* x := read_from_top 0 (stack p) in Ok (push x (push x (stack p))))")], "dup makes two copies", "C45", "C56", "C60")
m("X77", "T2Program", "set_stack", [("stack := st; stems := stems p; width := width p |}.", "stack := st; stems := stems p; width := None |}.")], "the width is forgotten", "C42", "C56")
m("X78", "T2Program", "vec_pop", [("| None => Some (x, [])\n      | Some (y, ys) => Some (y, x :: ys)", "| None => Some (x, [])\n      | Some (y, ys) => Some (x, xs)")], "popping at the bottom", "C44", "C45", "C56")
m("X79", "Tables", "standard_strings", [('"Semibold"', '"SemiBold"')], "a standard string misspelt", "C19")
m("X80", "Utf8", "is_continuation", [("between 0x80 0xbf (bz b).", "between 0x80 0xff (bz b).")], "any high byte continues a character", "C17", "C18")
m("X81", "Utf8", "between", [("(a <=? z) && (z <=? b)", "(a <=? z) && (z <? b)")], "upper ends of ranges excluded", "C17", "C18")
m("X82", "Utf8", "from_utf8", [("if valid_loop (length s) s then Some s else None.", "Some s.")], "ill-formed names passed through", "C17")
m("X83", "Base", "release_profile", [("{| overflow_checks := false; debug_assertions := false; preallocates := true |}.", "{| overflow_checks := true; debug_assertions := false; preallocates := true |}.")], "overflow checked in release builds (a parameter, not code: no claim depends on the name)")

m("Y01", "Base", "take_vec", [("take_n rd (Z.to_nat (Z.min count (Z.of_nat (length s) + 1))) s", "take_n rd (Z.to_nat (Z.min count (Z.of_nat (length s)))) s")], "vectors cut short accepted", "C16", "C62")
m("Y02", "Base", "peek_u8", [("let* (b, _) := take_u8 s in Ok b", "match s with [] => Ok 0 | b :: _ => Ok (bz b) end")], "no error when there is nothing to look at", "C62")
m("Y03", "C1FontSet", "read_header", [("let* (d, s4) := take_u8 s3 in", "let* (d, s4) := match s3 with [] => Ok (1, []) | _ => take_u8 s3 end in")], "a missing offset size accepted in headers", "C62")
m("Y04", "Base", "rest_at", [("then [] else skipn (Z.to_nat position) data", "then data else skipn (Z.to_nat position) data")], "seeking beyond the end goes to the beginning", "C28", "C62")
m("Y05", "Base", "take_u16", [("| b1 :: b0 :: r => Ok (bz b1 * 2 ^ 8 + bz b0, r)", "| b1 :: b0 :: r => Ok (bz b1 * 2 ^ 8 + bz b0, r)\n  | [b1] => Ok (bz b1, [])")], "a single byte accepted as a 16-bit integer at the end", "C05", "C62")
m("Y06", "C1Number", "parse_loop", [("| [] => Err UnexpectedEof\n  | b :: r =>\n      match on_nibble", "| [] => Ok (buffer, [])\n  | b :: r =>\n      match on_nibble")], "real numbers need no terminator at the end", "C05", "C62")
m("Y07", "C1Number", "read_number", [("let* (x, s2) := parse s1 in Ok (Real x, s2)\n  else Err Other", "let* (x, s2) := parse s1 in Ok (Real x, s2)\n  else Err UnexpectedEof")], "reserved bytes reported as an end of file", "C04", "C62")
m("Y08", "C1Number", "read_offset", [("else if size =? 4 then take_u32 s\n  else Err Other", "else if size =? 4 then take_u32 s\n  else Err UnexpectedEof")], "bad offset sizes reported as an end of file", "C62")
m("Y09", "C1Glyphs", "read_character_set", [("else if format =? 2 then read_character_set2 glyph_count s\n  else Err Other", "else if format =? 2 then read_character_set2 glyph_count s\n  else Err UnexpectedEof")], "unknown formats of character sets reported as an end of file", "C62")
m("Y10", "C1Glyphs", "read_encoding", [("then read_encoding_supplemental cfg s\n  else Err Other", "then read_encoding_supplemental cfg s\n  else Err UnexpectedEof")], "unknown formats of encodings reported as an end of file", "C62")
m("Y11", "C1FontSet", "read_dictionary_encoding", [("else if format =? 3 then read_dictionary_encoding3 cfg s\n  else Err Other", "else if format =? 3 then read_dictionary_encoding3 cfg s\n  else Err UnexpectedEof")], "unknown formats of selectors reported as an end of file", "C36", "C62")
m("Y12", "T2Number", "read_operand", [("Ok (f32_of_q32 (as_i32 w), s2)\n  else Err Other", "Ok (f32_of_q32 (as_i32 w), s2)\n  else Err UnexpectedEof")], "operators read as operands reported as an end of file", "C38")
m("Y13", "C1Index", "read_index", [("    | _ => Err Other\n    end.", "    | _ => Err UnexpectedEof\n    end.")], "a wrong first offset reported as an end of file", "C62")
m("Y14", "C1Index", "read_elements", [("if o2 <? o1 then Err Other", "if o2 <? o1 then Err UnexpectedEof")], "decreasing offsets reported as an end of file", "C62")
m("Y15", "C1Operation", "read_operation_loop", [("let* o := operator_from code in", "let* o := match operator_from code with Err _ => Err UnexpectedEof | o => o end in")], "unknown operators reported as an end of file", "C12", "C62")
m("Y16", "C1Index", "dictionaries_get", [("| None => Panic IndexOutOfBounds\n    end.\n\n(** The loop", "| None => Err Other\n    end.\n\n(** The loop")], "an error instead of a panic outside an index", "C20")
m("Y17", "C1Glyphs", "read_ranges", [("if found_count <? glyph_count then", "if (found_count <? glyph_count) && (0 <? Z.of_nat (length s)) then")], "ranges end with the input", "C62")
m("Y18", "C1FontSet", "font_set_count", [("let* (n, _) := take_u16 s in\n  Ok n", "match take_u16 s with Ok (n, _) => Ok n | _ => Ok 0 end")], "no names if the file is cut short", "C62")

# A third campaign: the state after errors, their kinds, and how they can be avoided.
m("Z01", "T2Machine", "clearing", [("  | None => raise\n  | Some min =>\n      do! change", "  | None => do! change (fun p => set_stack p []) in raise\n  | Some min =>\n      do! change")], "the stack is emptied before the operands are found wanting", "C67")
m("Z02", "T2Machine", "clearing", [("  | None => raise\n  | Some min =>\n      do! change", "  | None => do! change (fun p => match width p with None => set_width p (Some f32_zero) | Some _ => p end) in raise\n  | Some min =>\n      do! change")], "a width is set although the operands are wanting", "C67")
m("Z03", "T2Machine", "pop_integer", [("then give (i32_of_f32 x) else raise", "then give (i32_of_f32 x) else do! change (fun p => set_stack p (stack p ++ [x])) in raise")], "an operand that is not an integer stays on the stack", "C67")
m("Z04", "T2Machine", "unwinding", [("do! change (fun p => set_frames p r []) in raise", "raise")], "callers are kept when bytes follow endchar in a subroutine", "C67")
m("Z05", "T2Machine", "unwinding", [("do! change (fun p => set_frames p r []) in raise", "do! change (fun p => set_frames p c cs') in raise")], "the caller takes over when bytes follow endchar in a subroutine", "C67", "C68")
m("Z06", "T2Machine", "executing", [("      do! change (fun p => set_stems p n) in\n      clearing o [[equal 2; maybe_modulo 2]]", "      let! r := clearing o [[equal 2; maybe_modulo 2]] in\n      do! change (fun p => set_stems p n) in\n      give r")], "stems counted only after their operands are accepted", "C67")
m("Z07", "T2Machine", "executing", [("      do! change (fun p => set_stems p n) in\n      let! m := pure (add_u64 cfg n 7) in\n      do! take_bytes (Z.shiftr m 3) in\n", "      let! m := pure (add_u64 cfg n 7) in\n      do! take_bytes (Z.shiftr m 3) in\n      do! change (fun p => set_stems p n) in\n")], "stems counted only after the mask is read", "C67")
m("Z08", "T2Machine", "calling", [("  if (i <? 0) || (count <=? i) then raise", "  if (i <? 0) || (count <=? i) then do! change (fun p => set_stack p (stack p ++ [f32_of_i32 address])) in raise")], "the number of a missing subroutine is put back", "C67")
m("Z09", "T2Machine", "calling", [("  if (i <? 0) || (count <=? i) then raise", "  if (i <? 0) || (count <=? i) then do! change (fun p => set_frames p [] (routine p :: callers p)) in raise")], "a missing subroutine is entered as an empty one", "C67", "C68")
m("Z10", "T2Machine", "taking", [("| Err e => (Err e, set_routine p (lost (routine p)))", "| Err e => (Err e, p)")], "reads that fail do not move the cursor", "C67")
m("Z11", "T2Machine", "taking", [("| Err e => (Err e, set_routine p (lost (routine p)))", "| Err e => (Err e, set_routine p [])")], "reads that fail always move to the end", "C67", "C68")
m("Z12", "T2Machine", "taking", [("| Ok (a, r) => (Ok a, set_routine p r)", "| Ok (a, r) => (Ok a, p)")], "reads do not move the cursor", "C67")
m("Z13", "T2Machine", "take_bytes", [("taking (bytes_left left n)", "taking (value_left left n)")], "masks are read the way numbers are", "C67")
m("Z14", "T2Machine", "take_operand", [("  let! first := take 1 take_u8 in\n  if (0x20", "  let! first := peek in\n  do! take 1 take_u8 in\n  if (0x20"), ("    let! w := take 4 take_u32 in give", "    let! w := take 2 take_u32 in give")], "a fixed-point number is read as two bytes as far as the cursor is concerned", "C67")
m("Z15", "T2Machine", "pushing", [("        let! x := take_operand in\n        do! push_any x in\n        pushing fuel'", "        let! x := take_operand in\n        let! st := get stack in\n        do! push_any x in\n        let! code := (fun p => match pushing fuel' p with (Err e, p') => (Err e, set_stack p' st) | r => r end) in\n        give code")], "operands in front of an error are taken back", "C67")
m("Z16", "T2Machine", "round", [("    let! code := (if code =? 0x0c then take 2 take_u16 else take 1 take_u8) in\n    let! o := pure (t2_operator_from code) in\n", "    let! s := get routine in\n    let! code := (if code =? 0x0c then take 2 take_u16 else take 1 take_u8) in\n    let! o := (fun p => match t2_operator_from code with Ok o => (Ok o, p) | Err e => (Err e, set_routine p s) | Panic x => (Panic x, p) | OutOfFuel => (OutOfFuel, p) end) in\n")], "unknown operators are not consumed", "C67", "C68")
m("Z17", "T2Machine", "round", [("(if code =? 0x0c then take 2 take_u16 else take 1 take_u8)", "(if code =? 0x0c then do! take 1 take_u8 in let! b := take 1 take_u8 in give (0x0c00 + b) else take 1 take_u8)")], "the escape byte of half an operator is consumed", "C67", "C68")
m("Z18", "T2Machine", "round", [("  if done r then give (Some None)", "  if done r then raise")], "the end of the code is an error", "C67", "C68")
m("Z19", "T2Machine", "executing", [("  | T2_Random | T2_Put | T2_Get => raise", "  | T2_Random | T2_Put | T2_Get => do! change (fun p => set_stack p []) in raise")], "unsupported operators empty the stack", "C67")
m("Z20", "T2Machine", "executing", [("do! change (fun p => set_frames p c cs) in give None\n      | [] => raise", "do! change (fun p => set_frames p c cs) in give None\n      | [] => do! change (fun p => set_frames p [] []) in raise")], "a return from the main routine ends it", "C67", "C68")
m("Z21", "T2Machine", "executing", [("T2_Sub => on (let! rhs := pop_any in let! lhs := pop_any in push_any (f32_sub lhs rhs))", "T2_Sub => on (let! st := get stack in if Nat.ltb (length st) 2 then raise else let! rhs := pop_any in let! lhs := pop_any in push_any (f32_sub lhs rhs))")], "sub checks the stack before it pops", "C67")
m("Z22", "T2Machine", "executing", [("      on (let! i := pop_integer in\n          let! x := peek_stack (if 0 <=? i then i else 0) in\n          push_any x)", "      on (let! st := get stack in\n          let! i := pop_integer in\n          let! x := (fun p => match peek_stack (if 0 <=? i then i else 0) p with (Err e, p') => (Err e, set_stack p' st) | r => r end) in\n          push_any x)")], "an index beyond the stack is put back", "C67")
m("Z23", "T2Machine", "rolling", [("  if span <? 0 then raise\n", "  if span <? 0 then do! change (fun p => set_stack p (stack p ++ [f32_of_i32 span])) in raise\n")], "a negative span is put back", "C67")
m("Z24", "T2Machine", "advancing", [("      let! r := round in\n      match r with\n      | Some result => give result\n      | None => advancing fuel'\n      end", "      fun p => match round p with\n      | (Ok (Some result), p') => (Ok result, p')\n      | (Ok None, p') => advancing fuel' p'\n      | (Err Other, p') => advancing fuel' p'\n      | (Err e, p') => (Err e, p')\n      | (Panic x, p') => (Panic x, p')\n      | (OutOfFuel, p') => (OutOfFuel, p')\n      end")], "errors are skipped", "C67", "C68")
m("Z25", "T2Machine", "advancing", [("      | Some result => give result", "      | Some result => do! change (fun p => match result with None => set_frames p [] (callers p) | Some _ => p end) in give result")], "the end of a character string discards what follows", "C67")
m("Z26", "T2Machine", "executing", [("let! no := pop_any in\n          let! yes := pop_any in", "let! yes := pop_any in\n          let! no := pop_any in")], "ifelse with swapped values in the machine", "C67")
m("Z27", "T2Machine", "andthen", [("  | (Err e, p') => (Err e, p')\n", "  | (Err e, p') => (Err e, p)\n")], "errors restore the state", "C67", "C68")
m("Z30", "T2Program", "read_t2_operator", [("let* (code, r) := if code =? 0x0c then take_u16 s else take_u8 s in\n  let* o := t2_operator_from code in", "let* (code, r) := if code =? 0x0c then take_u16 s else take_u8 s in\n  let* o := match t2_operator_from code with Err _ => Err UnexpectedEof | o => o end in")], "unknown operators reported as an end of the code", "C63", "C64", "C65")
m("Z31", "T2Program", "pop", [("  | None => Err Other\n  end.\n\n(** [pop!(bool)]", "  | None => Err UnexpectedEof\n  end.\n\n(** [pop!(bool)]")], "an empty stack reported as an end of the code", "C63", "C64")
m("Z32", "T2Program", "execute", [("      let* (_, r) := take_vec cfg 1 take_byte (Z.shiftr m 3) (routine p) in\n", "      let* (_, r) := match take_vec cfg 1 take_byte (Z.shiftr m 3) (routine p) with Err _ => Err Other | o => o end in\n")], "a mask cut short reported as another error", "C63", "C64", "C65")
m("Z33", "T2Program", "push_operands", [("      let* code := peek_u8 s in\n", "      let* code := match peek_u8 s with Err _ => Err Other | o => o end in\n")], "operands without an operator reported as another error", "C63", "C64", "C65")
m("Z34", "T2Program", "read_t2_operator", [("if code =? 0x0c then take_u16 s else take_u8 s in", "if code =? 0x0c then match take_u16 s with Err _ => Err Other | o => o end else take_u8 s in")], "half an operator reported as another error", "C63", "C64", "C65")
m("Z35", "T2Program", "unwind", [("if done r then unwind c cs' else Err Other", "if done r then unwind c cs' else Err UnexpectedEof")], "bytes after endchar in a subroutine reported as an end", "C63", "C64", "C65")
m("Z36", "T2Program", "execute", [("      | c :: cs => Ok (Again (set_frames p c cs))\n      | [] => Err Other", "      | c :: cs => Ok (Again (set_frames p c cs))\n      | [] => Ok (Yield None p)")], "a return from the main routine ends it quietly", "C63", "C65")
m("Z37", "T2Program", "call", [("if (i <? 0) || (count <=? i) then Err Other", "if (i <? 0) || (count <=? i) then Err UnexpectedEof")], "missing subroutines reported as an end", "C63", "C64", "C65")
m("Z38", "T2Program", "step", [("if done (routine p) then Ok (Yield None p)", "if done (routine p) then match stack p with [] => Ok (Yield None p) | _ => Err UnexpectedEof end")], "operands left over at the end are an error", "C52", "C63")
m("Z39", "T2Program", "clear", [("  | None => Err Other\n  | Some min =>", "  | None => match stack p with [] => Err UnexpectedEof | _ => Err Other end\n  | Some min =>")], "operators without operands reported as an end", "C63", "C64", "C65")
m("Z40", "T2Program", "execute", [("| T2_Random | T2_Put | T2_Get => Err Other", "| T2_Random | T2_Put | T2_Get => with_stack p (Ok [])")], "unsupported operators empty the stack and continue", "C63", "C65")
m("Z41", "T2Program", "roll", [("else if length <? span then Err Other", "else if length <? span then Ok st")], "a roll of more than the stack does nothing", "C63", "C65")
m("Z42", "T2Program", "pop_i32", [("      if f32_eqb (f32_of_i32 (i32_of_f32 value)) value then Ok (i32_of_f32 value, st')\n      else Err Other", "      if f32_eqb (f32_of_i32 (i32_of_f32 value)) value then Ok (i32_of_f32 value, st')\n      else Err UnexpectedEof")], "fractions in place of integers reported as an end", "C63", "C64")
m("Z43", "T2Program", "execute", [("| T2_HStem | T2_VStem | T2_HStemHM | T2_VStemHM =>", "| T2_HStem | T2_VStem => clear o [[equal 2; maybe_modulo 2]] p\n  | T2_HStemHM | T2_VStemHM =>")], "hstem and vstem not counted", "C41", "C65")
m("Z44", "C1Index", "read_elements", [("if o2 <? o1 then Err Other", "if o2 <? o1 then Ok ([], s)")], "decreasing offsets end an index", "C15")
m("Z50", "C1Index", "read_elements", [("Ok (chunk :: chunks, s2)", "Ok (chunk :: chunk :: chunks, s2)")], "every element of an index twice", "C15", "C57")
m("Z51", "C1FontSet", "read_privates", [("Ok (record :: records)", "Ok (record :: record :: records)")], "every private dictionary twice", "C57")
m("Z52", "C1FontSet", "read_font", [("encodings := encodings g ++ [enc];", "encodings := encodings g ++ encodings g ++ [enc];")], "encodings doubled by every font", "C57", "C66")
m("Z53", "C1FontSet", "read_font", [("records := records g ++ [r] |}", "records := records g ++ records g ++ [r] |}")], "records doubled by every font", "C57", "C66")
m("Z54", "T2Number", "read_operand", [("f32_of_q32 (as_i32 w)", "f32_of_i32 (as_i32 w)")], "fixed-point operands read as integers", "C58")
m("Z55", "T2Number", "read_operand", [("f32_of_q32 (as_i32 w)", "f32_of_q32 w")], "fixed-point operands without a sign", "C58")
m("Z56", "C1Index", "read_index", [("    let* (size, s2) := take_u8 s1 in\n", "    let* (size, s2) := match take_u8 s1 with Err _ => Err Other | o => o end in\n")], "an index cut short after its count reported as another error", "C62")
m("Z57", "C1Number", "parse_loop", [("  | [] => Err UnexpectedEof\n  | b :: r =>", "  | [] => Ok (buffer, [])\n  | b :: r =>")], "real numbers end with the input", "C62")
m("Z58", "C1Glyphs", "read_encoding1", [("let* (n, s2) := take_u8 s1 in\n    let* (ranges, s3) := take_vec cfg 2 read_code_range n s2 in", "let* (n, s2) := take_u8 s1 in\n    let* (ranges, s3) := match take_vec cfg 2 read_code_range n s2 with Err UnexpectedEof => Ok ([], []) | o => o end in")], "ranges of codes cut short are left out", "C62")
m("Z59", "C1FontSet", "read_dictionary_encoding3", [("    let* (sentinel, s4) := take_u16 s3 in\n", "    let* (sentinel, s4) := match take_u16 s3 with Err _ => Ok (0, s3) | o => o end in\n")], "a missing sentinel is ignored", "C62")
m("Z60", "C1Operation", "read_operation_loop", [("      let* code := peek_u8 s in\n", "      let* code := match peek_u8 s with Err _ => match operands with [] => Err UnexpectedEof | _ => Err Other end | o => o end in\n")], "operands without an operator reported as another error", "C12", "C62")
# Errors reported early or late (C72).
m("W01", "C1Index", "read_index", [("    match offs with\n    | 1 :: _ =>\n        let* (chunks, s4) := read_elements cfg offs s3 in\n        Ok (", "    let* (chunks, s4) := read_elements cfg offs s3 in\n    match offs with\n    | 1 :: _ =>\n        Ok (")], "the first offset checked after the elements are read", "C72")
m("W02", "C1Index", "read_index", [("    match offs with\n    | 1 :: _ =>\n", "    let fix ok (l : list Z) := match l with a :: ((b :: _) as r) => (a <=? b) && ok r | _ => true end in\n    if negb (ok offs) then Err Other else\n    match offs with\n    | 1 :: _ =>\n")], "all offsets checked before an element is read", "C72")
m("W03", "C1Index", "read_index", [("    match offs with\n    | 1 :: _ =>\n", "    if Z.of_nat (length s3) <? last offs 1 - 1 then Err UnexpectedEof else\n    match offs with\n    | 1 :: _ =>\n")], "the last offset compared with the end of the tape first", "C72")
m("W04", "C1Index", "read_index", [("    let* (offs, s3) := take_n", "    if ((size <? 1) || (4 <? size)) && (match s2 with [] => true | _ => false end) then Err UnexpectedEof else\n    let* (offs, s3) := take_n")], "an unknown offset size rejected only if something follows", "C72")
m("W06", "C1Index", "read_character_strings", [("  if format =? 2 then read_index cfg s else Err Other.", "  let* (x, r) := read_index cfg s in\n  if format =? 2 then Ok (x, r) else Err Other.")], "the format of the character strings checked after reading them", "C72")
m("W07", "C1FontSet", "read_cid", [("  | Some [operand0; operand1; operand2] =>\n", "  | Some [operand0; operand1; operand2] =>\n      let* r := string_id_of_number operand0 in\n      let* o := string_id_of_number operand1 in\n"), ("      let* records := read_privates cfg tape position opss in\n      let* r := string_id_of_number operand0 in\n      let* o := string_id_of_number operand1 in\n", "      let* records := read_privates cfg tape position opss in\n")], "registry and ordering checked first", "C72")
m("W08", "C1FontSet", "read_font_set", [("  let* opss := dictionaries_try_into cfg dictionaries in\n  let* (strings, s3) := read_index cfg s2 in\n  let* (subroutines, _) := read_index cfg s3 in\n", "  let* (strings, s3) := read_index cfg s2 in\n  let* (subroutines, _) := read_index cfg s3 in\n  let* opss := dictionaries_try_into cfg dictionaries in\n")], "the top dictionaries decoded after all indices are read", "C72")
m("W10", "C1Glyphs", "read_encoding", [("  else if 0 <? Z.land format 0x80 then read_encoding_supplemental cfg s\n  else Err Other.", "  else if 0 <? Z.land format 0x80 then read_encoding_supplemental cfg s\n  else match s with [_] => Err UnexpectedEof | _ => Err Other end.")], "unknown encodings rejected after the count", "C72")
m("W11", "C1FontSet", "read_dictionary_encoding", [("  else if format =? 3 then read_dictionary_encoding3 cfg s\n  else Err Other.", "  else if format =? 3 then read_dictionary_encoding3 cfg s\n  else match s with [_] | [_; _] => Err UnexpectedEof | _ => Err Other end.")], "unknown selectors rejected after the count", "C72")
m("W12", "C1Glyphs", "read_character_set", [("  else if format =? 2 then read_character_set2 glyph_count s\n  else Err Other.", "  else if format =? 2 then read_character_set2 glyph_count s\n  else if Z.of_nat (length s) <? 2 * glyph_count - 1 then Err UnexpectedEof else Err Other.")], "unknown character sets rejected once they could be complete", "C72")
m("W13", "C1FontSet", "read_font", [("  let* offset := need_single ops Op_CharStrings in\n", "  let* set_offset := need_single ops Op_CharSet in\n  let* offset := need_single ops Op_CharStrings in\n"), ("  let* offset := need_single ops Op_CharSet in\n  let* set :=", "  let offset := set_offset in\n  let* set :=")], "the operand of charset checked first", "C72")
m("W14", "C1FontSet", "read_cid", [("      let* offset := need_single top Op_FDSelect in\n", "      let* array := need_single top Op_FDArray in\n      let* offset := need_single top Op_FDSelect in\n"), ("      let* offset := need_single top Op_FDArray in\n", "      let offset := array in\n")], "the operand of FDArray checked first", "C72")
m("W18", "C1Glyphs", "read_character_set0", [("    let* n := sub_usize cfg glyph_count 1 in\n", "    if (glyph_count =? 0) && negb (overflow_checks cfg) && negb (preallocates cfg) then Err Other else\n    let* n := sub_usize cfg glyph_count 1 in\n")], "no glyphs rejected where this was not a panic", "C72")
m("W19", "C1FontSet", "read_private", [("  let* (chunk, _) := take_vec cfg 1 take_byte (as_usize size) s in\n", "  if (size <? 0) && negb (preallocates cfg) then Err Other else\n  let* (chunk, _) := take_vec cfg 1 take_byte (as_usize size) s in\n")], "negative sizes rejected where this was not a panic", "C72")
m("W20", "C1FontSet", "read_private", [("  let* another := try_single ops Op_Subrs in\n", "  let* another := match try_single ops Op_Subrs with Err _ => Err UnexpectedEof | o => o end in\n")], "a real number for Subrs reported as an end", "C72")
m("W21", "C1FontSet", "need_single", [("  | Some (Real _) => Err Other\n  | None => Err Other\n  end.\n\n(** [get!(@try", "  | Some (Real _) => Err Other\n  | None => Err UnexpectedEof\n  end.\n\n(** [get!(@try")], "missing operands reported as an end", "C62", "C72")
m("W22", "C1FontSet", "font_set_count", [("  let* (n, _) := take_u16 s in\n  Ok n.", "  let* (n, r) := take_u16 s in\n  match r with [] => if n =? 0 then Ok n else Err UnexpectedEof | _ => Ok n end.")], "counting needs a byte behind the count", "C72", "C30")
# The tape (C69, C70).
m("TP01", "C1Tape", "taken", [("  Ok (a, here + (Z.of_nat (length s) - Z.of_nat (length r))).", "  Ok (a, here + Z.of_nat (length s)).")], "the tape left at the end", "C69")
m("TP02", "C1Tape", "private_taken", [("      let* here := jumped cfg position sum in\n", "      let* here := jumped cfg here sum in\n")], "subroutines relative to the end of the dictionary", "C69")
m("TP03", "C1Tape", "private_taken", [("  | None => Ok ({| private_operations := ops; private_subroutines := empty_index |}, here)", "  | None => Ok ({| private_operations := ops; private_subroutines := empty_index |}, position)")], "the tape put back after a dictionary without subroutines", "C69")
m("TP04", "C1Tape", "privates_taken", [("  | [] => Ok ([], here)\n", "  | [] => Ok ([], position)\n")], "the tape put back after the last private dictionary", "C69")
m("TP05", "C1Tape", "cid_taken", [("      let* (records, here) := privates_taken cfg tape position here opss in\n", "      let* (records, _) := privates_taken cfg tape position here opss in\n")], "the tape left behind the font dictionaries", "C69")
m("TP07", "C1Tape", "fonts_taken", [("  | [] => Ok (g, here)\n", "  | [] => Ok (g, position)\n")], "the tape put back after the last font", "C69")
m("TP08", "C1Tape", "font_set_taken", [("  let* (subroutines, here) := taken (read_index cfg) tape here in\n  let* (g, here)", "  let* (subroutines, _) := taken (read_index cfg) tape here in\n  let* (g, here)")], "the tape left in front of the subroutines if there are no fonts", "C69")
m("TP09", "C1Tape", "count_taken", [("  let* here := jumped cfg position (header_size h) in\n  taken take_u16 tape here.", "  taken take_u16 tape here.")], "counting right behind the four bytes of the header", "C69", "C70")
m("TP10", "C1Tape", "count_taken", [("  taken take_u16 tape here.", "  let* (n, _) := taken take_u16 tape here in\n  Ok (n, position).")], "counting puts the tape back", "C70")
m("TP11", "C1Tape", "count_taken", [("  taken take_u16 tape here.", "  let* (n, _) := taken take_u16 tape here in\n  Ok (n, here).")], "counting leaves the tape behind the header", "C70")
m("TP12", "C1Tape", "fonts_taken", [("      let* (g', here) := font_taken cfg tape position i ops g in\n", "      let* (g', _) := font_taken cfg tape position i ops g in\n")], "the tape left behind the global subroutines", "C69")
m("TP13", "C1Tape", "record_taken", [("    Ok (CharacterNameKeyed r, here).", "    Ok (CharacterNameKeyed r, here + 1).")], "the tape left one byte further", "C69")
# The rounds of roll (C71).
m("V01", "T2Effort", "counted", [("(body a, k + 1)", "(body a, k + 2)")], "every round counted twice", "C71")
m("V02", "T2Effort", "counted", [("| _ => (m, k) end) (Ok a, 0).", "| _ => (m, k) end) (Ok a, 1).")], "counting from one", "C71")
m("V03", "T2Effort", "roll_counted", [("      | Gt => counted shift (fun", "      | Gt => counted (shift mod span) (fun")], "roll by the shift modulo the span", "C71")
m("V04", "T2Effort", "execute_counted", [("  | _ => (execute cfg o p, 0)", "  | _ => (execute cfg o p, 1)")], "every operator counted", "C71")
m("V05", "T2Effort", "first", [("  | Err e => (Err e, 0)", "  | Err e => (Err e, 1)")], "errors counted", "C71")
m("V06", "T2Effort", "roll_counted", [("      | Lt =>\n          first (neg_i32 cfg shift) (fun n =>\n            counted n ", "      | Lt =>\n          first (neg_i32 cfg shift) (fun n =>\n            counted (n mod span) ")], "backward roll by the shift modulo the span", "C71")
m("V07", "T2Effort", "roll_counted", [("let* (operand, st) := vec_remove position st in Ok (push operand st)) st)", "let* (operand, st) := pop st in vec_insert position operand st) st)")], "backward roll goes forward", "C71")
m("V08", "T2Effort", "step_counted", [("(Ok (Yield None p), 0)", "(Ok (Yield None p), 1)")], "the end of the code counted", "C71")
m("V09", "T2Effort", "roll_counted", [("    else if length <? span then (Err Other, 0)\n", "    else if length <? span then (Err Other, shift)\n")], "rounds counted for a span beyond the stack", "C71")
m("V10", "T2Effort", "execute_counted", [("in (with_stack p m, k)", "in (with_stack p m, Z.min k 1)")], "a roll counted once", "C71")
# The bytes that are asked for (C73, C74).
m("PL01", "C1Plan", "u16_plan", [("Definition u16_plan : planner Z := fun here =>\n  let! (b1, here) := byte_plan here in\n", "Definition u16_plan : planner Z := fun here =>\n  let! _ := byte_plan (here + 2) in\n  let! (b1, here) := byte_plan here in\n")], "a byte too much asked for", "C73")
m("PL02", "C1Plan", "peek_plan", [("  let! (b, _) := u8_plan here in\n  Done (Ok b).", "  let! (b, here') := u8_plan here in\n  let! _ := u8_plan here' in\n  Done (Ok b).")], "two bytes peeked at", "C73")
m("PL03", "C1Plan", "index_plan", [("  let! (n, here) := u16_plan here in\n  if n =? 0", "  let! (n, here) := u16_plan here in\n  let! _ := u8_plan here in\n  if n =? 0")], "the offset size of empty indices looked at", "C73")
m("PL04", "C1Plan", "private_plan", [("      let! here := Done (jumped cfg position sum) in\n", "      let! here := Done (jumped cfg position another_offset) in\n")], "subroutines relative to the file", "C73")
m("PL05", "C1Plan", "font_plan", [("    else if offset =? 1 then Done (Ok (ExpertEncoding, here))\n", "    else if offset =? 1 then let! _ := u8_plan (position + 1) in Done (Ok (ExpertEncoding, here))\n")], "the format of a predefined encoding looked at", "C73")
m("PL06", "C1Plan", "font_plan", [("    if offset =? 0 then Done (Ok (ISOAdobe, here))\n", "    if offset =? 0 then let! (_, here) := n_plan u16_plan (Z.to_nat (count cs)) here in Done (Ok (ISOAdobe, here))\n")], "a character set read past the predefined one", "C73")
m("PL07", "C1Plan", "font_set_plan", [("  let! (h, _) := header_plan position in\n  let! here := Done (jumped cfg position (header_size h)) in\n  let! (names, here)", "  let! (h, here) := header_plan position in\n  let! (names, here)")], "the size of the header ignored", "C73")
m("PL08", "C1Plan", "font_set_plan", [("  let! (h, _) := header_plan position in\n  let! here := Done (jumped cfg position (header_size h)) in\n  let! (names, here)", "  let! (h, here0) := header_plan position in\n  let! here := Done (jumped cfg position (header_size h)) in\n  let! _ := n_plan byte_plan (Z.to_nat (here - here0)) here0 in\n  let! (names, here)")], "what follows the four bytes of the header skipped by reading", "C73")
m("PL09", "C1Plan", "vec_plan", [("  else n_plan rd (Z.to_nat count) here.", "  else let! _ := n_plan rd (Z.to_nat count) here in n_plan rd (Z.to_nat count) here.")], "every vector read twice", "C74")
m("PL10", "C1Plan", "character_set_plan", [("  if format =? 0 then character_set0_plan cfg glyph_count here\n", "  if format =? 0 then let! _ := character_set0_plan cfg glyph_count here in character_set0_plan cfg glyph_count here\n")], "character sets of format 0 read twice", "C74")
m("PL11", "C1Plan", "fonts_plan", [("      let! (g', here) := font_plan cfg position i ops g in\n", "      let! _ := font_plan cfg position i ops g in\n      let! (g', here) := font_plan cfg position i ops g in\n")], "every font read twice", "C74")
m("PL12", "C1Plan", "privates_plan", [("      let! (record, here) := private_plan cfg position top in\n", "      let! _ := privates_plan cfg position here rest in\n      let! (record, here) := private_plan cfg position top in\n")], "an exponential number of private dictionaries read", "C74")
m("PL13", "C1Plan", "count_plan", [("  u16_plan here.", "  let! (x, _) := index_plan cfg here in\n  u16_plan here.")], "counting reads the names", "C73")
m("PL14", "C1Plan", "count_plan", [("  let! (h, _) := header_plan position in\n  let! here := Done (jumped cfg position (header_size h)) in\n  u16_plan here.", "  let! (size, _) := u8_plan (position + 2) in\n  let! here := Done (jumped cfg position size) in\n  u16_plan here.")], "counting looks at the size of the header only", "C73")
m("PL15", "C1Plan", "dictionary_encoding3_plan", [("    let! (sentinel, here) := u16_plan here in\n", "    let! (sentinel, here) := u16_plan here in\n    let! _ := u8_plan here in\n")], "a byte behind the sentinel looked at", "C73")
m("PL16", "C1Plan", "elements_plan", [("        let! (chunk, here) := vec_plan cfg 1 byte_plan (o2 - o1) here in\n", "        let! (chunk, here') := vec_plan cfg 1 byte_plan (o2 - o1) here in\n        let! _ := elements_plan cfg rest here' in\n        let here := here' in\n")], "elements read over and over", "C74")
m("PL17", "C1Plan", "encoding_plan", [("  else if 0 <? Z.land format 0x80 then encoding_supplemental_plan cfg here\n", "  else if 0 <? Z.land format 0x80 then let! _ := encoding0_plan cfg (here + 1) in encoding_supplemental_plan cfg here\n")], "a supplemental encoding preceded by another", "C73")
m("PL18", "C1Plan", "carried_out", [("      | Some b => let (o, asked) := carried_out tape (k b) in (o, p :: asked)", "      | Some b => let (o, asked) := carried_out tape (k b) in (o, asked)")], "only the missing byte counted", "C73")
m("PL19", "C1Plan", "byte_at", [(":= hd_error (rest_at tape p).", ":= if Z.of_nat (length tape) =? p + 1 then None else hd_error (rest_at tape p).")], "the length of the tape looked at", "C73")
m("PL20", "C1Plan", "cid_plan", [("      let! (dictionaries, here) := index_plan cfg here in\n", "      let! (dictionaries, here) := index_plan cfg here in\n      let! _ := privates_plan cfg position here [top] in\n")], "the private dictionary of the font itself read too", "C73")
# Subroutines that are not called (C75) and places (C31).
m("CA01", "T2Program", "call", [("  let* i := add_i32 cfg address (bias count) in", "  let* i := add_i32 cfg address (bias (Z.of_nat (length (local p)))) in")], "the bias of the local subroutines for all calls", "C46", "C75")
m("CA02", "T2Program", "call", [("  if (i <? 0) || (count <=? i) then Err Other\n  else\n    match nth_error subroutines (Z.to_nat i) with", "  if (i <? 0) || (count =? 0) then Err Other\n  else\n    match nth_error subroutines (Z.to_nat (Z.min i (count - 1))) with")], "numbers beyond the last subroutine call it", "C46", "C75")
m("CA03", "T2Program", "execute", [("      | [] => Err Other\n      end\n\n  (* operator", "      | [] => match local p with [] => Err Other | _ => Ok (Yield None p) end\n      end\n\n  (* operator")], "return ends a character string that has local subroutines", "C49", "C75")
m("CA04", "T2Program", "execute", [("  | T2_CallGSubr => let* p := call cfg (global p) p in Ok (Again p)", "  | T2_CallGSubr => let* p := call cfg (if done (concat (global p)) then local p else global p) p in Ok (Again p)")], "global calls fall back on the local subroutines", "C46", "C75")
m("CA05", "T2Program", "step", [("  if done (routine p) then Ok (Yield None p)", "  if done (routine p) || (2 ^ 31 <=? Z.of_nat (length (local p))) then Ok (Yield None p)")], "nothing executed with 2^31 local subroutines or more", "C75")
m("EM01", "C1FontSet", "font_set_count", [("  let* s := jump cfg tape position (header_size h) in\n  let* (n, _) := take_u16 s in", "  let* s := jump cfg tape 0 (header_size h) in\n  let* (n, _) := take_u16 s in")], "counting at the beginning of the tape", "C30", "C31")
m("EM02", "C1FontSet", "read_cid", [("      let* offset := need_single top Op_FDArray in\n      let* s := jump cfg tape position offset in", "      let* offset := need_single top Op_FDArray in\n      let* s := jump cfg tape 0 offset in")], "font dictionaries relative to the beginning of the tape", "C28", "C31")
m("EM03", "C1FontSet", "read_private", [("      let* s' := jump cfg tape position sum in", "      let* s' := jump cfg tape position another_offset in")], "subroutines relative to the font set", "C28")
m("EM04", "C1FontSet", "read_font", [("    else\n      let* s := jump cfg tape position offset in\n      let* (enc, _) := read_encoding cfg s in\n      Ok enc in", "    else\n      let* s := jump cfg tape 0 offset in\n      let* (enc, _) := read_encoding cfg s in\n      Ok enc in")], "encodings relative to the beginning of the tape", "C28", "C31")
m("EM05", "C1FontSet", "read_font_set", [("  let* (h, _) := read_header (rest_at tape position) in\n  let* s := jump cfg tape position (header_size h) in\n  let* (names", "  let* (h, _) := read_header (rest_at tape position) in\n  if negb (position =? 0) && negb (major h =? 1) then Err Other else\n  let* s := jump cfg tape position (header_size h) in\n  let* (names")], "the version looked at in embedded font sets only", "C28", "C31")
m("NE01", "T2Program", "call", [("    | Some code => Ok (set_frames (set_stack p st) code (routine p :: callers p))", "    | Some code => Ok (set_frames (set_stack p st) code (if done (routine p) then callers p else routine p :: callers p))")], "a call at the end of a routine replaces the routine", "C46", "C47", "C78")
m("NE02", "T2Program", "call", [("  if (i <? 0) || (count <=? i) then Err Other\n", "  if (i <? 0) || (count <=? i) || (10 <=? Z.of_nat (length (callers p))) then Err Other\n")], "more than ten nested calls refused", "C46", "C47", "C78")
m("NE03", "T2Program", "execute", [("      | c :: cs => Ok (Again (set_frames p c cs))\n      | [] => Err Other", "      | [c] => Ok (Again (set_frames p c []))\n      | _ :: c :: cs => Ok (Again (set_frames p c cs))\n      | [] => Err Other")], "return leaves two routines", "C47", "C78")
m("NE04", "T2Program", "execute", [("      | c :: cs => Ok (Again (set_frames p c cs))\n      | [] => Err Other", "      | c :: cs => Ok (Again (set_frames p c (c :: cs)))\n      | [] => Err Other")], "return does not take the caller", "C47", "C50", "C78")
m("KE01", "C1FontSet", "read_header", [("minor := b;", "minor := 0;")], "the minor version is dropped", "C28", "C77")
m("KE02", "C1FontSet", "read_dictionary_encoding3", [("DictFormat3 format n ranges sentinel", "DictFormat3 format n ranges (Z.min sentinel n)")], "the sentinel is clamped", "C77")
m("KE03", "C1Glyphs", "read_encoding_supplemental", [("EncSupplemental format n supplements", "EncSupplemental (Z.land format 0x80) n supplements")], "the low bits of the format are masked", "C26", "C77")
m("KE04", "C1Glyphs", "read_character_set0", [("    Ok (CharSetFormat0 format glyphs, s2)", "    Ok (CharSetFormat0 format (map (fun g => if 390 <? g then g else Z.max g 1) glyphs), s2)")], "standard strings below 1 are replaced", "C22", "C77")
m("KE05", "C1Index", "read_index", [("        Ok ({| count := n; offset_size := size;", "        Ok ({| count := n; offset_size := 4;")], "the offset size is normalised", "C14", "C77")
m("KE06", "C1Index", "read_index", [("data := chunks |}, s4)", "data := map (fun c => match c with x0e :: c' => c' | _ => c end) chunks |}, s4)")], "a leading byte of an element is dropped", "C14", "C76", "C77")
m("KE07", "C1Index", "read_index", [("  if n =? 0 then Ok (empty_index, s1)", "  if n =? 0 then Ok (empty_index, tl s1)")], "an empty index takes one more byte", "C15", "C77")
m("DV01", "C1Plan", "encoding1_plan", [("  if negb (format =? 1) then Done (Err Other)\n  else\n    let! (n, here) := u8_plan here in\n    let! (ranges, here) := vec_plan cfg 2 code_range_plan", "  if false then Done (Err Other)\n  else\n    let! (n, here) := u8_plan here in\n    let! (ranges, here) := vec_plan cfg 2 code_range_plan")], "the format is not looked at again", "C80")
m("DV02", "C1Plan", "dictionary_encoding3_plan", [("  if negb (format =? 3) then Done (Err Other)\n", "  if false then Done (Err Other)\n")], "the format is not looked at again", "C80")
m("DV03", "C1Plan", "dictionary_encoding0_plan", [("then Done (Panic DebugAssertion)", "then Done (Err Other)")], "an error in place of the assertion", "C80")
m("DV04", "C1Plan", "encoding_plan", [("  let! format := peek_plan here in\n  if format =? 0 then encoding0_plan cfg here", "  let! format := peek_plan here in\n  let! format := peek_plan here in\n  if format =? 0 then encoding0_plan cfg here")], "the format is asked for twice", "C73", "C79")
m("DV05", "C1Plan", "index_plan", [("    let! (size, here) := u8_plan here in\n    let! (offs, here) :=", "    let! (size, _) := u8_plan here in\n    let! (size', here) := u8_plan here in\n    let! (offs, here) :=")], "the size of the offsets is asked for twice", "C73", "C80")
m("DV06", "C1Plan", "encoding0_plan", [("    let! (codes, here) := vec_plan cfg 1 u8_plan n here in\n    Done (Ok (EncFormat0 format n codes, here)).", "    let! (codes, here) := vec_plan cfg 1 u8_plan n here in\n    let! (n, _) := u8_plan (here - n - 1) in\n    Done (Ok (EncFormat0 format n codes, here)).")], "the number of codes is asked for again at the end", "C73", "C80")
m("DV07", "C1Plan", "thereafter", [("| Ask p next => Ask p (fun b => thereafter (next b) k)", "| Ask p next => Ask p (fun _ => Ask p (fun b => thereafter (next b) k))")], "every request is made twice", "C73", "C79")
m("ER01", "T2Effort", "roll_counted", [("hen (Err Other, 0)\n    else if 0 ", "hen (Err Other, 1)\n    else if 0 ")], "a rejected roll counts one move", "C71")
m("RW01", "T2Program", "execute", [("read_from_top (if 0 <=? i then i else 0) st", "read_from_top (Z.abs i) st")], "a negative index counts from the top as well", "C45", "C81")
m("RW02", "T2Program", "roll", [("  else if 0 <? span then\n", "  else if (0 <? span) && (Z.abs shift <? span) then\n")], "a roll by the span or more is not executed", "C45", "C81")
m("RW03", "T2Program", "execute", [("         Ok (push lhs (push rhs st)))", "         Ok (push rhs (push rhs st)))")], "exch duplicates the top", "C45", "C81")
m("RW04", "T2Program", "execute", [("         Ok (push_bool (f32_eqb lhs rhs) st))", "         Ok (push_bool (f32_leb lhs rhs) st))")], "eq is less or equal", "C44", "C81")
m("RW05", "T2Program", "step", [("    let* ((st, code), r) := push_operands (S (length (routine p))) (stack p) (routine p) in\n", "    let* ((st, code), r) := push_operands (S (length (routine p))) (stack p) (routine p) in\n    if Nat.ltb 48 (length st) then Err Other else\n")], "more than 48 operands refused", "C39", "C81")
m("RW06", "T2Program", "push_operands", [("      let* code := peek_u8 s in\n", "      if Nat.leb 2 (length st) && done s then Ok ((st, 0x0e), [x0e]) else\n      let* code := peek_u8 s in\n")], "numbers at the end are taken for an endchar", "C41", "C81")
m("RW07", "Float", "f32_neg", [("Definition f32_neg : f32 -> f32 := SFopp.", "Definition f32_neg : f32 -> f32 := fun x => SFsub prec emax (S754_zero false) x.")], "neg is 0 minus x", "C44", "C81")
m("RW08", "T2Program", "unwind", [("  | c :: cs' => if done r then unwind c cs' else Err Other", "  | c :: cs' => if Nat.leb (length r) 1 then unwind c cs' else Err Other")], "a byte may remain in a routine at endchar", "C48", "C81")
m("WD01", "T2Program", "clear", [("        if Nat.ltb 0 min && match width p", "        if negb match o with T2_HStem | T2_VStem | T2_HStemHM | T2_VStemHM | T2_HintMask | T2_CntrMask => true | _ => false end && Nat.ltb 0 min && match width p")], "hint operators do not take the width", "C42", "C84")
m("WD02", "T2Program", "execute", [("        match vec_pop (stack p), width p with\n        | Some (top, _), None => Some top", "        match stack p, width p with\n        | top :: _, None => Some top")], "endchar takes the bottom of the stack for the width", "C42")
m("WD03", "T2Program", "execute", [("        | Some (top, _), None => Some top\n        | _, w => w", "        | Some (top, _), _ => Some top\n        | _, w => w")], "endchar overwrites the width", "C42")
m("WD04", "T2Program", "clear", [("        if Nat.ltb 0 min && match width p", "        if Nat.eqb 1 min && match width p")], "a width only if it is the only surplus argument", "C42")
m("WD05", "T2Program", "clear", [("        else Ok (width p) in", "        else Ok (match width p with None => Some f32_zero | w => w end) in")], "the first operator without a surplus sets the width to zero", "C42", "C84")
m("DP01", "T2Program", "roll", [("let position := Z.to_nat (length - span) in", "let position := O in")], "roll turns the whole stack", "C45", "C84")
m("DP02", "T2Program", "read_from_top", [("    match nth_error st (Z.to_nat (length - 1 - index)) with", "    match nth_error st (Z.to_nat ((length - 1 - index) / 2)) with")], "index looks half as deep", "C45", "C84")
m("DP03", "T2Program", "execute", [("  | T2_RMoveTo => clear o [[equal 2]] p", "  | T2_RMoveTo => clear o [[equal 2]; [equal 3]] p")], "rmoveto takes three operands if there are three", "C39", "C84")
m("IN01", "T2Program", "call", [("(bias count)", "(bias (count + 1))")], "the bias of one subroutine more", "C46", "C83")
m("IN02", "T2Program", "call", [("    | Some code => Ok (set_frames", "    | Some [] => Ok (set_stack p st)\n    | Some code => Ok (set_frames")], "calls of empty subroutines are skipped", "C46", "C47")
m("IN03", "T2Program", "execute", [("      | c :: cs => Ok (Again (set_frames p c cs))", "      | c :: cs => Ok (Again (set_frames (set_stack p []) c cs))")], "return clears the stack", "C47", "C83")
m("IN04", "T2Program", "call", [("Ok (set_frames (set_stack p st) code (routine p :: callers p))", "Ok (set_frames (set_stack p []) code (routine p :: callers p))")], "a call clears the stack", "C46", "C47", "C83")
m("IN05", "T2Program", "call", [("Ok (set_frames (set_stack p st) code (routine p :: callers p))", "Ok (set_frames (set_width (set_stack p st) (match width p with None => Some f32_zero | w => w end)) code (routine p :: callers p))")], "no width after the first call", "C42", "C47", "C83")
m("LM01", "T2Program", "call", [("  let* (address, st) := pop_i32 (stack p) in\n", "  if Nat.ltb 10 (length (callers p)) then Err Other else\n  let* (address, st) := pop_i32 (stack p) in\n")], "more than ten nested calls refused", "C46", "C47", "C85")
m("LM02", "T2Program", "step", [("    let* ((st, code), r) := push_operands (S (length (routine p))) (stack p) (routine p) in\n", "    let* ((st, code), r) := push_operands (S (length (routine p))) (stack p) (routine p) in\n    if Nat.ltb 192 (length st) then Err Other else\n")], "more than 192 operands refused", "C39", "C85")
m("LM03", "T2Program", "execute", [("      clear o [[equal 2; maybe_modulo 2]] (set_stems p n)", "      if 96 <? n then Err Other else clear o [[equal 2; maybe_modulo 2]] (set_stems p n)")], "more than 96 stem hints refused", "C39", "C85")
m("LM04", "T2Program", "execute", [("      clear o [[equal 2; maybe_modulo 2]] (set_stems p n)", "      clear o [[equal 2; maybe_modulo 2]] (set_stems p (n + 1))")], "stem operators count one stem too many", "C41", "C85")
m("FI01", "Float", "f32_div", [("f32_div : f32 -> f32 -> f32 := SFdiv prec emax.", "f32_div : f32 -> f32 -> f32 := fun a b => if SFeqb b (S754_zero false) then S754_zero false else SFdiv prec emax a b.")], "division by zero gives zero", "C44", "C82")
m("FI02", "Float", "f32_sqrt", [("f32_sqrt : f32 -> f32 := SFsqrt prec emax.", "f32_sqrt : f32 -> f32 := fun x => SFsqrt prec emax (SFabs x).")], "the root of the absolute value", "C44", "C82")
m("FI03", "Float", "f32_mul", [("f32_mul : f32 -> f32 -> f32 := SFmul prec emax.", "f32_mul : f32 -> f32 -> f32 := fun a b => match SFmul prec emax a b with S754_infinity s => S754_zero s | c => c end.")], "products that overflow give zero", "C44", "C82")
# Dictionaries and font sets written again (C88, C89), outlines (C86) and flat glyphs (C87).
m("RP01", "C1FontSet", "read_font_set", [("  let* (names, s1) := read_index cfg s in\n", "  let* (names, s1) := read_index cfg s in\n  if count names =? 0 then Err Other else\n")], "font sets without names refused", "C28", "C89")
m("RP02", "C1FontSet", "read_font", [("  let* format := need_single ops Op_CharStringType in\n", "  let format := 2 in\n")], "CharStringType not looked at", "C28", "C89")
m("RP03", "C1FontSet", "read_private", [("  | Some another_offset =>\n", "  | Some 0 => Ok {| private_operations := ops; private_subroutines := empty_index |}\n  | Some another_offset =>\n")], "a Subrs offset of zero means none", "C28", "C35")
m("RP04", "C1FontSet", "read_privates", [("      let* records := read_privates cfg tape position rest in\n      Ok (record :: records)", "      let* records := read_privates cfg tape position rest in\n      Ok (records ++ [record])")], "private records in the opposite order", "C34", "C89")
m("RP05", "C1FontSet", "read_cid", [("      let* offset := need_single top Op_FDSelect in", "      let* offset := need_single top Op_FDArray in")], "FDSelect read at FDArray", "C28", "C34", "C89")
m("RP06", "C1FontSet", "read_record", [("  if map_contains ops Op_ROS then", "  if map_contains ops Op_FDArray then")], "the kind of the record follows FDArray", "C33", "C89")
m("RP07", "C1FontSet", "read_font", [("      | Some cs_i => let* (set, _) := read_character_set cfg (count cs_i) s in Ok set", "      | Some cs_i => let* (set, _) := read_character_set cfg (count (hd cs_i css)) s in Ok set")], "the number of glyphs of the first font", "C28", "C89")
m("RP08", "C1FontSet", "read_font", [("    if offset =? 0 then Ok Standard\n", "    if (offset =? 0) || map_contains ops Op_ROS then Ok Standard\n")], "no encoding read for character-ID-keyed fonts", "C28", "C89")
m("HI01", "T2Program", "execute", [("      clear o [[equal 2; maybe_modulo 2]] (set_stems p n)", "      let* st := clear o [[equal 2; maybe_modulo 2]] (set_stems p n) in\n      Ok match st with Yield op q => Yield op (set_stack q (firstn 1 (stack p))) | Again q => Again q end")], "stem operators leave an operand on the stack", "C40", "C86")
m("HI02", "T2Program", "execute", [("      clear o [[equal 2; maybe_modulo 2]] (set_stems p n)", "      clear o [[equal 2; maybe_modulo 2]] (set_width (set_stems p n) (match width p with None => Some f32_zero | w => w end))")], "stem operators settle the width", "C42", "C86")
m("FL01", "T2Program", "unwind", [("  | c :: cs' => if done r then unwind c cs' else Err Other", "  | c :: cs' => unwind c cs'")], "endchar skips the rest of the subroutine", "C48", "C87")
m("DR01", "C1Operation", "map_insert", [("  (o, v) :: filter", "  if match map_get ops o with Some _ => true | None => false end then ops else (o, v) :: filter")], "the first occurrence of an operator is kept", "C10", "C88")
m("DR02", "C1Operation", "get_single", [("  | Some (x :: _) => Some x", "  | Some [x] => Some x")], "several operands where one is expected refused", "C13", "C28")
m("DR03", "C1Operation", "read_operations_loop", [("      | Err UnexpectedEof => Ok ops", "      | Err UnexpectedEof => match s with [] => Ok ops | _ => Err UnexpectedEof end")], "incomplete operations are errors", "C11", "C88")

# Programs that differ only in special cases
m("SC01", "C1FontSet", "read_private", [("  match another with\n  | Some another_offset =>", "  match match another with Some 0 => None | other => other end with\n  | Some another_offset =>")], "an offset of 0 to local subroutines taken for none", "C35", "C91")
m("SC02", "C1FontSet", "read_private", [("take_vec cfg 1 take_byte (as_usize size) s in", "take_vec cfg 1 take_byte (if size <? 0 then 0 else as_usize size) s in")], "a private dictionary of negative size taken for an empty one", "C35", "C37")
m("SC03", "C1FontSet", "read_private", [("  let* (size, offset) := need_double top Op_Private in\n", "  let* (size, offset) := need_double top Op_Private in\n  if size =? 0 then Ok {| private_operations := []; private_subroutines := empty_index |} else\n")], "a private dictionary of size 0 not looked for", "C35", "C91")
m("SC04", "C1FontSet", "read_cid", [("  | Some [operand0; operand1; operand2] =>", "  | Some (operand0 :: operand1 :: operand2 :: _) =>")], "surplus operands of ROS ignored", "C33", "C34")
m("SC05", "C1FontSet", "read_cid", [("Ok {| registry := r; ordering := o;", "Ok {| registry := r; ordering := if o =? r then 0 else o;")], "registry and ordering that are the same string", "C34", "C91")
m("SC06", "C1FontSet", "read_dictionary_encoding3", [("    Ok (DictFormat3 format n ranges sentinel, s4).", "    if sentinel <? n then Err Other else Ok (DictFormat3 format n ranges sentinel, s4).")], "a sentinel below the number of ranges refused", "C36", "C91")
m("SC07", "C1FontSet", "read_font", [("    else if offset =? 1 then Ok ExpertEncoding\n", "    else if (offset =? 1) || (offset =? 2) then Ok ExpertEncoding\n")], "a third predefined encoding", "C28", "C91")
m("SC08", "C1FontSet", "read_font", [("    else if offset =? 2 then Ok ExpertSubset\n", "    else if offset =? 2 then Ok ExpertSubset\n    else if offset <? 0 then Err Other\n")], "negative offsets of character sets refused", "C28")
m("SC09", "C1FontSet", "read_record", [("  if map_contains ops Op_ROS then", "  if map_contains ops Op_ROS && map_contains ops Op_FDArray then")], "a font with ROS and without FDArray taken for a name-keyed one", "C33")
m("SC10", "C1FontSet", "read_font_set", [("  let* (names, s1) := read_index cfg s in\n", "  if header_offset_size h =? 0 then Err Other else\n  let* (names, s1) := read_index cfg s in\n")], "the size of offsets in the header checked", "C28", "C91")
m("SC11", "T2Program", "call", [("    | Some code => Ok (set_frames (set_stack p st) code (routine p :: callers p))", "    | Some code => if Nat.leb 10 (length (callers p)) then Err Other else Ok (set_frames (set_stack p st) code (routine p :: callers p))")], "no more than ten calls within each other", "C84", "C85")
m("SC12", "T2Program", "call", [("    | Some code => Ok (set_frames (set_stack p st) code (routine p :: callers p))", "    | Some code => Ok (set_frames (set_stack p st) code (if done (routine p) then callers p else routine p :: callers p))")], "calls at the end of a subroutine leave no trace", "C46", "C67")
m("SC13", "T2Program", "push_operands", [("        push_operands fuel' (push x st) r", "        if Nat.leb 48 (length st) then Err Other else push_operands fuel' (push x st) r")], "no more than 48 operands", "C85")
m("SC14", "T2Program", "execute", [("        | Some (top, _), None => Some top\n", "        | Some (top, [] ), None => Some top\n        | Some (top, [_; _; _; _]), None => nth_error (stack p) 0\n        | Some (top, _), None => Some top\n")], "endchar with the operands of an accented character takes the width from the bottom", "C42")
m("SC15", "T2Program", "execute", [("      let* (_, r) := take_vec cfg 1 take_byte (Z.shiftr m 3) (routine p) in\n", "      let* (_, r) := take_vec cfg 1 take_byte (if n =? 0 then 1 else Z.shiftr m 3) (routine p) in\n")], "a mask of one byte without stems", "C41")
m("SC16", "T2Program", "execute", [("      | c :: cs => Ok (Again (set_frames p c cs))\n", "      | c :: cs => if done (routine p) then Ok (Again (set_frames p c cs)) else Err Other\n")], "bytes behind return refused", "C46")
m("SC17", "T2Program", "read_from_top", [("  if length <=? index then Err Other", "  if length <? index then Err Other")], "index of the one below the bottom panics", "C45", "C51")
m("SC18", "T2Program", "clear", [("        if Nat.ltb 0 min && match width p with None => true | Some _ => false end then", "        if Nat.eqb 1 min && match width p with None => true | Some _ => false end then")], "no width if there are several surplus operands", "C42")
m("SC19", "T2Program", "step", [("  if done (routine p) then Ok (Yield None p)", "  if done (routine p) && match callers p with [] => true | _ => false end then Ok (Yield None p)")], "the end of a subroutine without return is an error", "C48")
m("SC20", "T2Number", "read_operand", [("Ok (f32_of_i32 (as_i16 w), s2)", "Ok (f32_of_i32 w, s2)")], "three-byte operands unsigned", "C38")
m("SC21", "C1Index", "read_index", [("  let* (n, s1) := take_u16 s in\n  if n =? 0 then Ok (empty_index, s1)", "  let* (n, s1) := take_u16 s in\n  if (n =? 0) || Nat.eqb (length s1) 0 then Ok (empty_index, s1)")], "an index at the very end taken for an empty one", "C14", "C16")
m("SC22", "Float", "f32_of_q32", [("raw (-16) false", "raw (-16) true")], "fixed-point zero negative", "C38", "C58")
m("SC23", "C1Operation", "get_double", [("  | Some (x :: y :: _) => Some (x, y)", "  | Some [x; y] => Some (x, y)")], "surplus operands refused where two are expected", "C13", "C28")
m("SC24", "T2Program", "execute", [("         Ok (push (if f32_leb lhs rhs then yes else no) st))", "         Ok (push (if f32_leb rhs lhs then no else yes) st))")], "ifelse with the comparison turned round", "C44")
m("SC25", "T2Program", "execute", [("         let* x := read_from_top (if 0 <=? i then i else 0) st in", "         let* x := read_from_top (Z.abs i) st in")], "negative operands of index lose their sign", "C45")
m("SC26", "T2Program", "pop_i32", [("if f32_eqb (f32_of_i32 (i32_of_f32 value)) value then", "if f32_eqb (f32_of_i32 (i32_of_f32 value)) value && negb (f32_eqb value (f32_neg f32_zero)) then")], "zero is no integer", "C45", "C46")

# usize of a given width
m("WM01", "C1Word", "word_private", [("let* s := jump cfg tape position offset in\n  let* (chunk", "let* s := jump cfg tape position (word_as_usize w offset) in\n  let* (chunk")], "the offset of a private dictionary cast to usize before it is added", "C92")
m("WM02", "C1Word", "word_font", [("      let* s := jump cfg tape position offset in\n      match nth_error css i with", "      let* s := jump cfg tape position (word_as_usize w offset) in\n      match nth_error css i with")], "the offset of a character set cast to usize before it is added", "C92")
m("WM03", "C1Word", "word_max", [("2 ^ (w - 1) - 1", "2 ^ (w - 1)")], "one byte more than isize::MAX may be reserved", "C92")
m("WM04", "C1Word", "word_max", [("2 ^ (w - 1) - 1", "2 ^ (w / 2) - 1")], "half the width may be reserved", "C92")
m("WM05", "C1Word", "word_vec", [("else take_n rd", "else if word_max w <? count * size then Ok ([], s) else take_n rd")], "too long a vector is read as empty", "C92")
m("WM06", "C1Word", "word_character_set0", [("let* n := word_sub w cfg glyph_count 1 in", "let* n := Ok (Z.max 0 (glyph_count - 1)) in")], "the number of glyphs less one saturates", "C92")
m("WM07", "C1Word", "word_cid", [("let* s := jump cfg tape position offset in\n      let* (enc, _) := word_dictionary", "let* s := jump cfg tape (word_as_usize w position) offset in\n      let* (enc, _) := word_dictionary")], "positions kept as usize", "C92")
m("WM08", "C1Word", "word_elements", [("take_byte (o2 - o1) s", "take_byte (word_as_usize (w / 2) (o2 - o1)) s")], "elements no longer than half a word", "C92")
m("WM09", "C1Word", "word_private", [("let* sum := add_i32 cfg offset another_offset in", "let* sum := word_add w cfg offset another_offset in")], "the offset of subroutines added as usize", "C92")
m("WM10", "C1Word", "word_dictionary_encoding0", [("word_vec w cfg 1 take_u8 glyphs s1", "word_vec w cfg 1 take_u8 (word_as_usize (w / 4) glyphs) s1")], "the number of glyphs cast to a quarter of a word", "C92")
m("WM11", "T2Word", "word_execute", [("let* m := word_add w cfg n 7 in", "let* m := Ok (word_as_usize w (n + 7)) in")], "the sum for the mask wraps", "C93")
m("WM12", "T2Word", "word_execute", [("  | T2_HStem | T2_VStem | T2_HStemHM | T2_VStemHM =>\n      let* n := word_add w cfg", "  | T2_HStem | T2_VStem | T2_HStemHM | T2_VStemHM =>\n      let* n := word_add (w / 4) cfg")], "stems counted in a quarter of a word", "C93")
m("WM13", "T2Word", "word_execute", [("(Z.shiftr m 3)", "(Z.shiftr m (w / 16 - 1))")], "the mask shifted by a number that depends on the width", "C93")
m("WM14", "T2Word", "word_step", [("if done (routine p) then", "if done (routine p) || (word_max w <? stems p) then")], "execution ends when there are too many stems", "C93")
m("WM15", "T2Word", "word_execute", [("  | _ => execute cfg o p\n", "  | T2_EndChar => execute cfg o (set_stack p (firstn (Z.to_nat w) (stack p)))\n  | _ => execute cfg o p\n")], "endchar looks at as many operands as a word has bits", "C93")
m("WM16", "T2Word", "word_execute", [("  | T2_HStem | T2_VStem | T2_HStemHM | T2_VStemHM =>\n      let* n := word_add w cfg", "  | T2_HStem | T2_VStem | T2_HStemHM | T2_VStemHM =>\n      let* n := word_add 64 cfg"), ("  | T2_HintMask | T2_CntrMask =>\n      let* n := word_add w cfg", "  | T2_HintMask | T2_CntrMask =>\n      let* n := word_add 64 cfg"), ("let* m := word_add w cfg n 7", "let* m := word_add 64 cfg n 7")], "stems counted in 64 bits on every machine", "C93")
m("WM17", "T2Word", "word_execute", [("let* m := word_add w cfg n 7", "let* m := word_add w dev_profile n 7")], "the sum for the mask checked in every build", "C93")
m("WM18", "T2Word", "word_execute", [("let* m := word_add w cfg n 7", "let* m := Ok (n + 7)")], "the sum for the mask without a bound", "C93")
m("WM19", "T2Word", "word_execute", [("let* m := word_add w cfg n 7", "let* m := if overflow_checks cfg then word_add w cfg n 7 else Ok ((n + 7) mod 2 ^ 16)")], "the sum for the mask taken in 16 bits by unchecked builds", "C93")
m("WM20", "T2Word", "word_execute", [("let* (_, r) := word_vec w cfg 1 take_byte (Z.shiftr m 3) (routine p) in", "let* (_, r) := (if preallocates cfg then word_vec w cfg 1 take_byte (Z.shiftr m 3) (routine p) else Ok ([], skipn (Z.to_nat (Z.shiftr m 3)) (routine p))) in")], "a mask that is cut short accepted where nothing is allocated", "C93")


# Tables
m("TB01", "Tables", "standard_encoding", [("(64, 33); (65, 34);", "(64, 34); (65, 33);")], "two codes of the standard encoding exchanged", "C24")
m("TB02", "Tables", "expert_encoding", [("(65, 253);", "(65, 0);")], "a code of the expert encoding left out", "C24")
m("TB03", "Tables", "standard_strings", [("(8, \"quoteright\"); ", "(8, \"quotesingle\"); ")], "a wrong standard string", "C18", "C19")
m("TB07", "Tables", "iso_adobe_names", [("(7, \"ampersand\"); (8, \"quoteright\")", "(7, \"ampersand\"); (8, \"quotesingle\")")], "a wrong name in ISOAdobe", "C23")
m("TB04", "Tables", "expert_names", [("(1, \"space\"); (229, \"exclamsmall\"); (230, \"Hungarumlautsmall\")", "(1, \"space\"); (230, \"exclamsmall\"); (229, \"Hungarumlautsmall\")")], "two names of the expert set exchanged", "C23")
m("TB05", "Tables", "expert_subset_names", [("(1, \"space\"); (231, \"dollaroldstyle\"); (232,", "(1, \"space\"); (232,")], "a glyph missing in the expert subset", "C23")
m("TB06", "Tables", "standard_strings", [("(16, \"slash\"); (17, \"zero\"); (18, \"one\");", "(16, \"slash\"); (17, \"zero\"); (18, \"One\");")], "the case of a standard string", "C30", "C24")

# Pieces of the state of a program
m("SS01", "T2Program", "set_stems", [("stems := n; width", "stems := stems p; width")], "the number of stems not stored", "C41")
m("SS02", "T2Program", "set_width", [("stems := stems p; width := w |}", "stems := stems p; width := width p |}")], "the width not stored", "C42")
m("SS03", "T2Program", "set_frames", [("callers := cs; global", "callers := callers p; global")], "the stack of callers not stored", "C46", "C47")
m("SS04", "T2Program", "set_routine", [("routine := r; callers := callers p; global := global p; local := local p;\n     stack := stack p; stems := stems p; width := width p", "routine := r; callers := callers p; global := global p; local := local p;\n     stack := stack p; stems := 0; width := width p")], "the number of stems forgotten whenever something is read", "C41")
m("SS05", "T2Program", "set_stack", [("stack := st; stems := stems p; width := width p", "stack := st; stems := stems p; width := None")], "the width forgotten whenever the stack changes", "C42")
m("SS06", "T2Program", "set_frames", [("global := global p; local := local p;\n     stack := stack p; stems := stems p; width := width p |}.\nDefinition set_stack", "global := global p; local := local p;\n     stack := []; stems := stems p; width := width p |}.\nDefinition set_stack")], "calls clear the stack", "C46", "C47")
m("SS07", "C1Operation", "read_operation", [("read_operation_loop (S (length s)) [] s", "read_operation_loop (S (length s)) [Integer 0] s")], "every operation has a leading zero", "C10", "C12", "C13", "C58")
m("SS08", "C1Operation", "read_operation", [("read_operation_loop (S (length s)) [] s", "read_operation_loop 49 [] s")], "no more than 48 operands", "C12", "C58")
m("SS09", "C1Operation", "read_operations", [("read_operations_loop (S (length s)) [] s", "read_operations_loop (S (length s)) [(Op_CharStringType, [Integer 2])] s")], "the type of charstrings stored even if absent", "C10", "C12", "C13", "C58")
m("SS10", "C1Operation", "read_operations", [("read_operations_loop (S (length s)) [] s", "match s with [] => Err UnexpectedEof | _ => read_operations_loop (S (length s)) [] s end")], "an empty dictionary refused", "C12", "C58")
m("SS11", "Utf8", "from_utf8_lossy", [("from_utf8_lossy (s : list byte) : list byte := lossy_loop (length s) s", "from_utf8_lossy (s : list byte) : list byte := lossy_loop 255 s")], "strings end after 255 characters", "C17", "C18")
m("SS12", "Base", "bind", [("  | Err e => Err e\n", "  | Err e => Err Other\n")], "every failure reported as malformed data", "C16", "C63", "C32")

# Bugs that show only when something is large
m("LG01", "C1Index", "read_index", [("  let* (n, s1) := take_u16 s in\n  if n =? 0 then Ok (empty_index, s1)", "  let* (n, s1) := take_u16 s in\n  let n := as_i16 n in\n  if n =? 0 then Ok (empty_index, s1)")], "the count of an index is signed", "C14")
m("LG02", "C1Number", "read_offset", [("  else if size =? 4 then take_u32 s\n  else Err Other.", "  else if size =? 4 then let* (v, r) := take_u32 s in Ok (as_i32 v, r)\n  else Err Other.")], "offsets of four bytes are signed", "C06")
m("LG03", "C1Number", "parse_loop", [("          | Push low => parse_loop ((buffer ++ high) ++ low) r", "          | Push low => if Nat.ltb 64 (length buffer) then Err Other else parse_loop ((buffer ++ high) ++ low) r")], "literals of more than 64 characters refused", "C03")
m("LG04", "C1Glyphs", "read_ranges", [("(found_count + (1 + left_count range)) s1", "((found_count + (1 + left_count range)) mod 2 ^ 16) s1")], "covered glyphs counted in 16 bits", "C22")
m("LG05", "T2Program", "set_stems", [("stems := n; width", "stems := n mod 256; width")], "stems counted in a byte", "C41")
m("LG06", "Base", "take_vec", [("Z.to_nat (Z.min count", "Z.to_nat (Z.min (Z.min count (2 ^ 16))")], "no more than 65536 elements", "C14", "C35")
m("LG07", "C1Index", "read_elements", [("take_byte (o2 - o1) s", "take_byte (as_u16 (o2 - o1)) s")], "lengths of elements kept in 16 bits", "C14")
m("LG08", "Base", "jump", [("let* target := add_u64 cfg position (as_u64 offset) in", "let* target := add_u64 cfg position (as_u64 (if 2 ^ 24 <=? offset then 0 else offset)) in")], "offsets from 2^24 on taken for zero", "C28")
m("LG09", "C1Operation", "map_insert", [("(o, v) :: filter (fun kv => negb (operator_eqb o (fst kv))) ops.", "(o, v) :: firstn 20 (filter (fun kv => negb (operator_eqb o (fst kv))) ops).")], "dictionaries hold 21 operators", "C10")
m("LG10", "C1FontSet", "read_fonts", [("read_fonts cfg tape position (S i) rest g'", "if Nat.eqb i 255 then Ok g' else read_fonts cfg tape position (S i) rest g'")], "no more than 256 fonts", "C29")
m("LG11", "T2Program", "roll", [("        Z.iter shift\n", "        Z.iter (Z.min shift 1000)\n")], "no more than a thousand rounds of roll", "C45")
m("LG12", "T2Program", "pop_i32", [("      if f32_eqb (f32_of_i32", "      if Z.ltb (Z.abs (i32_of_f32 value)) (2 ^ 30) && f32_eqb (f32_of_i32")], "integers from 2^30 on refused", "C45", "C46")
m("LG13", "C1Index", "strings_get", [("(Z.to_nat (string_id - number_of_standard_strings))", "(Z.to_nat (Z.land string_id 0x7fff - number_of_standard_strings))")], "string identifiers of 15 bits", "C18")
m("LG14", "C1Number", "parse_f32", [("let e := digits_value exponent in", "let e := Z.min 99 (digits_value exponent) in")], "exponents of two digits", "C03")
m("LG15", "C1Number", "parse_f32", [("let m := digits_value (whole ++ fraction) in", "let m := digits_value (firstn 40 (whole ++ fraction)) in")], "digits after the fortieth dropped, not counted", "C03")
m("LG16", "T2Program", "unwind", [("  | c :: cs' => if done r then unwind c cs' else Err Other", "  | c :: cs' => if done r || Nat.ltb 9 (length cs') then unwind c cs' else Err Other")], "trailing data not noticed in deep subroutines", "C48")
m("LG17", "T2Program", "push_operands", [("push_operands fuel' (push x st) r", "push_operands fuel' (if Nat.ltb (length st) 513 then push x st else st) r")], "operands after the 513th dropped", "C39", "C40")
m("LG18", "C1FontSet", "read_dictionary_encoding3", [("let* (n, s2) := take_u16 s1 in", "let* (n, s2) := take_u16 s1 in\n    let n := Z.land n 0xff in")], "ranges counted in a byte", "C28", "C34")

(** C1Word: reading with [usize] of a given width.

    The other files take a [usize] to have 64 bits.  The only places of /repo where its width can be
    noticed while a font set is read are the cast of the size of a private dictionary, the number of
    glyphs less one, and the capacity of a vector; here they are spelt out for a [usize] of [w] bits.
    Offsets and positions are [u64] on every target.  Functions that involve none of these are those
    of the other files. *)
From Verif Require Import Base C1Number C1Operation C1Index C1Glyphs C1FontSet.

(** [as usize]. *)
Definition word_as_usize (w z : Z) : Z := z mod 2 ^ w.

(** [a + b] and [a - b] on [usize]. *)
Definition word_of (w : Z) (cfg : config) (z : Z) : outcome Z :=
  if (0 <=? z) && (z <? 2 ^ w) then Ok z
  else if overflow_checks cfg then Panic ArithmeticOverflow else Ok (word_as_usize w z).
Definition word_add (w : Z) (cfg : config) (a b : Z) : outcome Z := word_of w cfg (a + b).
Definition word_sub (w : Z) (cfg : config) (a b : Z) : outcome Z := word_of w cfg (a - b).

(** [isize::MAX]. *)
Definition word_max (w : Z) : Z := 2 ^ (w - 1) - 1.

(** [tape.take_given::<Vec<T>>(count)] of [typeface]; the loop is cut as in [take_vec]. *)
Definition word_vec {A : Type} (w : Z) (cfg : config) (size : Z) (rd : reader A) (count : Z)
  : reader (list A) := fun s =>
  if preallocates cfg && (word_max w <? count * size) then Panic CapacityOverflow
  else take_n rd (Z.to_nat (Z.min count (Z.of_nat (length s) + 1))) s.

(** The loop over the elements (src/compact1/index/mod.rs:39-46). *)
Fixpoint word_elements (w : Z) (cfg : config) (offs : list Z) (s : list byte)
  : outcome (list (list byte) * list byte) :=
  match offs with
  | o1 :: ((o2 :: _) as rest) =>
      if o2 <? o1 then Err Other
      else
        let* (chunk, s1) := word_vec w cfg 1 take_byte (o2 - o1) s in
        let* (chunks, s2) := word_elements w cfg rest s1 in
        Ok (chunk :: chunks, s2)
  | _ => Ok ([], s)
  end.

(** [<Index as value::Read>::read] (src/compact1/index/mod.rs:19-54). *)
Definition word_index (w : Z) (cfg : config) : reader index := fun s =>
  let* (n, s1) := take_u16 s in
  if n =? 0 then Ok (empty_index, s1)
  else
    let* (size, s2) := take_u8 s1 in
    let* (offs, s3) := take_n (read_offset size) (Z.to_nat (n + 1)) s2 in
    match offs with
    | 1 :: _ =>
        let* (chunks, s4) := word_elements w cfg offs s3 in
        Ok ({| count := n; offset_size := size; offsets := offs; data := chunks |}, s4)
    | _ => Err Other
    end.

(** [<CharacterStrings as walue::Read>::read]
    (src/compact1/index/character_strings.rs:9-18). *)
Definition word_character_strings (w : Z) (cfg : config) (format : Z) : reader index := fun s =>
  if format =? 2 then word_index w cfg s else Err Other.

(** [<CharacterSet0 as walue::Read>::read] (src/compact1/character_set.rs:91-104). *)
Definition word_character_set0 (w : Z) (cfg : config) (glyph_count : Z) : reader character_set := fun s =>
  let* (format, s1) := take_u8 s in
  if negb (format =? 0) then Err Other
  else
    let* n := word_sub w cfg glyph_count 1 in
    let* (glyphs, s2) := word_vec w cfg 2 take_u16 n s1 in
    Ok (CharSetFormat0 format glyphs, s2).

(** [<CharacterSet as walue::Read>::read] (src/compact1/character_set.rs:71-82). *)
Definition word_character_set (w : Z) (cfg : config) (glyph_count : Z) : reader character_set := fun s =>
  let* format := peek_u8 s in
  if format =? 0 then word_character_set0 w cfg glyph_count s
  else if format =? 1 then read_character_set1 glyph_count s
  else if format =? 2 then read_character_set2 glyph_count s
  else Err Other.

(** [<Encoding0 as value::Read>::read] (src/compact1/encoding.rs:16-26). *)
Definition word_encoding0 (w : Z) (cfg : config) : reader encoding := fun s =>
  let* (format, s1) := take_u8 s in
  if negb (format =? 0) then Err Other
  else
    let* (n, s2) := take_u8 s1 in
    let* (codes, s3) := word_vec w cfg 1 take_u8 n s2 in
    Ok (EncFormat0 format n codes, s3).

(** [<Encoding1 as value::Read>::read] (src/compact1/encoding.rs:28-38). *)
Definition word_encoding1 (w : Z) (cfg : config) : reader encoding := fun s =>
  let* (format, s1) := take_u8 s in
  if negb (format =? 1) then Err Other
  else
    let* (n, s2) := take_u8 s1 in
    let* (ranges, s3) := word_vec w cfg 2 read_code_range n s2 in
    Ok (EncFormat1 format n ranges, s3).

(** [<EncodingSupplemental as value::Read>::read] (src/compact1/encoding.rs:40-50). *)
Definition word_encoding_supplemental (w : Z) (cfg : config) : reader encoding := fun s =>
  let* (format, s1) := take_u8 s in
  let* (n, s2) := take_u8 s1 in
  let* (supplements, s3) := word_vec w cfg 4 read_supplement n s2 in
  Ok (EncSupplemental format n supplements, s3).

(** [<Encoding as value::Read>::read] (src/compact1/encoding.rs:83-92). *)
Definition word_encoding (w : Z) (cfg : config) : reader encoding := fun s =>
  let* format := peek_u8 s in
  if format =? 0 then word_encoding0 w cfg s
  else if format =? 1 then word_encoding1 w cfg s
  else if 0 <? Z.land format 0x80 then word_encoding_supplemental w cfg s
  else Err Other.

(** [<Record as walue::Read>::read]
    (src/compact1/font_set/character_name_keyed.rs:16-37) and
    [<RecordInner as walue::Read>::read]
    (src/compact1/font_set/character_id_keyed.rs:97-118). *)
Definition word_private (w : Z) (cfg : config) (tape : list byte) (position : Z) (top : operations)
  : outcome private_record :=
  let* (size, offset) := need_double top Op_Private in
  let* s := jump cfg tape position offset in
  let* (chunk, _) := word_vec w cfg 1 take_byte (word_as_usize w size) s in
  let* ops := read_operations chunk in
  let* another := try_single ops Op_Subrs in
  match another with
  | Some another_offset =>
      let* sum := add_i32 cfg offset another_offset in
      let* s' := jump cfg tape position sum in
      let* (subroutines, _) := word_index w cfg s' in
      Ok {| private_operations := ops; private_subroutines := subroutines |}
  | None => Ok {| private_operations := ops; private_subroutines := empty_index |}
  end.

(** [<Encoding0 as walue::Read>::read]
    (src/compact1/font_set/character_id_keyed.rs:137-151). *)
Definition word_dictionary_encoding0 (w : Z) (cfg : config) (glyphs : Z) : reader dictionary_encoding :=
  fun s =>
  let* (format, s1) := take_u8 s in
  if debug_assertions cfg && negb (format =? 0) then Panic DebugAssertion
  else
    let* (ids, s2) := word_vec w cfg 1 take_u8 glyphs s1 in
    Ok (DictFormat0 format ids, s2).

(** [<Encoding3 as value::Read>::read]
    (src/compact1/font_set/character_id_keyed.rs:43-55). *)
Definition word_dictionary_encoding3 (w : Z) (cfg : config) : reader dictionary_encoding := fun s =>
  let* (format, s1) := take_u8 s in
  if negb (format =? 3) then Err Other
  else
    let* (n, s2) := take_u16 s1 in
    let* (ranges, s3) := word_vec w cfg 4 read_range3 n s2 in
    let* (sentinel, s4) := take_u16 s3 in
    Ok (DictFormat3 format n ranges sentinel, s4).

(** [<Encoding as walue::Read>::read]
    (src/compact1/font_set/character_id_keyed.rs:120-135). *)
Definition word_dictionary_encoding (w : Z) (cfg : config) (glyphs : Z) : reader dictionary_encoding :=
  fun s =>
  let* format := peek_u8 s in
  if format =? 0 then word_dictionary_encoding0 w cfg glyphs s
  else if format =? 3 then word_dictionary_encoding3 w cfg s
  else Err Other.

(** [for top_operations in operations.iter() { records.push(..) }]
    (src/compact1/font_set/character_id_keyed.rs:83-85). *)
Fixpoint word_privates (w : Z) (cfg : config) (tape : list byte) (position : Z) (tops : list operations)
  : outcome (list private_record) :=
  match tops with
  | [] => Ok []
  | top :: rest =>
      let* record := word_private w cfg tape position top in
      let* records := word_privates w cfg tape position rest in
      Ok (record :: records)
  end.

(** [<Record as walue::Read>::read]
    (src/compact1/font_set/character_id_keyed.rs:66-95). *)
Definition word_cid (w : Z) (cfg : config) (tape : list byte) (position : Z) (top : operations)
  (character_strings : index) : outcome cid_record :=
  match operations_get top Op_ROS with
  | Some [operand0; operand1; operand2] =>
      let* offset := need_single top Op_FDSelect in
      let* s := jump cfg tape position offset in
      let* (enc, _) := word_dictionary_encoding w cfg (count character_strings) s in
      let* offset := need_single top Op_FDArray in
      let* s := jump cfg tape position offset in
      let* (dictionaries, _) := word_index w cfg s in
      let* opss := dictionaries_try_into cfg dictionaries in
      let* records := word_privates w cfg tape position opss in
      let* r := string_id_of_number operand0 in
      let* o := string_id_of_number operand1 in
      Ok {| registry := r; ordering := o; cid_supplement := operand2;
            cid_encoding := enc; cid_operations := opss; cid_records := records |}
  | _ => Err Other
  end.

(** [<Record as walue::Read>::read] (src/compact1/font_set/mod.rs:118-137). *)
Definition word_record (w : Z) (cfg : config) (tape : list byte) (position : Z) (ops : operations)
  (character_strings : index) : outcome record :=
  if map_contains ops Op_ROS then
    let* r := word_cid w cfg tape position ops character_strings in
    Ok (CharacterIDKeyed r)
  else
    let* r := word_private w cfg tape position ops in
    Ok (CharacterNameKeyed r).

(** One round of the loop of [FontSet::read] (src/compact1/font_set/mod.rs:78-102). *)
Definition word_font (w : Z) (cfg : config) (tape : list byte) (position : Z)
  (i : nat) (ops : operations) (g : gathered) : outcome gathered :=
  let* offset := need_single ops Op_CharStrings in
  let* s := jump cfg tape position offset in
  let* format := need_single ops Op_CharStringType in
  let* (cs, _) := word_character_strings w cfg format s in
  let css := (character_strings g ++ [cs])%list in
  let* offset := need_single ops Op_CharSet in
  let* set :=
    if offset =? 0 then Ok ISOAdobe
    else if offset =? 1 then Ok ExpertSet
    else if offset =? 2 then Ok ExpertSubset
    else
      let* s := jump cfg tape position offset in
      match nth_error css i with
      | Some cs_i => let* (set, _) := word_character_set w cfg (count cs_i) s in Ok set
      | None => Panic IndexOutOfBounds
      end in
  let* offset := need_single ops Op_Encoding in
  let* enc :=
    if offset =? 0 then Ok Standard
    else if offset =? 1 then Ok ExpertEncoding
    else
      let* s := jump cfg tape position offset in
      let* (enc, _) := word_encoding w cfg s in
      Ok enc in
  match nth_error css i with
  | Some cs_i =>
      let* r := word_record w cfg tape position ops cs_i in
      Ok {| encodings := (encodings g ++ [enc])%list;
            character_sets := (character_sets g ++ [set])%list;
            character_strings := css;
            records := (records g ++ [r])%list |}
  | None => Panic IndexOutOfBounds
  end.

(** [for (i, operations) in operations.iter().enumerate() { .. }]
    (src/compact1/font_set/mod.rs:77-103). *)
Fixpoint word_fonts (w : Z) (cfg : config) (tape : list byte) (position : Z)
  (i : nat) (opss : list operations) (g : gathered) : outcome gathered :=
  match opss with
  | [] => Ok g
  | ops :: rest =>
      let* g' := word_font w cfg tape position i ops g in
      word_fonts w cfg tape position (S i) rest g'
  end.

(** [<FontSet as value::Read>::read] (src/compact1/font_set/mod.rs:65-116) where a [usize] has [w] bits. *)
Definition word_font_set (w : Z) (cfg : config) (tape : list byte) (position : Z) : outcome font_set :=
  let* (h, _) := read_header (rest_at tape position) in
  let* s := jump cfg tape position (header_size h) in
  let* (names, s1) := word_index w cfg s in
  let* (dictionaries, s2) := word_index w cfg s1 in
  let* opss := dictionaries_try_into cfg dictionaries in
  let* (strings, s3) := word_index w cfg s2 in
  let* (subroutines, _) := word_index w cfg s3 in
  let* g := word_fonts w cfg tape position 0 opss
              {| encodings := []; character_sets := []; character_strings := []; records := [] |} in
  Ok {| fs_header := h; fs_names := names; fs_operations := opss; fs_strings := strings;
        fs_subroutines := subroutines;
        fs_encodings := encodings g;
        fs_character_strings := character_strings g;
        fs_character_sets := character_sets g;
        fs_records := records g |}.

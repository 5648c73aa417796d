(** C1Plan: reading font sets (src/compact1/) once more, as a sequence of requests for single
    bytes of the tape.

    In [C1FontSet] a reader is a function of everything that remains on the tape, so that it
    does not say which bytes it has looked at.  Here a reader knows nothing about the tape but
    the answers to its requests.  Everything that is read from memory (dictionaries, names,
    strings) is as in [C1Operation] and [C1Index]. *)
From Verif Require Import Base Float C1Number C1Operation C1Index C1Glyphs C1FontSet C1Tape.

(** ** Requests *)

(** A reader has come to an end, or it asks for the byte at a position and goes on with it. *)
Inductive plan (A : Type) : Type :=
| Done (o : outcome A)
| Ask (p : Z) (k : byte -> plan A).
Arguments Done {A} o.
Arguments Ask {A} p k.

(** The [?] operator. *)
Fixpoint thereafter {A B : Type} (m : plan A) (k : A -> plan B) : plan B :=
  match m with
  | Done (Ok a) => k a
  | Done (Err e) => Done (Err e)
  | Done (Panic w) => Done (Panic w)
  | Done OutOfFuel => Done OutOfFuel
  | Ask p next => Ask p (fun b => thereafter (next b) k)
  end.

Notation "'let!' p ':=' m 'in' k" := (thereafter m (fun p => k))
  (at level 200, p pattern, m at level 100, k at level 200, right associativity).

(** The byte at a position, if the tape is that long. *)
Definition byte_at (tape : list byte) (p : Z) : option byte := hd_error (rest_at tape p).

(** What comes of the requests on a tape, and for which bytes it was asked, in this order.
    Reading where the tape has ended is an [UnexpectedEof]. *)
Fixpoint carried_out {A : Type} (tape : list byte) (m : plan A) : outcome A * list Z :=
  match m with
  | Done o => (o, [])
  | Ask p k =>
      match byte_at tape p with
      | Some b => let (o, asked) := carried_out tape (k b) in (o, p :: asked)
      | None => (Err UnexpectedEof, [p])
      end
  end.

(** A reader is given the position of the tape and returns the one at which it leaves it. *)
Definition planner (A : Type) : Type := Z -> plan (A * Z).

(** ** The part of [typeface] the crate calls (compare [Base]) *)

(** [tape.take::<u8>()], the byte kept as it is. *)
Definition byte_plan : planner byte := fun here => Ask here (fun b => Done (Ok (b, here + 1))).

(** [tape.take::<u8>()]. *)
Definition u8_plan : planner Z := fun here =>
  let! (b, here) := byte_plan here in
  Done (Ok (bz b, here)).

(** [tape.take::<u16>()]. *)
Definition u16_plan : planner Z := fun here =>
  let! (b1, here) := byte_plan here in
  let! (b0, here) := byte_plan here in
  Done (Ok (bz b1 * 2 ^ 8 + bz b0, here)).

(** [tape.take::<[u8; 3]>()]. *)
Definition u8x3_plan : planner (Z * Z * Z) := fun here =>
  let! (b2, here) := byte_plan here in
  let! (b1, here) := byte_plan here in
  let! (b0, here) := byte_plan here in
  Done (Ok ((bz b2, bz b1, bz b0), here)).

(** [tape.take::<u32>()]. *)
Definition u32_plan : planner Z := fun here =>
  let! (b3, here) := byte_plan here in
  let! (b2, here) := byte_plan here in
  let! (b1, here) := byte_plan here in
  let! (b0, here) := byte_plan here in
  Done (Ok (bz b3 * 2 ^ 24 + bz b2 * 2 ^ 16 + bz b1 * 2 ^ 8 + bz b0, here)).

(** [tape.peek::<u8>()]. *)
Definition peek_plan (here : Z) : plan Z :=
  let! (b, _) := u8_plan here in
  Done (Ok b).

(** [for _ in 0..n { values.push(tape.take()?) }] *)
Fixpoint n_plan {A : Type} (rd : planner A) (n : nat) (here : Z) : plan (list A * Z) :=
  match n with
  | O => Done (Ok ([], here))
  | S n' =>
      let! (x, here) := rd here in
      let! (xs, here) := n_plan rd n' here in
      Done (Ok (x :: xs, here))
  end.

(** [tape.take_given::<Vec<T>>(count)]. *)
Definition vec_plan {A : Type} (cfg : config) (size : Z) (rd : planner A) (count : Z) : planner (list A) :=
  fun here =>
  if preallocates cfg && (isize_max <? count * size) then Done (Panic CapacityOverflow)
  else n_plan rd (Z.to_nat count) here.

(** ** Tables *)

(** [<Offset as walue::Read>::read] (src/compact1/offset.rs:10-25). *)
Definition offset_plan (size : Z) : planner Z := fun here =>
  if size =? 1 then u8_plan here
  else if size =? 2 then u16_plan here
  else if size =? 3 then
    let! ((v0, v1, v2), here) := u8x3_plan here in
    Done (Ok (0 * 2 ^ 24 + v0 * 2 ^ 16 + v1 * 2 ^ 8 + v2, here))
  else if size =? 4 then u32_plan here
  else Done (Err Other).

(** The loop over the elements (src/compact1/index/mod.rs:39-46). *)
Fixpoint elements_plan (cfg : config) (offs : list Z) (here : Z) : plan (list (list byte) * Z) :=
  match offs with
  | o1 :: ((o2 :: _) as rest) =>
      if o2 <? o1 then Done (Err Other)
      else
        let! (chunk, here) := vec_plan cfg 1 byte_plan (o2 - o1) here in
        let! (chunks, here) := elements_plan cfg rest here in
        Done (Ok (chunk :: chunks, here))
  | _ => Done (Ok ([], here))
  end.

(** [<Index as value::Read>::read] (src/compact1/index/mod.rs:19-54). *)
Definition index_plan (cfg : config) : planner index := fun here =>
  let! (n, here) := u16_plan here in
  if n =? 0 then Done (Ok (empty_index, here))
  else
    let! (size, here) := u8_plan here in
    let! (offs, here) := n_plan (offset_plan size) (Z.to_nat (n + 1)) here in
    match offs with
    | 1 :: _ =>
        let! (chunks, here) := elements_plan cfg offs here in
        Done (Ok ({| count := n; offset_size := size; offsets := offs; data := chunks |}, here))
    | _ => Done (Err Other)
    end.

(** [<CharacterStrings as walue::Read>::read]
    (src/compact1/index/character_strings.rs:9-18). *)
Definition character_strings_plan (cfg : config) (format : Z) : planner index := fun here =>
  if format =? 2 then index_plan cfg here else Done (Err Other).

(** [<Header as value::Read>::read] (src/compact1/header.rs:5-12). *)
Definition header_plan : planner header := fun here =>
  let! (a, here) := u8_plan here in
  let! (b, here) := u8_plan here in
  let! (c, here) := u8_plan here in
  let! (d, here) := u8_plan here in
  Done (Ok ({| major := a; minor := b; header_size := c; header_offset_size := d |}, here)).

(** [<Range1 as value::Read>::read] (src/compact1/character_set.rs:38-45). *)
Definition range1_plan : planner string_range := fun here =>
  let! (first, here) := u16_plan here in
  let! (more, here) := u8_plan here in
  Done (Ok ({| first_string_id := first; left_count := more |}, here)).

(** [<Range2 as value::Read>::read] (src/compact1/character_set.rs:47-54). *)
Definition range2_plan : planner string_range := fun here =>
  let! (first, here) := u16_plan here in
  let! (more, here) := u16_plan here in
  Done (Ok ({| first_string_id := first; left_count := more |}, here)).

(** [while found_count < glyph_count { .. }]
    (src/compact1/character_set.rs:124-128,155-159).  Every round adds at least
    one to [found_count]; the fuel is the number of rounds allowed. *)
Fixpoint ranges_plan (rd : planner string_range) (fuel : nat) (glyph_count found_count : Z) (here : Z)
  : plan ((list string_range * Z) * Z) :=
  if found_count <? glyph_count then
    match fuel with
    | O => Done OutOfFuel
    | S fuel' =>
        let! (range, here) := rd here in
        let! ((ranges, found), here) :=
          ranges_plan rd fuel' glyph_count (found_count + (1 + left_count range)) here in
        Done (Ok ((range :: ranges, found), here))
    end
  else Done (Ok (([], found_count), here)).

(** [<CharacterSet0 as walue::Read>::read] (src/compact1/character_set.rs:91-104). *)
Definition character_set0_plan (cfg : config) (glyph_count : Z) : planner character_set := fun here =>
  let! (format, here) := u8_plan here in
  if negb (format =? 0) then Done (Err Other)
  else
    let! n := Done (sub_usize cfg glyph_count 1) in
    let! (glyphs, here) := vec_plan cfg 2 u16_plan n here in
    Done (Ok (CharSetFormat0 format glyphs, here)).

(** [<CharacterSet1 as walue::Read>::read] (src/compact1/character_set.rs:113-134). *)
Definition character_set1_plan (glyph_count : Z) : planner character_set := fun here =>
  let! (format, here) := u8_plan here in
  if negb (format =? 1) then Done (Err Other)
  else
    let! ((ranges, found), here) := ranges_plan range1_plan (Z.to_nat glyph_count) glyph_count 1 here in
    if negb (found =? glyph_count) then Done (Err Other)
    else Done (Ok (CharSetFormat1 format ranges, here)).

(** [<CharacterSet2 as walue::Read>::read] (src/compact1/character_set.rs:143-165). *)
Definition character_set2_plan (glyph_count : Z) : planner character_set := fun here =>
  let! (format, here) := u8_plan here in
  if negb (format =? 2) then Done (Err Other)
  else
    let! ((ranges, found), here) := ranges_plan range2_plan (Z.to_nat glyph_count) glyph_count 1 here in
    if negb (found =? glyph_count) then Done (Err Other)
    else Done (Ok (CharSetFormat2 format ranges, here)).

(** [<CharacterSet as walue::Read>::read] (src/compact1/character_set.rs:71-82). *)
Definition character_set_plan (cfg : config) (glyph_count : Z) : planner character_set := fun here =>
  let! format := peek_plan here in
  if format =? 0 then character_set0_plan cfg glyph_count here
  else if format =? 1 then character_set1_plan glyph_count here
  else if format =? 2 then character_set2_plan glyph_count here
  else Done (Err Other).

(** [<Range1 as value::Read>::read] (src/compact1/encoding.rs:52-59). *)
Definition code_range_plan : planner code_range := fun here =>
  let! (first, here) := u8_plan here in
  let! (more, here) := u8_plan here in
  Done (Ok ({| first_code := first; codes_left := more |}, here)).

(** [<Supplement as value::Read>::read] (src/compact1/encoding.rs:61-68). *)
Definition supplement_plan : planner supplement := fun here =>
  let! (code, here) := u8_plan here in
  let! (glyph, here) := u16_plan here in
  Done (Ok ({| supplement_code := code; supplement_glyph := glyph |}, here)).

(** [<Encoding0 as value::Read>::read] (src/compact1/encoding.rs:16-26). *)
Definition encoding0_plan (cfg : config) : planner encoding := fun here =>
  let! (format, here) := u8_plan here in
  if negb (format =? 0) then Done (Err Other)
  else
    let! (n, here) := u8_plan here in
    let! (codes, here) := vec_plan cfg 1 u8_plan n here in
    Done (Ok (EncFormat0 format n codes, here)).

(** [<Encoding1 as value::Read>::read] (src/compact1/encoding.rs:28-38). *)
Definition encoding1_plan (cfg : config) : planner encoding := fun here =>
  let! (format, here) := u8_plan here in
  if negb (format =? 1) then Done (Err Other)
  else
    let! (n, here) := u8_plan here in
    let! (ranges, here) := vec_plan cfg 2 code_range_plan n here in
    Done (Ok (EncFormat1 format n ranges, here)).

(** [<EncodingSupplemental as value::Read>::read] (src/compact1/encoding.rs:40-50). *)
Definition encoding_supplemental_plan (cfg : config) : planner encoding := fun here =>
  let! (format, here) := u8_plan here in
  let! (n, here) := u8_plan here in
  let! (supplements, here) := vec_plan cfg 4 supplement_plan n here in
  Done (Ok (EncSupplemental format n supplements, here)).

(** [<Encoding as value::Read>::read] (src/compact1/encoding.rs:83-92). *)
Definition encoding_plan (cfg : config) : planner encoding := fun here =>
  let! format := peek_plan here in
  if format =? 0 then encoding0_plan cfg here
  else if format =? 1 then encoding1_plan cfg here
  else if 0 <? Z.land format 0x80 then encoding_supplemental_plan cfg here
  else Done (Err Other).

(** [<Range3 as value::Read>::read] (src/compact1/font_set/character_id_keyed.rs:57-64). *)
Definition range3_plan : planner dictionary_range := fun here =>
  let! (first, here) := u16_plan here in
  let! (fd, here) := u8_plan here in
  Done (Ok ({| first_glyph_id := first; dictionary_id := fd |}, here)).

(** [<Encoding0 as walue::Read>::read]
    (src/compact1/font_set/character_id_keyed.rs:137-151). *)
Definition dictionary_encoding0_plan (cfg : config) (glyphs : Z) : planner dictionary_encoding := fun here =>
  let! (format, here) := u8_plan here in
  if debug_assertions cfg && negb (format =? 0) then Done (Panic DebugAssertion)
  else
    let! (ids, here) := vec_plan cfg 1 u8_plan glyphs here in
    Done (Ok (DictFormat0 format ids, here)).

(** [<Encoding3 as value::Read>::read]
    (src/compact1/font_set/character_id_keyed.rs:43-55). *)
Definition dictionary_encoding3_plan (cfg : config) : planner dictionary_encoding := fun here =>
  let! (format, here) := u8_plan here in
  if negb (format =? 3) then Done (Err Other)
  else
    let! (n, here) := u16_plan here in
    let! (ranges, here) := vec_plan cfg 4 range3_plan n here in
    let! (sentinel, here) := u16_plan here in
    Done (Ok (DictFormat3 format n ranges sentinel, here)).

(** [<Encoding as walue::Read>::read]
    (src/compact1/font_set/character_id_keyed.rs:120-135). *)
Definition dictionary_encoding_plan (cfg : config) (glyphs : Z) : planner dictionary_encoding := fun here =>
  let! format := peek_plan here in
  if format =? 0 then dictionary_encoding0_plan cfg glyphs here
  else if format =? 3 then dictionary_encoding3_plan cfg here
  else Done (Err Other).

(** ** Font sets *)

(** [<Record as walue::Read>::read]
    (src/compact1/font_set/character_name_keyed.rs:16-37) and
    [<RecordInner as walue::Read>::read]
    (src/compact1/font_set/character_id_keyed.rs:97-118). *)
Definition private_plan (cfg : config) (position : Z) (top : operations) : plan (private_record * Z) :=
  let! (size, offset) := Done (need_double top Op_Private) in
  let! here := Done (jumped cfg position offset) in
  let! (chunk, here) := vec_plan cfg 1 byte_plan (as_usize size) here in
  let! ops := Done (read_operations chunk) in
  let! another := Done (try_single ops Op_Subrs) in
  match another with
  | Some another_offset =>
      let! sum := Done (add_i32 cfg offset another_offset) in
      let! here := Done (jumped cfg position sum) in
      let! (subroutines, here) := index_plan cfg here in
      Done (Ok ({| private_operations := ops; private_subroutines := subroutines |}, here))
  | None => Done (Ok ({| private_operations := ops; private_subroutines := empty_index |}, here))
  end.

(** [for top_operations in operations.iter() { records.push(..) }]
    (src/compact1/font_set/character_id_keyed.rs:83-85). *)
Fixpoint privates_plan (cfg : config) (position here : Z) (tops : list operations)
  : plan (list private_record * Z) :=
  match tops with
  | [] => Done (Ok ([], here))
  | top :: rest =>
      let! (record, here) := private_plan cfg position top in
      let! (records, here) := privates_plan cfg position here rest in
      Done (Ok (record :: records, here))
  end.

(** [<Record as walue::Read>::read]
    (src/compact1/font_set/character_id_keyed.rs:66-95). *)
Definition cid_plan (cfg : config) (position : Z) (top : operations) (character_strings : index)
  : plan (cid_record * Z) :=
  match operations_get top Op_ROS with
  | Some [operand0; operand1; operand2] =>
      let! offset := Done (need_single top Op_FDSelect) in
      let! here := Done (jumped cfg position offset) in
      let! (enc, here) := dictionary_encoding_plan cfg (count character_strings) here in
      let! offset := Done (need_single top Op_FDArray) in
      let! here := Done (jumped cfg position offset) in
      let! (dictionaries, here) := index_plan cfg here in
      let! opss := Done (dictionaries_try_into cfg dictionaries) in
      let! (records, here) := privates_plan cfg position here opss in
      let! r := Done (string_id_of_number operand0) in
      let! o := Done (string_id_of_number operand1) in
      Done (Ok ({| registry := r; ordering := o; cid_supplement := operand2;
                   cid_encoding := enc; cid_operations := opss; cid_records := records |}, here))
  | _ => Done (Err Other)
  end.

(** [<Record as walue::Read>::read] (src/compact1/font_set/mod.rs:118-137). *)
Definition record_plan (cfg : config) (position : Z) (ops : operations) (character_strings : index)
  : plan (record * Z) :=
  if map_contains ops Op_ROS then
    let! (r, here) := cid_plan cfg position ops character_strings in
    Done (Ok (CharacterIDKeyed r, here))
  else
    let! (r, here) := private_plan cfg position ops in
    Done (Ok (CharacterNameKeyed r, here)).

(** One round of the loop of [FontSet::read] (src/compact1/font_set/mod.rs:78-102). *)
Definition font_plan (cfg : config) (position : Z) (i : nat) (ops : operations) (g : gathered)
  : plan (gathered * Z) :=
  let! offset := Done (need_single ops Op_CharStrings) in
  let! here := Done (jumped cfg position offset) in
  let! format := Done (need_single ops Op_CharStringType) in
  let! (cs, here) := character_strings_plan cfg format here in
  let css := character_strings g ++ [cs] in
  let! offset := Done (need_single ops Op_CharSet) in
  let! (set, here) :=
    if offset =? 0 then Done (Ok (ISOAdobe, here))
    else if offset =? 1 then Done (Ok (ExpertSet, here))
    else if offset =? 2 then Done (Ok (ExpertSubset, here))
    else
      let! here := Done (jumped cfg position offset) in
      match nth_error css i with
      | Some cs_i => character_set_plan cfg (count cs_i) here
      | None => Done (Panic IndexOutOfBounds)
      end in
  let! offset := Done (need_single ops Op_Encoding) in
  let! (enc, here) :=
    if offset =? 0 then Done (Ok (Standard, here))
    else if offset =? 1 then Done (Ok (ExpertEncoding, here))
    else
      let! here := Done (jumped cfg position offset) in
      encoding_plan cfg here in
  match nth_error css i with
  | Some cs_i =>
      let! (r, here) := record_plan cfg position ops cs_i in
      Done (Ok ({| encodings := encodings g ++ [enc];
                   character_sets := character_sets g ++ [set];
                   character_strings := css;
                   records := records g ++ [r] |}, here))
  | None => Done (Panic IndexOutOfBounds)
  end.

(** [for (i, operations) in operations.iter().enumerate() { .. }]
    (src/compact1/font_set/mod.rs:77-103). *)
Fixpoint fonts_plan (cfg : config) (position here : Z) (i : nat) (opss : list operations) (g : gathered)
  : plan (gathered * Z) :=
  match opss with
  | [] => Done (Ok (g, here))
  | ops :: rest =>
      let! (g', here) := font_plan cfg position i ops g in
      fonts_plan cfg position here (S i) rest g'
  end.

(** [<FontSet as value::Read>::read] (src/compact1/font_set/mod.rs:65-116). *)
Definition font_set_plan (cfg : config) (position : Z) : plan (font_set * Z) :=
  let! (h, _) := header_plan position in
  let! here := Done (jumped cfg position (header_size h)) in
  let! (names, here) := index_plan cfg here in
  let! (dictionaries, here) := index_plan cfg here in
  let! opss := Done (dictionaries_try_into cfg dictionaries) in
  let! (strings, here) := index_plan cfg here in
  let! (subroutines, here) := index_plan cfg here in
  let! (g, here) := fonts_plan cfg position here 0 opss
              {| encodings := []; character_sets := []; character_strings := []; records := [] |} in
  Done (Ok ({| fs_header := h; fs_names := names; fs_operations := opss; fs_strings := strings;
               fs_subroutines := subroutines;
               fs_encodings := encodings g;
               fs_character_strings := character_strings g;
               fs_character_sets := character_sets g;
               fs_records := records g |}, here)).

(** [FontSet::count] (src/compact1/font_set/mod.rs:57-62). *)
Definition count_plan (cfg : config) (position : Z) : plan (Z * Z) :=
  let! (h, _) := header_plan position in
  let! here := Done (jumped cfg position (header_size h)) in
  u16_plan here.

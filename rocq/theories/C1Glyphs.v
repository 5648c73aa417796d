(** C1Glyphs: character sets (src/compact1/character_set.rs) and encodings
    (src/compact1/encoding.rs). *)
From Coq Require Import String.
From Verif Require Import Base C1Number C1Operation Tables.
Local Open Scope list_scope.

(** ** Character sets *)

(** [Range1] and [Range2] of character sets (src/compact1/character_set.rs:38-54):
    the two differ only in the width of the second field. *)
Record string_range : Type := {
  first_string_id : Z;
  left_count : Z;
}.

(** [enum CharacterSet] (src/compact1/character_set.rs:8-36). *)
Inductive character_set : Type :=
| ISOAdobe
| ExpertSet
| ExpertSubset
| CharSetFormat0 (format : Z) (glyphs : list Z)
| CharSetFormat1 (format : Z) (ranges : list string_range)
| CharSetFormat2 (format : Z) (ranges : list string_range).

(** [<Range1 as value::Read>::read] (src/compact1/character_set.rs:38-45). *)
Definition read_range1 : reader string_range := fun s =>
  let* (first, s1) := take_u16 s in
  let* (more, s2) := take_u8 s1 in
  Ok ({| first_string_id := first; left_count := more |}, s2).

(** [<Range2 as value::Read>::read] (src/compact1/character_set.rs:47-54). *)
Definition read_range2 : reader string_range := fun s =>
  let* (first, s1) := take_u16 s in
  let* (more, s2) := take_u16 s1 in
  Ok ({| first_string_id := first; left_count := more |}, s2).

(** [while found_count < glyph_count { .. }]
    (src/compact1/character_set.rs:124-128,155-159).  Every round adds at least
    one to [found_count]; the fuel is the number of rounds allowed. *)
Fixpoint read_ranges (rd : reader string_range) (fuel : nat) (glyph_count found_count : Z)
  (s : list byte) : outcome ((list string_range * Z) * list byte) :=
  if found_count <? glyph_count then
    match fuel with
    | O => OutOfFuel
    | S fuel' =>
        let* (range, s1) := rd s in
        let* ((ranges, found), s2) :=
          read_ranges rd fuel' glyph_count (found_count + (1 + left_count range)) s1 in
        Ok ((range :: ranges, found), s2)
    end
  else Ok (([], found_count), s).

(** [<CharacterSet0 as walue::Read>::read] (src/compact1/character_set.rs:91-104). *)
Definition read_character_set0 (cfg : config) (glyph_count : Z) : reader character_set := fun s =>
  let* (format, s1) := take_u8 s in
  if negb (format =? 0) then Err Other
  else
    let* n := sub_usize cfg glyph_count 1 in
    let* (glyphs, s2) := take_vec cfg 2 take_u16 n s1 in
    Ok (CharSetFormat0 format glyphs, s2).

(** [<CharacterSet1 as walue::Read>::read] (src/compact1/character_set.rs:113-134). *)
Definition read_character_set1 (glyph_count : Z) : reader character_set := fun s =>
  let* (format, s1) := take_u8 s in
  if negb (format =? 1) then Err Other
  else
    let* ((ranges, found), s2) := read_ranges read_range1 (S (length s1)) glyph_count 1 s1 in
    if negb (found =? glyph_count) then Err Other
    else Ok (CharSetFormat1 format ranges, s2).

(** [<CharacterSet2 as walue::Read>::read] (src/compact1/character_set.rs:143-165). *)
Definition read_character_set2 (glyph_count : Z) : reader character_set := fun s =>
  let* (format, s1) := take_u8 s in
  if negb (format =? 2) then Err Other
  else
    let* ((ranges, found), s2) := read_ranges read_range2 (S (length s1)) glyph_count 1 s1 in
    if negb (found =? glyph_count) then Err Other
    else Ok (CharSetFormat2 format ranges, s2).

(** [<CharacterSet as walue::Read>::read] (src/compact1/character_set.rs:71-82). *)
Definition read_character_set (cfg : config) (glyph_count : Z) : reader character_set := fun s =>
  let* format := peek_u8 s in
  if format =? 0 then read_character_set0 cfg glyph_count s
  else if format =? 1 then read_character_set1 glyph_count s
  else if format =? 2 then read_character_set2 glyph_count s
  else Err Other.

(** [CharacterSet::get] (src/compact1/character_set.rs:59-68,84-89,106-111,136-141),
    with [get_iso_adobe], [get_expert] and [get_expert_subset]
    (src/compact1/character_set.rs:167-662) as tables. *)
Definition character_set_get (c : character_set) (glyph_id : Z) : option string :=
  match c with
  | ISOAdobe => lookup_code glyph_id iso_adobe_names
  | ExpertSet => lookup_code glyph_id expert_names
  | ExpertSubset => lookup_code glyph_id expert_subset_names
  | CharSetFormat0 _ _ => None
  | CharSetFormat1 _ _ => None
  | CharSetFormat2 _ _ => None
  end.

(** ** Encodings *)

(** [Range1] of encodings (src/compact1/encoding.rs:52-59). *)
Record code_range : Type := {
  first_code : Z;
  codes_left : Z;
}.

(** [Supplement] (src/compact1/encoding.rs:61-68). *)
Record supplement : Type := {
  supplement_code : Z;
  supplement_glyph : Z;
}.

(** [enum Encoding] (src/compact1/encoding.rs:8-50). *)
Inductive encoding : Type :=
| Standard
| ExpertEncoding
| EncFormat0 (format code_count : Z) (codes : list Z)
| EncFormat1 (format range_count : Z) (ranges : list code_range)
| EncSupplemental (format supplement_count : Z) (supplements : list supplement).

(** [<Range1 as value::Read>::read] (src/compact1/encoding.rs:52-59). *)
Definition read_code_range : reader code_range := fun s =>
  let* (first, s1) := take_u8 s in
  let* (more, s2) := take_u8 s1 in
  Ok ({| first_code := first; codes_left := more |}, s2).

(** [<Supplement as value::Read>::read] (src/compact1/encoding.rs:61-68). *)
Definition read_supplement : reader supplement := fun s =>
  let* (code, s1) := take_u8 s in
  let* (glyph, s2) := take_u16 s1 in
  Ok ({| supplement_code := code; supplement_glyph := glyph |}, s2).

(** [<Encoding0 as value::Read>::read] (src/compact1/encoding.rs:16-26); a field
    declared with [= { v }] is rejected by the [table!] macro of [typeface]
    unless it equals [v]. *)
Definition read_encoding0 (cfg : config) : reader encoding := fun s =>
  let* (format, s1) := take_u8 s in
  if negb (format =? 0) then Err Other
  else
    let* (n, s2) := take_u8 s1 in
    let* (codes, s3) := take_vec cfg 1 take_u8 n s2 in
    Ok (EncFormat0 format n codes, s3).

(** [<Encoding1 as value::Read>::read] (src/compact1/encoding.rs:28-38). *)
Definition read_encoding1 (cfg : config) : reader encoding := fun s =>
  let* (format, s1) := take_u8 s in
  if negb (format =? 1) then Err Other
  else
    let* (n, s2) := take_u8 s1 in
    let* (ranges, s3) := take_vec cfg 2 read_code_range n s2 in
    Ok (EncFormat1 format n ranges, s3).

(** [<EncodingSupplemental as value::Read>::read] (src/compact1/encoding.rs:40-50). *)
Definition read_encoding_supplemental (cfg : config) : reader encoding := fun s =>
  let* (format, s1) := take_u8 s in
  let* (n, s2) := take_u8 s1 in
  let* (supplements, s3) := take_vec cfg 4 read_supplement n s2 in
  Ok (EncSupplemental format n supplements, s3).

(** [<Encoding as value::Read>::read] (src/compact1/encoding.rs:83-92). *)
Definition read_encoding (cfg : config) : reader encoding := fun s =>
  let* format := peek_u8 s in
  if format =? 0 then read_encoding0 cfg s
  else if format =? 1 then read_encoding1 cfg s
  else if 0 <? Z.land format 0x80 then read_encoding_supplemental cfg s
  else Err Other.

(** [Encoding::get] (src/compact1/encoding.rs:72-80,94-113), with [get_standard]
    and [get_expert] (src/compact1/encoding.rs:124-644) as tables. *)
Definition encoding_get (e : encoding) (glyph_id : Z) : option Z :=
  match e with
  | Standard => lookup_code glyph_id standard_encoding
  | ExpertEncoding => lookup_code glyph_id expert_encoding
  | EncFormat0 _ _ _ => None
  | EncFormat1 _ _ _ => None
  | EncSupplemental _ _ _ => None
  end.

(** SpecContents: what a font set may hold, whatever the file looks like it was read from. *)
From Verif Require Import Base Float C1Number C1Operation C1Index C1Glyphs C1FontSet SpecOperation SpecGlyphs SpecFontSet SpecSize.

Definition one_byte_value (v : Z) : Prop := 0 <= v < 2 ^ 8.
Definition two_byte_value (v : Z) : Prop := 0 <= v < 2 ^ 16.

(** There are fewer than 2^16 elements. *)
Definition few {A} (l : list A) : Prop := Z.of_nat (length l) < 2 ^ 16.

(** Integers have 32 bits; other numbers are of single precision, and none is not a number. *)
Definition dictionary_contents (t : operations) : Prop := Forall (fun op => Forall storable (snd op)) t.

(** A stored character set says something about each glyph but the first. *)
Definition set_contents (glyphs : Z) (c : character_set) : Prop :=
  match c with
  | ISOAdobe | ExpertSet | ExpertSubset => True
  | CharSetFormat0 format ids => format = 0 /\ Forall two_byte_value ids /\ Z.of_nat (length ids) = glyphs - 1
  | CharSetFormat1 format ranges =>
      format = 1 /\ Forall (fun r => two_byte_value (first_string_id r) /\ one_byte_value (left_count r)) ranges /\
      covered ranges = glyphs - 1
  | CharSetFormat2 format ranges =>
      format = 2 /\ Forall (fun r => two_byte_value (first_string_id r) /\ two_byte_value (left_count r)) ranges /\
      covered ranges = glyphs - 1
  end.

Definition encoding_contents (x : encoding) : Prop :=
  match x with
  | Standard | ExpertEncoding => True
  | EncFormat0 format n codes =>
      format = 0 /\ n = Z.of_nat (length codes) /\ one_byte_value n /\ Forall one_byte_value codes
  | EncFormat1 format n ranges =>
      format = 1 /\ n = Z.of_nat (length ranges) /\ one_byte_value n /\
      Forall (fun r => one_byte_value (first_code r) /\ one_byte_value (codes_left r)) ranges
  | EncSupplemental format n supplements =>
      2 ^ 7 <= format < 2 ^ 8 /\ n = Z.of_nat (length supplements) /\ one_byte_value n /\
      Forall (fun s => one_byte_value (supplement_code s) /\ two_byte_value (supplement_glyph s)) supplements
  end.

(** Format 0 has an identifier for each glyph; format 3 need not be about these glyphs. *)
Definition select_contents (glyphs : Z) (x : C1FontSet.dictionary_encoding) : Prop :=
  match x with
  | DictFormat0 format ids => format = 0 /\ Forall one_byte_value ids /\ Z.of_nat (length ids) = glyphs
  | DictFormat3 format n ranges sentinel =>
      format = 3 /\ n = Z.of_nat (length ranges) /\ two_byte_value n /\
      Forall (fun r => two_byte_value (first_glyph_id r) /\ one_byte_value (dictionary_id r)) ranges /\
      two_byte_value sentinel
  end.

Definition private_contents (r : private_record) : Prop :=
  dictionary_contents (private_operations r) /\ few (data (private_subroutines r)).

(** There is a private dictionary for each font dictionary. *)
Definition record_contents (glyphs : Z) (r : record) : Prop :=
  match r with
  | CharacterNameKeyed r => private_contents r
  | CharacterIDKeyed r =>
      two_byte_value (registry r) /\ two_byte_value (ordering r) /\ storable (cid_supplement r) /\
      select_contents glyphs (cid_encoding r) /\
      few (cid_operations r) /\ Forall dictionary_contents (cid_operations r) /\
      length (cid_records r) = length (cid_operations r) /\ Forall private_contents (cid_records r)
  end.

Definition font_contents (x : font) : Prop :=
  let glyphs := Z.of_nat (length (data (font_character_strings x))) in
  dictionary_contents (font_operations x) /\ operand (font_operations x) Op_CharStringType 2 /\
  few (data (font_character_strings x)) /\ set_contents glyphs (font_character_set x) /\
  encoding_contents (font_encoding x) /\ record_contents glyphs (font_record x).

(** Nothing is asked of names, strings and subroutines but that they are not too many. *)
Definition font_set_contents (f : font_set) : Prop :=
  few (data (fs_names f)) /\ few (data (fs_strings f)) /\ few (data (fs_subroutines f)) /\
  exists fonts, few fonts /\ Forall font_contents fonts /\
    fs_operations f = map font_operations fonts /\ fs_encodings f = map font_encoding fonts /\
    fs_character_sets f = map font_character_set fonts /\
    fs_character_strings f = map font_character_strings fonts /\ fs_records f = map font_record fonts.

(** A number of bytes that is enough to write a font set. *)
Definition font_dictionary_count (r : record) : nat :=
  match r with CharacterNameKeyed _ => 0 | CharacterIDKeyed r => length (cid_records r) end.
Definition enough (f : font_set) : nat :=
  32 + 60 * font_set_weight f + 130 * length (fs_operations f) + 28 * list_sum (map font_dictionary_count (fs_records f)).

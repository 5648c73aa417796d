(** SpecFontSet: how a font set is laid out on a tape, after "The Compact Font Format
    Specification" (Adobe technical note 5176), sections 2, 6 and 14 to 19.

    The contents of dictionaries are described by the relations of SpecOperation, and
    the other tables by those of SpecIndex and SpecGlyphs. *)
From Verif Require Import Base Float C1Number C1Operation C1Index C1Glyphs C1FontSet.
From Verif Require Export SpecBytes SpecIndex SpecGlyphs SpecOperation.

(** ** Places on the tape *)

(** The bytes [e] stand at [place]. *)
Definition stands (tape : list byte) (place : Z) (e : list byte) : Prop :=
  0 <= place /\ exists rest, skipn (Z.to_nat place) tape = e ++ rest.

(** The place that an offset from a position designates: the sum, on 64 bits.  With
    overflow checks, adding the two as unsigned integers must not overflow.  For an offset
    that is not negative the place is [position + offset] (theorem C28_places). *)
Definition located (checks : bool) (position offset place : Z) : Prop :=
  place = (position + offset) mod 2 ^ 64 /\
  (checks = true -> position + offset mod 2 ^ 64 < 2 ^ 64).

Definition found (checks : bool) (tape : list byte) (position offset : Z) (e : list byte) : Prop :=
  exists place, located checks position offset place /\ stands tape place e.

(** The sum of two offsets, on 32 bits. *)
Definition summed (checks : bool) (a b sum : Z) : Prop :=
  sum = signed 32 ((a + b) mod 2 ^ 32) /\ (checks = true -> - 2 ^ 31 <= a + b < 2 ^ 31).

(** The first operand of an operator, and the first two, are these integers; there are none. *)
Definition operand (ops : operations) (o : operator) (v : Z) : Prop :=
  exists more, operand_list ops o (Integer v :: more).
Definition operands (ops : operations) (o : operator) (a b : Z) : Prop :=
  exists more, operand_list ops o (Integer a :: Integer b :: more).
Definition no_operand (ops : operations) (o : operator) : Prop :=
  forall v, operand_list ops o v -> v = [].

(** ** The parts of a font *)

(** Private dictionaries (sections 15 and 16). *)
Definition private_layout (checks : bool) (tape : list byte) (position : Z) (top : operations)
  (r : private_record) : Prop :=
  exists size offset chunk,
    operands top Op_Private size offset /\
    found checks tape position offset chunk /\ Z.of_nat (length chunk) = size /\
    dictionary_data chunk (private_operations r) /\
    (no_operand (private_operations r) Op_Subrs /\ private_subroutines r = index_value 0 [] \/
     exists another sum e,
       operand (private_operations r) Op_Subrs another /\ summed checks offset another sum /\
       found checks tape position sum e /\ index_encoding e (private_subroutines r)).

(** Glyph-to-dictionary encodings (section 19, tables 27 to 29). *)
Definition dictionary_range_encoding (e : list byte) (x : dictionary_range) : Prop :=
  exists b1 b2 b3, e = [b1; b2; b3] /\
    x = {| first_glyph_id := big_endian [b1; b2]; dictionary_id := bz b3 |}.

Inductive select_encoding (glyphs : Z) : list byte -> C1FontSet.dictionary_encoding -> Prop :=
| select_format0 ids : Z.of_nat (length ids) = glyphs ->
    select_encoding glyphs (x00 :: ids) (DictFormat0 0 (map bz ids))
| select_format3 e ranges sentinel :
    Z.of_nat (length ranges) < 2 ^ 16 -> each dictionary_range_encoding e ranges ->
    0 <= sentinel < 2 ^ 16 ->
    select_encoding glyphs
      (x03 :: be_bytes 2 (Z.of_nat (length ranges)) ++ e ++ be_bytes 2 sentinel)
      (DictFormat3 3 (Z.of_nat (length ranges)) ranges sentinel).

(** Character-ID-keyed fonts (section 18). *)
Definition cid_layout (checks : bool) (tape : list byte) (position : Z) (top : operations)
  (glyphs : Z) (r : cid_record) : Prop :=
  exists a b select array e dictionaries ea,
    operand_list top Op_ROS [Integer a; Integer b; cid_supplement r] /\
    0 <= a /\ registry r = a mod 2 ^ 16 /\ 0 <= b /\ ordering r = b mod 2 ^ 16 /\
    operand top Op_FDSelect select /\ found checks tape position select e /\
    select_encoding glyphs e (cid_encoding r) /\
    operand top Op_FDArray array /\ found checks tape position array ea /\
    index_encoding ea dictionaries /\
    Forall2 dictionary_data (data dictionaries) (cid_operations r) /\
    Forall2 (private_layout checks tape position) (cid_operations r) (cid_records r).

Definition record_layout (checks : bool) (tape : list byte) (position : Z) (top : operations)
  (glyphs : Z) (r : record) : Prop :=
  match r with
  | CharacterIDKeyed r =>
      ~ absent top Op_ROS /\ cid_layout checks tape position top glyphs r
  | CharacterNameKeyed r =>
      absent top Op_ROS /\ private_layout checks tape position top r
  end.

(** ** Fonts *)

(** What is reported about a font. *)
Record font : Type := {
  font_operations : operations;
  font_encoding : encoding;
  font_character_set : character_set;
  font_character_strings : index;
  font_record : record;
}.

Definition character_set_layout (checks : bool) (tape : list byte) (position offset glyphs : Z)
  (c : character_set) : Prop :=
  offset = 0 /\ c = ISOAdobe \/ offset = 1 /\ c = ExpertSet \/ offset = 2 /\ c = ExpertSubset \/
  ~ (0 <= offset <= 2) /\
  exists e, found checks tape position offset e /\ character_set_encoding glyphs e c.

Definition encoding_layout (checks : bool) (tape : list byte) (position offset : Z) (x : encoding) : Prop :=
  offset = 0 /\ x = Standard \/ offset = 1 /\ x = ExpertEncoding \/
  ~ (0 <= offset <= 1) /\
  exists e, found checks tape position offset e /\ any_encoding e x.

Definition font_layout (checks : bool) (tape : list byte) (position : Z) (x : font) : Prop :=
  exists strings set code e,
    operand (font_operations x) Op_CharStrings strings /\
    operand (font_operations x) Op_CharStringType 2 /\
    found checks tape position strings e /\ index_encoding e (font_character_strings x) /\
    operand (font_operations x) Op_CharSet set /\
    character_set_layout checks tape position set (count (font_character_strings x)) (font_character_set x) /\
    operand (font_operations x) Op_Encoding code /\
    encoding_layout checks tape position code (font_encoding x) /\
    record_layout checks tape position (font_operations x) (count (font_character_strings x)) (font_record x).

(** ** Font sets *)

Definition header_encoding (e : list byte) (h : header) : Prop :=
  exists b1 b2 b3 b4, e = [b1; b2; b3; b4] /\
    h = {| major := bz b1; minor := bz b2; header_size := bz b3; header_offset_size := bz b4 |}.

(** The header stands at the position; the name, dictionary, string and subroutine indices
    follow one another from the end of the header on; and there is a font for each dictionary. *)
Definition font_set_layout (checks : bool) (tape : list byte) (position : Z) (f : font_set) : Prop :=
  exists eh e1 e2 e3 e4 dictionaries fonts,
    header_encoding eh (fs_header f) /\ stands tape position eh /\
    found checks tape position (header_size (fs_header f)) (e1 ++ e2 ++ e3 ++ e4) /\
    index_encoding e1 (fs_names f) /\ index_encoding e2 dictionaries /\
    index_encoding e3 (fs_strings f) /\ index_encoding e4 (fs_subroutines f) /\
    Forall2 dictionary_data (data dictionaries) (fs_operations f) /\
    fs_operations f = map font_operations fonts /\
    fs_encodings f = map font_encoding fonts /\
    fs_character_sets f = map font_character_set fonts /\
    fs_character_strings f = map font_character_strings fonts /\
    fs_records f = map font_record fonts /\
    Forall (font_layout checks tape position) fonts.

(** ** Dictionaries of a font set *)

(** The dictionaries whose Private operator is used: the top dictionaries of the fonts that
    are character-name-keyed, and the font dictionaries of those that are character-ID-keyed. *)
Definition private_dictionaries (f : font_set) : list operations :=
  flat_map (fun '(top, r) => match r with CharacterIDKeyed c => cid_operations c | CharacterNameKeyed _ => [top] end)
    (combine (fs_operations f) (fs_records f)).

(** A top dictionary as it stands on the tape, whether or not the rest can be read. *)
Definition top_dictionary (checks : bool) (tape : list byte) (position : Z) (top : operations) : Prop :=
  exists eh h e1 names e2 dictionaries chunk,
    header_encoding eh h /\ stands tape position eh /\
    found checks tape position (header_size h) (e1 ++ e2) /\
    index_encoding e1 names /\ index_encoding e2 dictionaries /\
    In chunk (data dictionaries) /\ dictionary_data chunk top.

(** ** Dictionaries that no font producer writes *)

(** A negative size or offset, or subroutines too far away or before the position. *)
Definition hostile_private (checks : bool) (tape : list byte) (position : Z) (top : operations) : Prop :=
  exists size offset, operands top Op_Private size offset /\
    (size < 0 \/ offset < 0 \/
     exists chunk ops another,
       found checks tape position offset chunk /\ Z.of_nat (length chunk) = size /\
       dictionary_data chunk ops /\
       operand ops Op_Subrs another /\ ~ (0 <= offset + another < 2 ^ 31)).

Definition negative_offset (top : operations) (o : operator) : Prop :=
  exists offset, operand top o offset /\ offset < 0.

(** A character set table for a font with no glyphs. *)
Definition set_without_glyphs (checks : bool) (tape : list byte) (position : Z) (top : operations) : Prop :=
  exists strings e x set,
    operand top Op_CharStrings strings /\ found checks tape position strings e /\
    index_encoding e x /\ count x = 0 /\ operand top Op_CharSet set /\ 2 < set.

Definition hostile (checks : bool) (tape : list byte) (position : Z) (top : operations) : Prop :=
  negative_offset top Op_CharStrings \/ negative_offset top Op_CharSet \/
  negative_offset top Op_Encoding \/ negative_offset top Op_FDSelect \/ negative_offset top Op_FDArray \/
  set_without_glyphs checks tape position top \/
  hostile_private checks tape position top \/
  (exists array e dictionaries chunk ops,
     operand top Op_FDArray array /\ found checks tape position array e /\
     index_encoding e dictionaries /\ In chunk (data dictionaries) /\
     dictionary_data chunk ops /\ hostile_private checks tape position ops).

(** SpecCut: when it is the end of the tape that keeps something from being read.

    For each thing that is read, the beginnings of it, up to the place where more bytes are
    needed.  Only what stands before that place matters: a table with a mistake further on
    counts as cut short if the end of the tape comes first. *)
From Coq Require Import Sorting.Sorted.
From Verif Require Import Base Float C1Number C1Operation C1Index C1Glyphs C1FontSet.
From Verif Require Export SpecFontSet.

(** ** Parts *)

Definition number_cut (s : list byte) : Prop := s = [] \/ cut_number s.

Definition header_cut (s : list byte) : Prop := (length s < 4)%nat.

(** Indices: within the count, before the offset size, within the offsets, and within the
    element that ends at the offset [o]. *)
Inductive index_cut : list byte -> Prop :=
| cut_in_count s : (length s < 2)%nat -> index_cut s
| cut_before_size b1 b2 : 0 < big_endian [b1; b2] -> index_cut [b1; b2]
| cut_in_offsets b1 b2 size s :
    0 < big_endian [b1; b2] -> 1 <= bz size <= 4 ->
    Z.of_nat (length s) < bz size * (big_endian [b1; b2] + 1) ->
    index_cut ([b1; b2; size] ++ s)
| cut_in_elements b1 b2 size es before o after s :
    0 < big_endian [b1; b2] -> 1 <= bz size <= 4 ->
    Z.of_nat (length (1 :: before ++ o :: after)) = big_endian [b1; b2] + 1 ->
    each (fun e v => Z.of_nat (length e) = bz size /\ v = big_endian e) es (1 :: before ++ o :: after) ->
    Sorted Z.le (1 :: before ++ [o]) ->
    1 + Z.of_nat (length s) < o ->
    index_cut ([b1; b2; size] ++ es ++ s).

(** Character sets.  For a font with no glyphs, format 0 asks for 2^64 - 1 identifiers where
    this is not a panic. *)
Inductive character_set_cut (checks allocates : bool) (glyphs : Z) : list byte -> Prop :=
| set_cut_format : character_set_cut checks allocates glyphs []
| set_cut_format0 s :
    1 <= glyphs -> Z.of_nat (length s) < 2 * (glyphs - 1) ->
    character_set_cut checks allocates glyphs (x00 :: s)
| set_cut_no_glyphs s :
    glyphs = 0 -> checks = false -> allocates = false ->
    character_set_cut checks allocates glyphs (x00 :: s)
| set_cut_format1 e ranges s :
    each (range_encoding 1) e ranges -> 1 + covered ranges < glyphs -> (length s < 3)%nat ->
    character_set_cut checks allocates glyphs (x01 :: e ++ s)
| set_cut_format2 e ranges s :
    each (range_encoding 2) e ranges -> 1 + covered ranges < glyphs -> (length s < 4)%nat ->
    character_set_cut checks allocates glyphs (x02 :: e ++ s).

(** Encodings. *)
Inductive encoding_cut : list byte -> Prop :=
| encoding_cut_format : encoding_cut []
| encoding_cut_count f : bz f <= 1 \/ 128 <= bz f -> encoding_cut [f]
| encoding_cut_codes n s : Z.of_nat (length s) < bz n -> encoding_cut ([x00; n] ++ s)
| encoding_cut_ranges n s : Z.of_nat (length s) < 2 * bz n -> encoding_cut ([x01; n] ++ s)
| encoding_cut_supplements f n s :
    128 <= bz f -> Z.of_nat (length s) < 3 * bz n -> encoding_cut ([f; n] ++ s).

(** Glyph-to-dictionary encodings. *)
Inductive select_cut (glyphs : Z) : list byte -> Prop :=
| select_cut_format : select_cut glyphs []
| select_cut_format0 s : Z.of_nat (length s) < glyphs -> select_cut glyphs (x00 :: s)
| select_cut_count s : (length s < 2)%nat -> select_cut glyphs (x03 :: s)
| select_cut_ranges b1 b2 s :
    Z.of_nat (length s) < 3 * big_endian [b1; b2] + 2 -> select_cut glyphs ([x03; b1; b2] ++ s).

(** ** Parts elsewhere on the tape *)

(** From the place that an offset designates to the end of the tape. *)
Definition ending (checks : bool) (tape : list byte) (position offset : Z) (cut : list byte -> Prop) : Prop :=
  exists place, located checks position offset place /\ cut (skipn (Z.to_nat place) tape).

(** Private dictionaries and their subroutines.  A negative size asks for 2^64 bytes less the
    size where this is not a panic. *)
Definition private_cut (checks allocates : bool) (tape : list byte) (position : Z) (top : operations) : Prop :=
  exists size offset, operands top Op_Private size offset /\
    (ending checks tape position offset (fun s => 0 <= size /\ Z.of_nat (length s) < size \/ size < 0 /\ allocates = false) \/
     exists chunk ops another sum,
       found checks tape position offset chunk /\ Z.of_nat (length chunk) = size /\
       dictionary_data chunk ops /\ operand ops Op_Subrs another /\
       summed checks offset another sum /\ ending checks tape position sum index_cut).

(** Character-ID-keyed fonts. *)
Definition cid_cut (checks allocates : bool) (tape : list byte) (position : Z) (top : operations)
  (glyphs : Z) : Prop :=
  exists a b c select, operand_list top Op_ROS [a; b; c] /\ operand top Op_FDSelect select /\
    (ending checks tape position select (select_cut glyphs) \/
     exists e x array, found checks tape position select e /\ select_encoding glyphs e x /\
       operand top Op_FDArray array /\
       (ending checks tape position array index_cut \/
        exists ea dictionaries before ops after rs,
          found checks tape position array ea /\ index_encoding ea dictionaries /\
          Forall2 dictionary_data (data dictionaries) (before ++ ops :: after) /\
          Forall2 (private_layout checks tape position) before rs /\
          private_cut checks allocates tape position ops)).

Definition record_cut (checks allocates : bool) (tape : list byte) (position : Z) (top : operations)
  (glyphs : Z) : Prop :=
  ~ absent top Op_ROS /\ cid_cut checks allocates tape position top glyphs \/
  absent top Op_ROS /\ private_cut checks allocates tape position top.

(** Fonts. *)
Definition font_cut (checks allocates : bool) (tape : list byte) (position : Z) (top : operations) : Prop :=
  exists strings, operand top Op_CharStrings strings /\ operand top Op_CharStringType 2 /\
    (ending checks tape position strings index_cut \/
     exists e x set,
       found checks tape position strings e /\ index_encoding e x /\ operand top Op_CharSet set /\
       (~ (0 <= set <= 2) /\ ending checks tape position set (character_set_cut checks allocates (count x)) \/
        exists c code,
          character_set_layout checks tape position set (count x) c /\ operand top Op_Encoding code /\
          (~ (0 <= code <= 1) /\ ending checks tape position code encoding_cut \/
           exists y, encoding_layout checks tape position code y /\
             record_cut checks allocates tape position top (count x)))).

(** What follows the header: the four indices, up to the one that is cut. *)
Inductive front_cut : list byte -> Prop :=
| cut_names s : index_cut s -> front_cut s
| cut_dictionaries e1 names s : index_encoding e1 names -> index_cut s -> front_cut (e1 ++ s)
| cut_strings e1 names e2 dictionaries tops s :
    index_encoding e1 names -> index_encoding e2 dictionaries ->
    Forall2 dictionary_data (data dictionaries) tops -> index_cut s -> front_cut (e1 ++ e2 ++ s)
| cut_subroutines e1 names e2 dictionaries tops e3 strings s :
    index_encoding e1 names -> index_encoding e2 dictionaries ->
    Forall2 dictionary_data (data dictionaries) tops -> index_encoding e3 strings ->
    index_cut s -> front_cut (e1 ++ e2 ++ e3 ++ s).

(** Font sets. *)
Definition font_set_cut (checks allocates : bool) (tape : list byte) (position : Z) : Prop :=
  header_cut (skipn (Z.to_nat position) tape) \/
  exists eh h, header_encoding eh h /\ stands tape position eh /\
    (ending checks tape position (header_size h) front_cut \/
     exists e1 e2 e3 e4 names dictionaries strings subroutines fonts top after,
       found checks tape position (header_size h) (e1 ++ e2 ++ e3 ++ e4) /\
       index_encoding e1 names /\ index_encoding e2 dictionaries /\
       index_encoding e3 strings /\ index_encoding e4 subroutines /\
       Forall2 dictionary_data (data dictionaries) (map font_operations fonts ++ top :: after) /\
       Forall (font_layout checks tape position) fonts /\
       font_cut checks allocates tape position top).

(** Counting fonts. *)
Definition count_cut (checks : bool) (tape : list byte) (position : Z) : Prop :=
  header_cut (skipn (Z.to_nat position) tape) \/
  exists eh h, header_encoding eh h /\ stands tape position eh /\
    ending checks tape position (header_size h) (fun s => (length s < 2)%nat).

(** ** What is neither read nor cut short *)

(** The bytes begin with an encoding of something. *)
Definition begins {A} (enc : list byte -> A -> Prop) (s : list byte) : Prop :=
  exists e x r, s = e ++ r /\ enc e x.

(** Looking for the identifiers of a font with no glyphs is a panic. *)
Definition set_panic (checks allocates : bool) (glyphs : Z) (s : list byte) : Prop :=
  glyphs = 0 /\ (checks = true \/ allocates = true) /\ exists r, s = x00 :: r.

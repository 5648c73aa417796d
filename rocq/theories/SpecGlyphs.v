(** SpecGlyphs: character sets and encodings, after "The Compact Font Format
    Specification" (Adobe technical note 5176), sections 12 and 13 and appendices
    B and C. *)
From Coq Require Import String.
From Verif Require Import Base C1Index C1Glyphs.
From Verif Require Export SpecBytes SpecStrings.
Local Open Scope list_scope.
Local Open Scope Z_scope.

(** The integers from [a] to [b]. *)
Definition run (a b : Z) : list Z := map (fun i => a + Z.of_nat i) (seq 0 (Z.to_nat (b - a + 1))).

(** ** Predefined character sets (appendix C): string identifiers in glyph order *)

Definition iso_adobe_glyphs : list Z := run 0 228.

Definition expert_glyphs : list Z :=
  [0; 1] ++ run 229 238 ++ [13; 14; 15; 99] ++ run 239 248 ++ [27; 28] ++ run 249 266
  ++ [109; 110] ++ run 267 318 ++ [158; 155; 163] ++ run 319 326 ++ [150; 164; 169] ++ run 327 378.

Definition expert_subset_glyphs : list Z :=
  [0; 1; 231; 232] ++ run 235 238 ++ [13; 14; 15; 99] ++ run 239 248 ++ [27; 28; 249; 250; 251]
  ++ run 253 266 ++ [109; 110] ++ run 267 270 ++ [272; 300; 301; 302; 305; 314; 315; 158; 155; 163]
  ++ run 320 326 ++ [150; 164; 169] ++ run 327 346.

(** The name of a glyph of a predefined set: the standard string it refers to. *)
Definition predefined_name (glyphs : list Z) (glyph_id : Z) : option string :=
  match nth_error glyphs (Z.to_nat glyph_id) with
  | Some string_id => standard_name string_id
  | None => None
  end.

(** ** Predefined encodings (appendix B) *)

(** [(a, b, s)]: the codes from [a] to [b] stand for the string identifiers from [s] on. *)
Definition standard_runs : list (Z * Z * Z) :=
  [(32, 126, 1); (161, 175, 96); (177, 180, 111); (182, 189, 115); (191, 191, 123);
   (193, 200, 124); (202, 203, 132); (205, 208, 134); (225, 225, 138); (227, 227, 139);
   (232, 235, 140); (241, 241, 144); (245, 245, 145); (248, 251, 146)].

Definition expert_runs : list (Z * Z * Z) :=
  [(32, 32, 1); (33, 34, 229); (36, 43, 231); (44, 46, 13); (47, 47, 99); (48, 57, 239);
   (58, 59, 27); (60, 63, 249); (65, 69, 253); (73, 73, 258); (76, 79, 259); (82, 84, 263);
   (86, 86, 266); (87, 88, 109); (89, 91, 267); (93, 126, 270); (161, 163, 304);
   (166, 170, 307); (172, 172, 312); (175, 175, 313); (178, 179, 314); (182, 184, 316);
   (188, 188, 158); (189, 189, 155); (190, 190, 163); (191, 197, 319); (200, 200, 326);
   (201, 201, 150); (202, 202, 164); (203, 203, 169); (204, 255, 327)].

(** The string identifier of a code; 0 (".notdef") for the codes that are not listed. *)
Fixpoint encoded (runs : list (Z * Z * Z)) (code : Z) : Z :=
  match runs with
  | [] => 0
  | (a, b, s) :: rest => if (a <=? code) && (code <=? b) then s + (code - a) else encoded rest code
  end.

(** ** Character sets in the font (tables 17 to 21) *)

(** A range on the tape; the number of the glyphs left takes one or two bytes. *)
Definition range_encoding (width : nat) (e : list byte) (x : string_range) : Prop :=
  0 <= first_string_id x < 2 ^ 16 /\ 0 <= left_count x < 256 ^ Z.of_nat width /\
  e = be_bytes 2 (first_string_id x) ++ be_bytes width (left_count x).

(** The number of glyphs that ranges cover. *)
Definition covered (ranges : list string_range) : Z :=
  fold_right (fun x n => 1 + left_count x + n) 0 ranges.

(** The table of a font with so many glyphs; the first glyph is left out. *)
Inductive character_set_encoding (glyphs : Z) : list byte -> character_set -> Prop :=
| set_format0 ids :
    Z.of_nat (length ids) = glyphs - 1 -> Forall (fun id => 0 <= id < 2 ^ 16) ids ->
    character_set_encoding glyphs (x00 :: flat_map (be_bytes 2) ids) (CharSetFormat0 0 ids)
| set_format1 e ranges :
    each (range_encoding 1) e ranges -> covered ranges = glyphs - 1 ->
    character_set_encoding glyphs (x01 :: e) (CharSetFormat1 1 ranges)
| set_format2 e ranges :
    each (range_encoding 2) e ranges -> covered ranges = glyphs - 1 ->
    character_set_encoding glyphs (x02 :: e) (CharSetFormat2 2 ranges).

(** The string identifiers that a table assigns to the glyphs from 1 on. *)
Definition assigned (c : character_set) : list Z :=
  match c with
  | CharSetFormat0 _ ids => ids
  | CharSetFormat1 _ ranges | CharSetFormat2 _ ranges =>
      flat_map (fun x => run (first_string_id x) (first_string_id x + left_count x)) ranges
  | ISOAdobe => run 1 228
  | ExpertSet => tl expert_glyphs
  | ExpertSubset => tl expert_subset_glyphs
  end.

(** ** Encodings in the font (tables 11 to 15) *)

Definition code_range_encoding (e : list byte) (x : code_range) : Prop :=
  exists b1 b2, e = [b1; b2] /\ x = {| first_code := bz b1; codes_left := bz b2 |}.

Definition supplement_encoding (e : list byte) (x : supplement) : Prop :=
  exists b1 b2 b3, e = [b1; b2; b3] /\
    x = {| supplement_code := bz b1; supplement_glyph := big_endian [b2; b3] |}.

(** A table without supplements. *)
Inductive plain_encoding : list byte -> encoding -> Prop :=
| encoding_format0 n codes :
    bz n = Z.of_nat (length codes) ->
    plain_encoding ([x00; n] ++ codes) (EncFormat0 0 (bz n) (map bz codes))
| encoding_format1 n e ranges :
    bz n = Z.of_nat (length ranges) -> each code_range_encoding e ranges ->
    plain_encoding ([x01; n] ++ e) (EncFormat1 1 (bz n) ranges).

(** A table of codes with supplements: the high bit of the format is set, and the
    supplements follow the codes. *)
Definition supplemented_codes (codes : list byte) (es : list byte) (supplements : list supplement)
  (e : list byte) : Prop :=
  exists n m, bz n = Z.of_nat (length codes) /\ bz m = Z.of_nat (length supplements) /\
    each supplement_encoding es supplements /\
    e = [x80; n] ++ codes ++ [m] ++ es.

(** The supplements that were read. *)
Definition supplements_of (x : encoding) : list supplement :=
  match x with EncSupplemental _ _ supplements => supplements | _ => [] end.

(** Everything that is read as an encoding: a plain table, or one with the high bit of the
    format set and supplements alone (see C26). *)
Inductive any_encoding : list byte -> encoding -> Prop :=
| any_plain e x : plain_encoding e x -> any_encoding e x
| any_supplements f n e supplements :
    128 <= bz f -> bz n = Z.of_nat (length supplements) -> each supplement_encoding e supplements ->
    any_encoding ([f; n] ++ e) (EncSupplemental (bz f) (bz n) supplements).

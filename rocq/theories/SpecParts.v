(** SpecParts: the parts of a tape a font set is made of, in terms of the layout of
    SpecFontSet. *)
From Verif Require Import Base Float C1Number C1Operation C1Index C1Glyphs C1FontSet.
From Verif Require Export SpecFontSet.

(** Two tapes have the same byte at a place, or end before it. *)
Definition same_byte (tape tape' : list byte) (q : Z) : Prop :=
  forall b, stands tape q [b] <-> stands tape' q [b].

(** The bytes [e] stand at an offset from the position, and [q] is a place among them. *)
Definition inside (checks : bool) (tape : list byte) (position offset : Z) (e : list byte) (q : Z) : Prop :=
  exists start, located checks position offset start /\ stands tape start e /\
    start <= q < start + Z.of_nat (length e).

(** The private dictionary, and the local subroutines if there are some. *)
Definition private_part (checks : bool) (tape : list byte) (position : Z) (top : operations)
  (r : private_record) (q : Z) : Prop :=
  exists size offset, operands top Op_Private size offset /\
    ((exists chunk, Z.of_nat (length chunk) = size /\ inside checks tape position offset chunk q) \/
     exists another sum e,
       operand (private_operations r) Op_Subrs another /\ summed checks offset another sum /\
       index_encoding e (private_subroutines r) /\ inside checks tape position sum e q).

(** Of a character-ID-keyed font: the selector, the array of font dictionaries, and what
    belongs to each of them. *)
Definition record_part (checks : bool) (tape : list byte) (position : Z) (top : operations)
  (glyphs : Z) (r : record) (q : Z) : Prop :=
  match r with
  | CharacterNameKeyed r => private_part checks tape position top r q
  | CharacterIDKeyed r =>
      (exists select e, operand top Op_FDSelect select /\ select_encoding glyphs e (cid_encoding r) /\
         inside checks tape position select e q) \/
      (exists array e dictionaries, operand top Op_FDArray array /\ index_encoding e dictionaries /\
         inside checks tape position array e q) \/
      exists ops inner, In (ops, inner) (combine (cid_operations r) (cid_records r)) /\
        private_part checks tape position ops inner q
  end.

(** The character strings, the character set and the encoding unless they are predefined, and
    the rest. *)
Definition font_part (checks : bool) (tape : list byte) (position : Z) (x : font) (q : Z) : Prop :=
  (exists strings e, operand (font_operations x) Op_CharStrings strings /\
     index_encoding e (font_character_strings x) /\ inside checks tape position strings e q) \/
  (exists set e, operand (font_operations x) Op_CharSet set /\ ~ (0 <= set <= 2) /\
     character_set_encoding (count (font_character_strings x)) e (font_character_set x) /\
     inside checks tape position set e q) \/
  (exists code e, operand (font_operations x) Op_Encoding code /\ ~ (0 <= code <= 1) /\
     any_encoding e (font_encoding x) /\ inside checks tape position code e q) \/
  record_part checks tape position (font_operations x) (count (font_character_strings x)) (font_record x) q.

(** The header, the four indices, and the parts of each font. *)
Definition font_set_part (checks : bool) (tape : list byte) (position : Z) (f : font_set) (q : Z) : Prop :=
  position <= q < position + 4 \/
  (exists e1 e2 e3 e4 dictionaries,
     index_encoding e1 (fs_names f) /\ index_encoding e2 dictionaries /\
     index_encoding e3 (fs_strings f) /\ index_encoding e4 (fs_subroutines f) /\
     inside checks tape position (header_size (fs_header f)) (e1 ++ e2 ++ e3 ++ e4) q) \/
  exists i ops enc set strings r,
    nth_error (fs_operations f) i = Some ops /\ nth_error (fs_encodings f) i = Some enc /\
    nth_error (fs_character_sets f) i = Some set /\ nth_error (fs_character_strings f) i = Some strings /\
    nth_error (fs_records f) i = Some r /\
    font_part checks tape position
      {| font_operations := ops; font_encoding := enc; font_character_set := set;
         font_character_strings := strings; font_record := r |} q.

(** ** The order in which the bytes are asked for *)

(** [n] bytes in a row. *)
Definition span (start : Z) (n : nat) : list Z := map (fun i => start + Z.of_nat i) (seq 0 n).

(** The bytes [e] stand at an offset from the position, and [l] are their places. *)
Definition pass (checks : bool) (tape : list byte) (position offset : Z) (e : list byte) (l : list Z) : Prop :=
  exists start, located checks position offset start /\ stands tape start e /\ l = span start (length e).

(** The same, with the first byte, a format, looked at beforehand. *)
Definition pass_by_format (checks : bool) (tape : list byte) (position offset : Z) (e : list byte) (l : list Z) : Prop :=
  exists start, located checks position offset start /\ stands tape start e /\ l = start :: span start (length e).

Definition private_order (checks : bool) (tape : list byte) (position : Z) (top : operations)
  (r : private_record) (l : list Z) : Prop :=
  exists size offset chunk l1 l2, operands top Op_Private size offset /\
    Z.of_nat (length chunk) = size /\ pass checks tape position offset chunk l1 /\
    ((no_operand (private_operations r) Op_Subrs /\ l2 = []) \/
     exists another sum e, operand (private_operations r) Op_Subrs another /\ summed checks offset another sum /\
       index_encoding e (private_subroutines r) /\ pass checks tape position sum e l2) /\
    l = l1 ++ l2.

Inductive privates_order (checks : bool) (tape : list byte) (position : Z)
  : list operations -> list private_record -> list Z -> Prop :=
| no_privates : privates_order checks tape position [] [] []
| another_private : forall top tops r rs l1 l2,
    private_order checks tape position top r l1 -> privates_order checks tape position tops rs l2 ->
    privates_order checks tape position (top :: tops) (r :: rs) (l1 ++ l2).

Definition record_order (checks : bool) (tape : list byte) (position : Z) (top : operations)
  (glyphs : Z) (r : record) (l : list Z) : Prop :=
  match r with
  | CharacterNameKeyed r => private_order checks tape position top r l
  | CharacterIDKeyed r =>
      exists select e1 l1 array e2 dictionaries l2 l3,
        operand top Op_FDSelect select /\ select_encoding glyphs e1 (cid_encoding r) /\
        pass_by_format checks tape position select e1 l1 /\
        operand top Op_FDArray array /\ index_encoding e2 dictionaries /\
        pass checks tape position array e2 l2 /\
        privates_order checks tape position (cid_operations r) (cid_records r) l3 /\
        l = l1 ++ l2 ++ l3
  end.

Definition font_order (checks : bool) (tape : list byte) (position : Z) (x : font) (l : list Z) : Prop :=
  exists strings e1 l1 set l2 code l3 l4,
    operand (font_operations x) Op_CharStrings strings /\ index_encoding e1 (font_character_strings x) /\
    pass checks tape position strings e1 l1 /\
    operand (font_operations x) Op_CharSet set /\
    ((0 <= set <= 2 /\ l2 = []) \/
     ~ (0 <= set <= 2) /\ exists e2, character_set_encoding (count (font_character_strings x)) e2 (font_character_set x) /\
       pass_by_format checks tape position set e2 l2) /\
    operand (font_operations x) Op_Encoding code /\
    ((0 <= code <= 1 /\ l3 = []) \/
     ~ (0 <= code <= 1) /\ exists e3, any_encoding e3 (font_encoding x) /\
       pass_by_format checks tape position code e3 l3) /\
    record_order checks tape position (font_operations x) (count (font_character_strings x)) (font_record x) l4 /\
    l = l1 ++ l2 ++ l3 ++ l4.

Inductive fonts_order (checks : bool) (tape : list byte) (position : Z) : list font -> list Z -> Prop :=
| no_fonts : fonts_order checks tape position [] []
| another_font : forall x xs l1 l2,
    font_order checks tape position x l1 -> fonts_order checks tape position xs l2 ->
    fonts_order checks tape position (x :: xs) (l1 ++ l2).

Definition font_set_order (checks : bool) (tape : list byte) (position : Z) (f : font_set) (l : list Z) : Prop :=
  exists e1 e2 e3 e4 dictionaries l1 fonts l2,
    index_encoding e1 (fs_names f) /\ index_encoding e2 dictionaries /\
    index_encoding e3 (fs_strings f) /\ index_encoding e4 (fs_subroutines f) /\
    pass checks tape position (header_size (fs_header f)) (e1 ++ e2 ++ e3 ++ e4) l1 /\
    fs_operations f = map font_operations fonts /\ fs_encodings f = map font_encoding fonts /\
    fs_character_sets f = map font_character_set fonts /\
    fs_character_strings f = map font_character_strings fonts /\ fs_records f = map font_record fonts /\
    fonts_order checks tape position fonts l2 /\
    l = span position 4 ++ l1 ++ l2.

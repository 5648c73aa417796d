(** SpecKept: the parts of a tape that can be told from the font set that is read from them: all
    but the dictionaries. *)
From Verif Require Import Base Float C1Number C1Operation C1Index C1Glyphs C1FontSet.
From Verif Require Export SpecParts SpecEdit.

(** The bytes at a place are the same on two tapes, and there are some. *)
Definition shared (tape tape' : list byte) (q : Z) : Prop :=
  exists b, stands tape q [b] /\ stands tape' q [b].

(** The local subroutines. *)
Definition private_kept (checks : bool) (tape : list byte) (position : Z) (top : operations)
  (r : private_record) (q : Z) : Prop :=
  exists size offset another sum e, operands top Op_Private size offset /\
    operand (private_operations r) Op_Subrs another /\ summed checks offset another sum /\
    index_encoding e (private_subroutines r) /\ inside checks tape position sum e q.

(** The selector, and the local subroutines. *)
Definition record_kept (checks : bool) (tape : list byte) (position : Z) (top : operations)
  (glyphs : Z) (r : record) (q : Z) : Prop :=
  match r with
  | CharacterNameKeyed r => private_kept checks tape position top r q
  | CharacterIDKeyed r =>
      (exists select e, operand top Op_FDSelect select /\ select_encoding glyphs e (cid_encoding r) /\
         inside checks tape position select e q) \/
      exists ops inner, In (ops, inner) (combine (cid_operations r) (cid_records r)) /\
        private_kept checks tape position ops inner q
  end.

(** The character strings, the character set and the encoding unless they are predefined, and
    the rest. *)
Definition font_kept (checks : bool) (tape : list byte) (position : Z) (x : font) (q : Z) : Prop :=
  (exists strings e, operand (font_operations x) Op_CharStrings strings /\
     index_encoding e (font_character_strings x) /\ inside checks tape position strings e q) \/
  (exists set e, operand (font_operations x) Op_CharSet set /\ ~ (0 <= set <= 2) /\
     character_set_encoding (count (font_character_strings x)) e (font_character_set x) /\
     inside checks tape position set e q) \/
  (exists code e, operand (font_operations x) Op_Encoding code /\ ~ (0 <= code <= 1) /\
     any_encoding e (font_encoding x) /\ inside checks tape position code e q) \/
  record_kept checks tape position (font_operations x) (count (font_character_strings x)) (font_record x) q.

(** The header, the names, and the parts of each font. *)
Definition font_set_kept (checks : bool) (tape : list byte) (position : Z) (f : font_set) (q : Z) : Prop :=
  position <= q < position + 4 \/
  (exists i1 i2 i3 i4, four_indices checks tape position f i1 i2 i3 i4 /\ i1 <= q < i2) \/
  exists i ops enc set strings r,
    nth_error (fs_operations f) i = Some ops /\ nth_error (fs_encodings f) i = Some enc /\
    nth_error (fs_character_sets f) i = Some set /\ nth_error (fs_character_strings f) i = Some strings /\
    nth_error (fs_records f) i = Some r /\
    font_kept checks tape position
      {| font_operations := ops; font_encoding := enc; font_character_set := set;
         font_character_strings := strings; font_record := r |} q.

(** Wherever two readers read the same value they take the same bytes. *)
Definition kept {A} (rd rd' : reader A) : Prop := forall s s' x r r', rd s = Ok (x, r) -> rd' s' = Ok (x, r') ->
  exists e, s = e ++ r /\ s' = e ++ r'.

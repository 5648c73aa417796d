(** SpecEdit: a font set whose elements have been overwritten in place.

    The elements are those of the indices of names, strings, subroutines and character strings;
    the frame is everything else that a font set is made of. *)
From Verif Require Import Base Float C1Number C1Operation C1Index C1Glyphs C1FontSet.
From Verif Require Export SpecParts.

(** ** The frame *)

(** The length of an index without its elements: the count, and the size of the offsets and
    the offsets unless there are no elements. *)
Definition front_length (x : index) : Z :=
  match data x with [] => 2 | _ :: _ => 3 + offset_size x * (count x + 1) end.

(** A place before the elements of an index at an offset. *)
Definition in_front (checks : bool) (position offset : Z) (x : index) (q : Z) : Prop :=
  exists start, located checks position offset start /\ start <= q < start + front_length x.

(** The private dictionary, and the front of the local subroutines. *)
Definition private_frame (checks : bool) (position : Z) (top : operations) (r : private_record) (q : Z) : Prop :=
  exists size offset, operands top Op_Private size offset /\
    ((exists start, located checks position offset start /\ start <= q < start + size) \/
     exists another sum, operand (private_operations r) Op_Subrs another /\ summed checks offset another sum /\
       in_front checks position sum (private_subroutines r) q).

Definition record_frame (checks : bool) (tape : list byte) (position : Z) (top : operations)
  (glyphs : Z) (r : record) (q : Z) : Prop :=
  match r with
  | CharacterNameKeyed r => private_frame checks position top r q
  | CharacterIDKeyed r =>
      (exists select e, operand top Op_FDSelect select /\ select_encoding glyphs e (cid_encoding r) /\
         inside checks tape position select e q) \/
      (exists array e dictionaries, operand top Op_FDArray array /\ index_encoding e dictionaries /\
         inside checks tape position array e q) \/
      exists ops inner, In (ops, inner) (combine (cid_operations r) (cid_records r)) /\
        private_frame checks position ops inner q
  end.

Definition font_frame (checks : bool) (tape : list byte) (position : Z) (x : font) (q : Z) : Prop :=
  (exists strings, operand (font_operations x) Op_CharStrings strings /\
     in_front checks position strings (font_character_strings x) q) \/
  (exists set e, operand (font_operations x) Op_CharSet set /\ ~ (0 <= set <= 2) /\
     character_set_encoding (count (font_character_strings x)) e (font_character_set x) /\
     inside checks tape position set e q) \/
  (exists code e, operand (font_operations x) Op_Encoding code /\ ~ (0 <= code <= 1) /\
     any_encoding e (font_encoding x) /\ inside checks tape position code e q) \/
  record_frame checks tape position (font_operations x) (count (font_character_strings x)) (font_record x) q.

(** Where the name, dictionary, string and subroutine indices of a font set begin. *)
Definition four_indices (checks : bool) (tape : list byte) (position : Z) (f : font_set) (i1 i2 i3 i4 : Z) : Prop :=
  exists e1 e2 e3 e4 dictionaries,
    index_encoding e1 (fs_names f) /\ index_encoding e2 dictionaries /\
    index_encoding e3 (fs_strings f) /\ index_encoding e4 (fs_subroutines f) /\
    located checks position (header_size (fs_header f)) i1 /\ stands tape i1 (e1 ++ e2 ++ e3 ++ e4) /\
    i2 = i1 + Z.of_nat (length e1) /\ i3 = i2 + Z.of_nat (length e2) /\ i4 = i3 + Z.of_nat (length e3).

Definition font_set_frame (checks : bool) (tape : list byte) (position : Z) (f : font_set) (q : Z) : Prop :=
  position <= q < position + 4 \/
  (exists i1 i2 i3 i4, four_indices checks tape position f i1 i2 i3 i4 /\
     (i1 <= q < i1 + front_length (fs_names f) \/ i2 <= q < i3 \/
      i3 <= q < i3 + front_length (fs_strings f) \/ i4 <= q < i4 + front_length (fs_subroutines f))) \/
  exists i ops enc set strings r,
    nth_error (fs_operations f) i = Some ops /\ nth_error (fs_encodings f) i = Some enc /\
    nth_error (fs_character_sets f) i = Some set /\ nth_error (fs_character_strings f) i = Some strings /\
    nth_error (fs_records f) i = Some r /\
    font_frame checks tape position
      {| font_operations := ops; font_encoding := enc; font_character_set := set;
         font_character_strings := strings; font_record := r |} q.

(** ** The elements *)

(** The place of an element of an index that begins at [start]. *)
Definition element_place (x : index) (start : Z) (j : nat) : Z :=
  start + front_length x + (nth j (offsets x) 0 - 1).

(** Two indices with the same layout, each element of which is what stands on its tape at the
    same place. *)
Definition overwritten (tape tape' : list byte) (start : Z) (x y : index) : Prop :=
  count y = count x /\ offset_size y = offset_size x /\ offsets y = offsets x /\ length (data y) = length (data x) /\
  forall j c, nth_error (data x) j = Some c ->
    exists c', nth_error (data y) j = Some c' /\ length c' = length c /\
      stands tape (element_place x start j) c /\ stands tape' (element_place x start j) c'.

Definition private_overwritten (checks : bool) (tape tape' : list byte) (position : Z) (top : operations)
  (r s : private_record) : Prop :=
  private_operations s = private_operations r /\
  (no_operand (private_operations r) Op_Subrs /\ private_subroutines s = private_subroutines r \/
   exists size offset another sum start,
     operands top Op_Private size offset /\ operand (private_operations r) Op_Subrs another /\
     summed checks offset another sum /\ located checks position sum start /\
     overwritten tape tape' start (private_subroutines r) (private_subroutines s)).

Definition record_overwritten (checks : bool) (tape tape' : list byte) (position : Z) (top : operations)
  (r s : record) : Prop :=
  match r, s with
  | CharacterNameKeyed r, CharacterNameKeyed s => private_overwritten checks tape tape' position top r s
  | CharacterIDKeyed r, CharacterIDKeyed s =>
      registry s = registry r /\ ordering s = ordering r /\ cid_supplement s = cid_supplement r /\
      cid_encoding s = cid_encoding r /\ cid_operations s = cid_operations r /\
      length (cid_records s) = length (cid_records r) /\
      forall i ops x, nth_error (cid_operations r) i = Some ops -> nth_error (cid_records r) i = Some x ->
        exists y, nth_error (cid_records s) i = Some y /\ private_overwritten checks tape tape' position ops x y
  | _, _ => False
  end.

(** Two font sets that differ in their elements at most. *)
Definition font_set_overwritten (checks : bool) (tape tape' : list byte) (position : Z) (f g : font_set) : Prop :=
  fs_header g = fs_header f /\ fs_operations g = fs_operations f /\
  fs_encodings g = fs_encodings f /\ fs_character_sets g = fs_character_sets f /\
  (exists i1 i2 i3 i4, four_indices checks tape position f i1 i2 i3 i4 /\
     overwritten tape tape' i1 (fs_names f) (fs_names g) /\
     overwritten tape tape' i3 (fs_strings f) (fs_strings g) /\
     overwritten tape tape' i4 (fs_subroutines f) (fs_subroutines g)) /\
  length (fs_character_strings g) = length (fs_character_strings f) /\
  (forall i ops x, nth_error (fs_operations f) i = Some ops -> nth_error (fs_character_strings f) i = Some x ->
     exists y strings start, nth_error (fs_character_strings g) i = Some y /\
       operand ops Op_CharStrings strings /\ located checks position strings start /\
       overwritten tape tape' start x y) /\
  length (fs_records g) = length (fs_records f) /\
  (forall i ops r, nth_error (fs_operations f) i = Some ops -> nth_error (fs_records f) i = Some r ->
     exists s, nth_error (fs_records g) i = Some s /\ record_overwritten checks tape tape' position ops r s).

(** SpecDress: a font set whose dictionaries have been overwritten. *)
From Verif Require Import Base Float C1Number C1Operation C1Index C1Glyphs C1FontSet.
From Verif Require Export SpecEdit.

(** Two dictionaries with the same operands for these operators. *)
Definition linked (links : list operator) (a b : operations) : Prop :=
  forall o v, In o links -> (operand_list a o v <-> operand_list b o v).

(** The operators of a top dictionary that say where the rest is and of what kind. *)
Definition top_links (r : record) : list operator :=
  [Op_CharStrings; Op_CharStringType; Op_CharSet; Op_Encoding; Op_ROS] ++
  match r with
  | CharacterNameKeyed _ => [Op_Private]
  | CharacterIDKeyed _ => [Op_FDSelect; Op_FDArray]
  end.

(** ** What is not a dictionary *)

Definition private_rest (checks : bool) (tape : list byte) (position : Z) (top : operations)
  (r : private_record) (q : Z) : Prop :=
  exists size offset another sum e, operands top Op_Private size offset /\
    operand (private_operations r) Op_Subrs another /\ summed checks offset another sum /\
    index_encoding e (private_subroutines r) /\ inside checks tape position sum e q.

Definition record_rest (checks : bool) (tape : list byte) (position : Z) (top : operations)
  (glyphs : Z) (r : record) (q : Z) : Prop :=
  match r with
  | CharacterNameKeyed r => private_rest checks tape position top r q
  | CharacterIDKeyed r =>
      (exists select e, operand top Op_FDSelect select /\ select_encoding glyphs e (cid_encoding r) /\
         inside checks tape position select e q) \/
      exists ops inner, In (ops, inner) (combine (cid_operations r) (cid_records r)) /\
        private_rest checks tape position ops inner q
  end.

Definition font_rest (checks : bool) (tape : list byte) (position : Z) (x : font) (q : Z) : Prop :=
  (exists strings e, operand (font_operations x) Op_CharStrings strings /\
     index_encoding e (font_character_strings x) /\ inside checks tape position strings e q) \/
  (exists set e, operand (font_operations x) Op_CharSet set /\ ~ (0 <= set <= 2) /\
     character_set_encoding (count (font_character_strings x)) e (font_character_set x) /\
     inside checks tape position set e q) \/
  (exists code e, operand (font_operations x) Op_Encoding code /\ ~ (0 <= code <= 1) /\
     any_encoding e (font_encoding x) /\ inside checks tape position code e q) \/
  record_rest checks tape position (font_operations x) (count (font_character_strings x)) (font_record x) q.

(** The header, the names, the strings, the subroutines, and the rest of each font. *)
Definition font_set_rest (checks : bool) (tape : list byte) (position : Z) (f : font_set) (q : Z) : Prop :=
  position <= q < position + 4 \/
  (exists e1 e2 e3 e4 dictionaries i1 i2 i3 i4,
     index_encoding e1 (fs_names f) /\ index_encoding e2 dictionaries /\
     index_encoding e3 (fs_strings f) /\ index_encoding e4 (fs_subroutines f) /\
     located checks position (header_size (fs_header f)) i1 /\ stands tape i1 (e1 ++ e2 ++ e3 ++ e4) /\
     i2 = i1 + Z.of_nat (length e1) /\ i3 = i2 + Z.of_nat (length e2) /\ i4 = i3 + Z.of_nat (length (e3 ++ e4)) /\
     (i1 <= q < i2 \/ i3 <= q < i4)) \/
  exists i ops enc set strings r,
    nth_error (fs_operations f) i = Some ops /\ nth_error (fs_encodings f) i = Some enc /\
    nth_error (fs_character_sets f) i = Some set /\ nth_error (fs_character_strings f) i = Some strings /\
    nth_error (fs_records f) i = Some r /\
    font_rest checks tape position
      {| font_operations := ops; font_encoding := enc; font_character_set := set;
         font_character_strings := strings; font_record := r |} q.

(** ** Other dictionaries *)

(** [s] is [r] with the dictionary that stands on the tape. *)
Definition private_dressed (checks : bool) (tape' : list byte) (position : Z) (top : operations)
  (r s : private_record) : Prop :=
  private_subroutines s = private_subroutines r /\
  linked [Op_Subrs] (private_operations r) (private_operations s) /\
  exists size offset chunk, operands top Op_Private size offset /\
    found checks tape' position offset chunk /\ Z.of_nat (length chunk) = size /\
    dictionary_data chunk (private_operations s).

Definition record_dressed (checks : bool) (tape' : list byte) (position : Z) (top : operations)
  (r s : record) : Prop :=
  match r, s with
  | CharacterNameKeyed r, CharacterNameKeyed s => private_dressed checks tape' position top r s
  | CharacterIDKeyed r, CharacterIDKeyed s =>
      registry s = registry r /\ ordering s = ordering r /\ cid_supplement s = cid_supplement r /\
      cid_encoding s = cid_encoding r /\
      (exists array e dictionaries, operand top Op_FDArray array /\ found checks tape' position array e /\
         index_encoding e dictionaries /\ Forall2 dictionary_data (data dictionaries) (cid_operations s)) /\
      Forall2 (linked [Op_Private]) (cid_operations r) (cid_operations s) /\
      length (cid_records s) = length (cid_records r) /\
      forall i ops x y, nth_error (cid_operations r) i = Some ops -> nth_error (cid_records r) i = Some x ->
        nth_error (cid_records s) i = Some y -> private_dressed checks tape' position ops x y
  | _, _ => False
  end.

(** [g] is [f] with the dictionaries that stand on the other tape: the index of top dictionaries takes
    as many bytes as before, and the others stand where they stood. *)
Definition font_set_dressed (checks : bool) (tape tape' : list byte) (position : Z) (f g : font_set) : Prop :=
  fs_header g = fs_header f /\ fs_names g = fs_names f /\ fs_strings g = fs_strings f /\
  fs_subroutines g = fs_subroutines f /\ fs_encodings g = fs_encodings f /\
  fs_character_sets g = fs_character_sets f /\ fs_character_strings g = fs_character_strings f /\
  (exists e1 e2 e2' dictionaries dictionaries',
     index_encoding e1 (fs_names f) /\ index_encoding e2 dictionaries /\ index_encoding e2' dictionaries' /\
     length e2' = length e2 /\
     found checks tape position (header_size (fs_header f)) (e1 ++ e2) /\
     found checks tape' position (header_size (fs_header f)) (e1 ++ e2') /\
     Forall2 dictionary_data (data dictionaries') (fs_operations g)) /\
  length (fs_operations g) = length (fs_operations f) /\ length (fs_records g) = length (fs_records f) /\
  forall i a b r s, nth_error (fs_operations f) i = Some a -> nth_error (fs_operations g) i = Some b ->
    nth_error (fs_records f) i = Some r -> nth_error (fs_records g) i = Some s ->
    linked (top_links r) a b /\ record_dressed checks tape' position a r s.

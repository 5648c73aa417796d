(** SpecSize: how large the results are. *)
From Verif Require Import Base Float C1Number C1Operation C1Index C1Glyphs C1FontSet T2Operation T2Program.

(** Operators and operands are counted. *)
Definition count_operations {A B} (ops : list (A * list B)) : nat :=
  list_sum (map (fun op => S (length (snd op))) ops).

(** The number of bytes of an index: the count, and unless it is zero the size of the
    offsets, the offsets, and the elements ("The Compact Font Format", section 5). *)
Definition index_size (x : index) : Z :=
  match data x with
  | [] => 2
  | _ :: _ => 3 + offset_size x * (Z.of_nat (length (data x)) + 1) + Z.of_nat (length (concat (data x)))
  end.

(** ** Font sets

    What is held in memory is counted: bytes, elements and offsets of indices, operators and
    operands of dictionaries, and the entries of character sets and encodings. *)

Definition index_weight (x : index) : nat := length (offsets x) + length (data x) + length (concat (data x)).

Definition character_set_weight (c : character_set) : nat :=
  match c with
  | ISOAdobe | ExpertSet | ExpertSubset => 0
  | CharSetFormat0 _ glyphs => length glyphs
  | CharSetFormat1 _ ranges | CharSetFormat2 _ ranges => length ranges
  end.

Definition encoding_weight (e : encoding) : nat :=
  match e with
  | Standard | ExpertEncoding => 0
  | EncFormat0 _ _ codes => length codes
  | EncFormat1 _ _ ranges => length ranges
  | EncSupplemental _ _ supplements => length supplements
  end.

Definition private_weight (r : private_record) : nat :=
  count_operations (private_operations r) + index_weight (private_subroutines r).

Definition selector_weight (e : dictionary_encoding) : nat :=
  match e with
  | DictFormat0 _ ids => length ids
  | DictFormat3 _ _ ranges _ => length ranges
  end.

Definition record_weight (r : record) : nat :=
  match r with
  | CharacterNameKeyed r => private_weight r
  | CharacterIDKeyed r =>
      selector_weight (cid_encoding r) + list_sum (map count_operations (cid_operations r)) +
      list_sum (map private_weight (cid_records r))
  end.

Definition font_set_weight (f : font_set) : nat :=
  index_weight (fs_names f) + list_sum (map count_operations (fs_operations f)) +
  index_weight (fs_strings f) + index_weight (fs_subroutines f) +
  list_sum (map encoding_weight (fs_encodings f)) +
  list_sum (map index_weight (fs_character_strings f)) +
  list_sum (map character_set_weight (fs_character_sets f)) +
  list_sum (map record_weight (fs_records f)).

(** The number of private dictionaries of a font. *)
Definition privates (r : record) : nat :=
  match r with CharacterNameKeyed _ => 1 | CharacterIDKeyed r => length (cid_records r) end.

(** PropStream: property C62. *)
From Verif Require Import Base Float C1Number C1Operation C1Index C1Glyphs C1FontSet SpecStream StreamFacts CureFacts FontSetSamples.
From Verif Require T2Number.
Local Open Scope list_scope.
Local Open Scope Z_scope.

(** C62. Everything but [UnexpectedEof] is final, and [UnexpectedEof] is not. *)
Theorem C62_font_sets : forall (cfg : config) (tape : list byte) (p : Z),
  read_font_set cfg tape p <> Err UnexpectedEof <->
  forall post, read_font_set cfg (tape ++ post) p = read_font_set cfg tape p.
Proof. exact font_set_decided. Qed.
Print Assumptions C62_font_sets.

Theorem C62_counts : forall (cfg : config) (tape : list byte) (p : Z),
  font_set_count cfg tape p <> Err UnexpectedEof <->
  forall post, font_set_count cfg (tape ++ post) p = font_set_count cfg tape p.
Proof. exact count_decided. Qed.
Print Assumptions C62_counts.

(** The parts of a font set, which also leave what follows. *)
Theorem C62_numbers : forall (s : list byte),
  read_number s <> Err UnexpectedEof <-> decided read_number s.
Proof. exact number_decided. Qed.
Print Assumptions C62_numbers.

Theorem C62_operands : forall (s : list byte),
  T2Number.read_operand s <> Err UnexpectedEof <-> decided T2Number.read_operand s.
Proof. exact operand_decided. Qed.
Print Assumptions C62_operands.

Theorem C62_offsets : forall (size : Z) (s : list byte),
  read_offset size s <> Err UnexpectedEof <-> decided (read_offset size) s.
Proof. exact offset_decided. Qed.
Print Assumptions C62_offsets.

Theorem C62_operations : forall (s : list byte),
  read_operation s <> Err UnexpectedEof <-> decided read_operation s.
Proof. exact operation_decided. Qed.
Print Assumptions C62_operations.

Theorem C62_indices : forall (cfg : config) (s : list byte),
  read_index cfg s <> Err UnexpectedEof <-> decided (read_index cfg) s.
Proof. exact index_decided. Qed.
Print Assumptions C62_indices.

Theorem C62_character_sets : forall (cfg : config) (n : Z) (s : list byte),
  read_character_set cfg n s <> Err UnexpectedEof <-> decided (read_character_set cfg n) s.
Proof. exact character_set_decided. Qed.
Print Assumptions C62_character_sets.

Theorem C62_encodings : forall (cfg : config) (s : list byte),
  read_encoding cfg s <> Err UnexpectedEof <-> decided (read_encoding cfg) s.
Proof. exact encoding_decided. Qed.
Print Assumptions C62_encodings.

Theorem C62_selectors : forall (cfg : config) (n : Z) (s : list byte),
  read_dictionary_encoding cfg n s <> Err UnexpectedEof <-> decided (read_dictionary_encoding cfg n) s.
Proof. exact selector_decided. Qed.
Print Assumptions C62_selectors.

Theorem C62_headers : forall (s : list byte),
  read_header s <> Err UnexpectedEof <-> decided read_header s.
Proof. exact header_decided. Qed.
Print Assumptions C62_headers.

(** Rejected, cut short, and cut short within a number of an index that is rejected later. *)
Example C62_case : read_font_set dev_profile (firstn 50 name_keyed) 0 = Err UnexpectedEof /\
  read_font_set dev_profile (firstn 4 name_keyed ++ [x00; x01; x05]) 0 = Err Other.
Proof. vm_compute. auto. Qed.
Example C62_cut : read_number [x1e; xee] = Err UnexpectedEof /\ read_number [x1e; xee; xff] = Err Other /\
  read_number [x1e; xe1] = Err UnexpectedEof /\ read_number [x1e; xe1; xff] = Ok (Real (f32_of_i32 (-1)), []).
Proof. vm_compute. auto. Qed.

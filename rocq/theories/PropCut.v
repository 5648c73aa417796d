(** PropCut: property C72. *)
From Verif Require Import Base Float C1Number C1Operation C1Index C1Glyphs C1FontSet SpecNumber SpecOperation SpecIndex
  SpecGlyphs SpecFontSet SpecPanic SpecCut OperationFacts CutFacts CutFontSetFacts FontSetSamples.
From Verif Require T2Number SpecProgram T2NumberFacts.
Local Open Scope list_scope.
Local Open Scope Z_scope.

(** C72. [UnexpectedEof] is reported exactly where the end of the tape comes first, and
    [Other] exactly where something else does. *)
Theorem C72_font_sets : forall (cfg : config) (tape : list byte) (p : Z),
  0 <= p < 2 ^ 63 -> Z.of_nat (length tape) < 2 ^ 63 ->
  read_font_set cfg tape p = Err UnexpectedEof <-> font_set_cut (overflow_checks cfg) (preallocates cfg) tape p.
Proof. exact font_set_cut_iff. Qed.
Print Assumptions C72_font_sets.

Theorem C72_font_sets_malformed : forall (cfg : config) (tape : list byte) (p : Z),
  0 <= p < 2 ^ 63 -> Z.of_nat (length tape) < 2 ^ 63 ->
  read_font_set cfg tape p = Err Other <->
  ~ (exists f, font_set_layout (overflow_checks cfg) tape p f) /\
  ~ (exists k, font_set_panic (overflow_checks cfg) (preallocates cfg) tape p k) /\
  ~ font_set_cut (overflow_checks cfg) (preallocates cfg) tape p.
Proof. exact font_set_other. Qed.
Print Assumptions C72_font_sets_malformed.

(** Whatever reads font sets and agrees with the four descriptions does the same. *)
Theorem C72_determined : forall (cfg : config) (read : list byte -> Z -> outcome font_set),
  (forall tape p, 0 <= p < 2 ^ 63 -> Z.of_nat (length tape) < 2 ^ 63 ->
    (forall f, font_set_layout (overflow_checks cfg) tape p f -> read tape p = Ok f) /\
    (forall k, font_set_panic (overflow_checks cfg) (preallocates cfg) tape p k -> read tape p = Panic k) /\
    (font_set_cut (overflow_checks cfg) (preallocates cfg) tape p -> read tape p = Err UnexpectedEof) /\
    (~ (exists f, font_set_layout (overflow_checks cfg) tape p f) ->
     ~ (exists k, font_set_panic (overflow_checks cfg) (preallocates cfg) tape p k) ->
     ~ font_set_cut (overflow_checks cfg) (preallocates cfg) tape p -> read tape p = Err Other)) <->
  (forall tape p, 0 <= p < 2 ^ 63 -> Z.of_nat (length tape) < 2 ^ 63 -> read tape p = read_font_set cfg tape p).
Proof. exact font_set_determined. Qed.
Print Assumptions C72_determined.

Theorem C72_counts : forall (cfg : config) (tape : list byte) (p : Z),
  0 <= p < 2 ^ 63 -> Z.of_nat (length tape) < 2 ^ 63 ->
  font_set_count cfg tape p = Err UnexpectedEof <-> count_cut (overflow_checks cfg) tape p.
Proof. exact count_cut_iff. Qed.
Print Assumptions C72_counts.

(** The parts. *)
Theorem C72_headers : forall (s : list byte), read_header s = Err UnexpectedEof <-> header_cut s.
Proof. exact header_cut_iff. Qed.
Print Assumptions C72_headers.

Theorem C72_numbers : forall (s : list byte), read_number s = Err UnexpectedEof <-> number_cut s.
Proof. exact number_cut_iff. Qed.
Print Assumptions C72_numbers.

Theorem C72_numbers_malformed : forall (s : list byte),
  read_number s = Err Other <-> ~ begins operand_encoding s /\ ~ number_cut s.
Proof. exact number_other. Qed.
Print Assumptions C72_numbers_malformed.

Theorem C72_offsets : forall (size : Z) (s : list byte),
  read_offset size s = Err UnexpectedEof <-> 1 <= size <= 4 /\ Z.of_nat (length s) < size.
Proof. exact offset_cut_iff. Qed.
Print Assumptions C72_offsets.

Theorem C72_operations : forall (s : list byte), read_operation s = Err UnexpectedEof <-> cut_operation s.
Proof. exact read_operation_eof_iff. Qed.
Print Assumptions C72_operations.

Theorem C72_operations_malformed : forall (s : list byte),
  read_operation s = Err Other <-> ~ begins operation_encoding s /\ ~ cut_operation s.
Proof. exact operation_other. Qed.
Print Assumptions C72_operations_malformed.

Theorem C72_indices : forall (cfg : config) (s : list byte), read_index cfg s = Err UnexpectedEof <-> index_cut s.
Proof. exact index_cut_iff. Qed.
Print Assumptions C72_indices.

Theorem C72_indices_malformed : forall (cfg : config) (s : list byte),
  read_index cfg s = Err Other <-> ~ begins index_encoding s /\ ~ index_cut s.
Proof. exact index_other. Qed.
Print Assumptions C72_indices_malformed.

Theorem C72_character_sets : forall (cfg : config) (n : Z) (s : list byte),
  0 <= n < 2 ^ 62 -> Z.of_nat (length s) < 2 ^ 63 ->
  read_character_set cfg n s = Err UnexpectedEof <-> character_set_cut (overflow_checks cfg) (preallocates cfg) n s.
Proof. exact character_set_cut_iff. Qed.
Print Assumptions C72_character_sets.

Theorem C72_character_sets_malformed : forall (cfg : config) (n : Z) (s : list byte),
  0 <= n < 2 ^ 62 -> Z.of_nat (length s) < 2 ^ 63 ->
  read_character_set cfg n s = Err Other <->
  ~ begins (character_set_encoding n) s /\ ~ set_panic (overflow_checks cfg) (preallocates cfg) n s /\
  ~ character_set_cut (overflow_checks cfg) (preallocates cfg) n s.
Proof. exact character_set_other. Qed.
Print Assumptions C72_character_sets_malformed.

Theorem C72_encodings : forall (cfg : config) (s : list byte), read_encoding cfg s = Err UnexpectedEof <-> encoding_cut s.
Proof. exact encoding_cut_iff. Qed.
Print Assumptions C72_encodings.

Theorem C72_encodings_malformed : forall (cfg : config) (s : list byte),
  read_encoding cfg s = Err Other <-> ~ begins any_encoding s /\ ~ encoding_cut s.
Proof. exact encoding_other. Qed.
Print Assumptions C72_encodings_malformed.

Theorem C72_selectors : forall (cfg : config) (n : Z) (s : list byte), 0 <= n < 2 ^ 62 ->
  read_dictionary_encoding cfg n s = Err UnexpectedEof <-> select_cut n s.
Proof. exact select_cut_iff. Qed.
Print Assumptions C72_selectors.

Theorem C72_selectors_malformed : forall (cfg : config) (n : Z) (s : list byte), 0 <= n < 2 ^ 62 ->
  read_dictionary_encoding cfg n s = Err Other <-> ~ begins (select_encoding n) s /\ ~ select_cut n s.
Proof. exact select_other_iff. Qed.
Print Assumptions C72_selectors_malformed.

(** Numbers in character strings. *)
Theorem C72_operands : forall (s : list byte),
  T2Number.read_operand s = Err UnexpectedEof <-> exists u x, u <> [] /\ SpecProgram.t2_number (s ++ u) x.
Proof. exact T2NumberFacts.read_operand_cut_iff. Qed.
Print Assumptions C72_operands.

(** Elements that go on past the end are cut short even if the offsets decrease further on,
    and malformed if they decrease before that; an offset size of five is malformed whatever
    follows. *)
Example C72_order : read_index dev_profile [x00; x02; x01; x01; x09; x02; x00] = Err UnexpectedEof /\
  read_index dev_profile [x00; x02; x01; x01; x00; x09] = Err Other /\
  read_index dev_profile [x00; x02; x05] = Err Other.
Proof. vm_compute. auto. Qed.
Example C72_elements : index_cut [x00; x02; x01; x01; x09; x02; x00].
Proof. apply (C72_indices dev_profile). vm_compute. reflexivity. Qed.
Example C72_case : font_set_cut true true (firstn 50 name_keyed) 0.
Proof. apply (C72_font_sets dev_profile); [lia|cbn; lia|]. vm_compute. reflexivity. Qed.
Example C72_case_malformed : ~ font_set_cut true true (firstn 4 name_keyed ++ [x00; x01; x05]) 0.
Proof.
  intros H. apply (C72_font_sets dev_profile) in H; [|lia|cbn; lia]. vm_compute in H. discriminate.
Qed.

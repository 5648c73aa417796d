(** PropFontSet: properties C28 to C37 and C53. *)
From Verif Require Import Base Float C1Number C1Operation C1Index C1Glyphs C1FontSet SpecFontSet LayoutFacts.
From Verif Require Import FontSetFacts FontSetSamples SpecPanic PanicFacts SpecEmbed EmbedFacts.
Local Open Scope list_scope.
Local Open Scope Z_scope.

(** C28. *)
Theorem C28_layout : forall (cfg : config) (tape : list byte) (p : Z) (f : font_set),
  0 <= p -> Z.of_nat (length tape) < 2 ^ 63 ->
  (read_font_set cfg tape p = Ok f <-> font_set_layout (overflow_checks cfg) tape p f).
Proof. exact font_set_iff_closed. Qed.
Print Assumptions C28_layout.

(** The places of [font_set_layout] are the sums of the position and the offsets. *)
Theorem C28_places : forall (checks : bool) (tape : list byte) (p offset : Z) (e : list byte),
  0 <= p < 2 ^ 63 -> 0 <= offset < 2 ^ 31 ->
  (found checks tape p offset e <-> exists rest, skipn (Z.to_nat (p + offset)) tape = e ++ rest).
Proof. exact found_forward. Qed.
Print Assumptions C28_places.

Example C28_name_keyed : read_font_set dev_profile name_keyed 0 = Ok name_keyed_value.
Proof. vm_compute. reflexivity. Qed.
Example C28_cid_keyed : read_font_set dev_profile cid_keyed 0 = Ok cid_keyed_value.
Proof. vm_compute. reflexivity. Qed.
Example C28_release : read_font_set release_profile ([x07; x07] ++ cid_keyed) 2 = Ok cid_keyed_value.
Proof. vm_compute. reflexivity. Qed.

(** C29. *)
Theorem C29_parallel : forall (cfg : config) (tape : list byte) (p : Z) (f : font_set),
  0 <= p -> Z.of_nat (length tape) < 2 ^ 63 -> read_font_set cfg tape p = Ok f ->
  length (fs_encodings f) = length (fs_operations f) /\
  length (fs_character_sets f) = length (fs_operations f) /\
  length (fs_character_strings f) = length (fs_operations f) /\
  length (fs_records f) = length (fs_operations f) /\
  forall i ops, nth_error (fs_operations f) i = Some ops ->
    exists enc set cs r,
      nth_error (fs_encodings f) i = Some enc /\ nth_error (fs_character_sets f) i = Some set /\
      nth_error (fs_character_strings f) i = Some cs /\ nth_error (fs_records f) i = Some r /\
      font_layout (overflow_checks cfg) tape p
        {| font_operations := ops; font_encoding := enc; font_character_set := set;
           font_character_strings := cs; font_record := r |}.
Proof. exact parallel. Qed.
Print Assumptions C29_parallel.

Theorem C29_top_dictionaries : forall (cfg : config) (tape : list byte) (p : Z) (f : font_set),
  0 <= p -> Z.of_nat (length tape) < 2 ^ 63 -> read_font_set cfg tape p = Ok f ->
  Forall (top_dictionary (overflow_checks cfg) tape p) (fs_operations f).
Proof. exact top_dictionaries. Qed.
Print Assumptions C29_top_dictionaries.

(** C30. [FontSet::count] reports the number of names; nothing makes it the number of
    fonts. *)
Theorem C30_refuted : forall cfg, exists tape f n,
  read_font_set cfg tape 0 = Ok f /\ font_set_count cfg tape 0 = Ok n /\
  n <> Z.of_nat (length (fs_records f)).
Proof. exact count_refuted. Qed.
Print Assumptions C30_refuted.

Theorem C30_names : forall (cfg : config) (tape : list byte) (p : Z) (f : font_set),
  0 <= p -> Z.of_nat (length tape) < 2 ^ 63 -> read_font_set cfg tape p = Ok f ->
  font_set_count cfg tape p = Ok (Z.of_nat (length (data (fs_names f)))).
Proof. exact count_names. Qed.
Print Assumptions C30_names.

Theorem C30_partial : forall (cfg : config) (tape : list byte) (p : Z) (f : font_set),
  0 <= p -> Z.of_nat (length tape) < 2 ^ 63 -> read_font_set cfg tape p = Ok f ->
  (font_set_count cfg tape p = Ok (Z.of_nat (length (fs_records f))) <->
   length (data (fs_names f)) = length (fs_operations f)).
Proof. exact count_partial. Qed.
Print Assumptions C30_partial.

Example C30_case : length (data (fs_names cid_keyed_value)) = length (fs_operations cid_keyed_value) /\
  font_set_count dev_profile cid_keyed 0 = Ok 1.
Proof. vm_compute. auto. Qed.

(** C31. *)
Theorem C31_unchecked : forall (cfg : config) (pre tape : list byte) (p : Z) (f : font_set),
  overflow_checks cfg = false -> 0 <= p -> Z.of_nat (length pre) + p < 2 ^ 63 ->
  Z.of_nat (length (pre ++ tape)) < 2 ^ 63 ->
  read_font_set cfg tape p = Ok f ->
  read_font_set cfg (pre ++ tape) (Z.of_nat (length pre) + p) = Ok f.
Proof. exact embedding_unchecked. Qed.
Print Assumptions C31_unchecked.

Theorem C31_checked_refuted : forall cfg, overflow_checks cfg = true ->
  exists tape b f k, read_font_set cfg tape 0 = Ok f /\ read_font_set cfg (b :: tape) 1 = Panic k.
Proof. exact embedding_refuted. Qed.
Print Assumptions C31_checked_refuted.

Theorem C31_partial : forall (cfg : config) (pre tape : list byte) (p : Z) (f : font_set),
  0 <= p -> Z.of_nat (length pre) + p < 2 ^ 63 -> Z.of_nat (length (pre ++ tape)) < 2 ^ 63 ->
  read_font_set cfg tape p = Ok f ->
  (read_font_set cfg (pre ++ tape) (Z.of_nat (length pre) + p) = Ok f <->
   (overflow_checks cfg = true -> forall ops size offset,
      In ops (private_dictionaries f) -> operands ops Op_Private size offset ->
      ~ (offset < 0 <= Z.of_nat (length pre) + p + offset))).
Proof. exact prepend_iff. Qed.
Print Assumptions C31_partial.

Theorem C31_otherwise : forall (cfg : config) (pre tape : list byte) (p : Z) (f : font_set),
  0 <= p -> Z.of_nat (length pre) + p < 2 ^ 63 -> Z.of_nat (length (pre ++ tape)) < 2 ^ 63 ->
  read_font_set cfg tape p = Ok f ->
  read_font_set cfg (pre ++ tape) (Z.of_nat (length pre) + p) = Ok f \/
  read_font_set cfg (pre ++ tape) (Z.of_nat (length pre) + p) = Panic ArithmeticOverflow.
Proof. exact prepend_or. Qed.
Print Assumptions C31_otherwise.

Example C31_case : forall ops size offset pre,
  In ops (private_dictionaries name_keyed_value) -> operands ops Op_Private size offset ->
  ~ (offset < 0 <= Z.of_nat (length (A := byte) pre) + 0 + offset).
Proof.
  intros ops size offset pre [<-|[]] H. apply need_double_iff in H. vm_compute in H. injection H as <- <-. lia.
Qed.
Example C31_cid_case : read_font_set dev_profile ([x07; x07; x07] ++ cid_keyed) (Z.of_nat 3 + 0) = Ok cid_keyed_value.
Proof. vm_compute. reflexivity. Qed.

(** Whatever the outcome is, it is the same, if nothing is said to be before the position. *)
Theorem C31_same_partial : forall (cfg : config) (pre tape : list byte) (p : Z),
  0 <= p -> Z.of_nat (length pre) + p < 2 ^ 63 -> Z.of_nat (length tape) < 2 ^ 63 ->
  (forall top, top_dictionary (overflow_checks cfg) tape p top ->
     ~ part_before (overflow_checks cfg) tape p top) ->
  read_font_set cfg (pre ++ tape) (Z.of_nat (length pre) + p) = read_font_set cfg tape p.
Proof. exact font_set_prepend_closed. Qed.
Print Assumptions C31_same_partial.

(** Otherwise bytes in front may complete a font set that cannot be read without them. *)
Theorem C31_borrowed_refuted : forall cfg, overflow_checks cfg = false ->
  exists tape pre f, read_font_set cfg tape 0 = Err UnexpectedEof /\
    read_font_set cfg (pre ++ tape) (Z.of_nat (length pre) + 0) = Ok f.
Proof. exact borrowed_refuted. Qed.
Print Assumptions C31_borrowed_refuted.

Theorem C31_counts : forall (cfg : config) (pre tape : list byte) (p : Z),
  0 <= p -> Z.of_nat (length pre) + p < 2 ^ 63 ->
  font_set_count cfg (pre ++ tape) (Z.of_nat (length pre) + p) = font_set_count cfg tape p.
Proof. exact count_prepend_closed. Qed.
Print Assumptions C31_counts.

Example C31_same_case : forall top, top_dictionary true name_keyed 0 top -> ~ part_before true name_keyed 0 top.
Proof. exact (name_keyed_within true). Qed.
Example C31_counts_case : font_set_count dev_profile ([x07; x07; x07] ++ cid_keyed) (Z.of_nat 3 + 0) = Ok 1.
Proof. vm_compute. reflexivity. Qed.

(** C32. *)
Theorem C32_font_set : forall (cfg : config) (tape post : list byte) (p : Z) (f : font_set),
  0 <= p -> Z.of_nat (length (tape ++ post)) < 2 ^ 63 ->
  read_font_set cfg tape p = Ok f -> read_font_set cfg (tape ++ post) p = Ok f.
Proof. exact append_read. Qed.
Print Assumptions C32_font_set.

Theorem C32_truncated : forall (cfg : config) (tape post : list byte) (p : Z) (f g : font_set),
  0 <= p -> Z.of_nat (length (tape ++ post)) < 2 ^ 63 ->
  read_font_set cfg (tape ++ post) p = Ok f -> read_font_set cfg tape p = Ok g -> g = f.
Proof. exact truncated_read. Qed.
Print Assumptions C32_truncated.

Theorem C32_tables : forall (cfg : config) (s t : list byte),
  (forall x r, read_index cfg s = Ok (x, r) -> read_index cfg (s ++ t) = Ok (x, r ++ t)) /\
  (forall x r, read_header s = Ok (x, r) -> read_header (s ++ t) = Ok (x, r ++ t)) /\
  (forall x r, read_number s = Ok (x, r) -> read_number (s ++ t) = Ok (x, r ++ t)) /\
  (forall x r, read_operation s = Ok (x, r) -> read_operation (s ++ t) = Ok (x, r ++ t)) /\
  (forall x r, read_encoding cfg s = Ok (x, r) -> read_encoding cfg (s ++ t) = Ok (x, r ++ t)) /\
  (forall n x r, 1 <= n < 2 ^ 62 -> read_character_set cfg n s = Ok (x, r) ->
     read_character_set cfg n (s ++ t) = Ok (x, r ++ t)) /\
  (forall n x r, 0 <= n < 2 ^ 62 -> read_dictionary_encoding cfg n s = Ok (x, r) ->
     read_dictionary_encoding cfg n (s ++ t) = Ok (x, r ++ t)).
Proof. exact append_tables. Qed.
Print Assumptions C32_tables.

Example C32_case : read_font_set dev_profile (name_keyed ++ [x01]) 0 = Ok name_keyed_value /\
  read_font_set dev_profile (firstn 50 name_keyed) 0 = Err UnexpectedEof.
Proof. vm_compute. auto. Qed.

(** C33. *)
Theorem C33_kind : forall (cfg : config) (tape : list byte) (p : Z) (f : font_set)
  (i : nat) (ops : operations) (r : record),
  0 <= p -> Z.of_nat (length tape) < 2 ^ 63 -> read_font_set cfg tape p = Ok f ->
  nth_error (fs_operations f) i = Some ops -> nth_error (fs_records f) i = Some r ->
  ((exists c, r = CharacterIDKeyed c) <-> (exists v, entry ops Op_ROS v)).
Proof. exact kind_iff. Qed.
Print Assumptions C33_kind.

(** String identifiers are kept on 16 bits. *)
Theorem C33_operands : forall (cfg : config) (tape : list byte) (p : Z) (f : font_set)
  (i : nat) (ops : operations) (c : cid_record),
  0 <= p -> Z.of_nat (length tape) < 2 ^ 63 -> read_font_set cfg tape p = Ok f ->
  nth_error (fs_operations f) i = Some ops -> nth_error (fs_records f) i = Some (CharacterIDKeyed c) ->
  exists a b, entry ops Op_ROS [Integer a; Integer b; cid_supplement c] /\
    0 <= a /\ 0 <= b /\ registry c = a mod 2 ^ 16 /\ ordering c = b mod 2 ^ 16.
Proof. exact kind_operands. Qed.
Print Assumptions C33_operands.

Example C33_case :
  nth_error (fs_records cid_keyed_value) 0 = Some (CharacterIDKeyed cid_keyed_record) /\
  nth_error (fs_records name_keyed_value) 0 = Some (CharacterNameKeyed name_keyed_record).
Proof. auto. Qed.

(** C34. *)
Theorem C34_font_dictionaries : forall (cfg : config) (tape : list byte) (p : Z) (f : font_set)
  (i : nat) (ops : operations) (c : cid_record),
  0 <= p -> Z.of_nat (length tape) < 2 ^ 63 -> read_font_set cfg tape p = Ok f ->
  nth_error (fs_operations f) i = Some ops -> nth_error (fs_records f) i = Some (CharacterIDKeyed c) ->
  (exists array e dictionaries, operand ops Op_FDArray array /\
     found (overflow_checks cfg) tape p array e /\ index_encoding e dictionaries /\
     Forall2 dictionary_data (data dictionaries) (cid_operations c)) /\
  length (cid_records c) = length (cid_operations c) /\
  forall j o r, nth_error (cid_operations c) j = Some o -> nth_error (cid_records c) j = Some r ->
    private_layout (overflow_checks cfg) tape p o r.
Proof. exact cid_parallel. Qed.
Print Assumptions C34_font_dictionaries.

(** C35. *)
Theorem C35_name_keyed : forall (cfg : config) (tape : list byte) (p : Z) (f : font_set)
  (i : nat) (ops : operations) (r : private_record) (size offset : Z),
  0 <= p < 2 ^ 63 -> Z.of_nat (length tape) < 2 ^ 63 -> read_font_set cfg tape p = Ok f ->
  nth_error (fs_operations f) i = Some ops -> nth_error (fs_records f) i = Some (CharacterNameKeyed r) ->
  operands ops Op_Private size offset -> 0 <= offset < 2 ^ 31 ->
  let chunk := firstn (Z.to_nat size) (skipn (Z.to_nat (p + offset)) tape) in
  Z.of_nat (length chunk) = size /\ dictionary_data chunk (private_operations r) /\
  (no_operand (private_operations r) Op_Subrs -> private_subroutines r = index_value 0 []) /\
  (forall another, operand (private_operations r) Op_Subrs another -> 0 <= offset + another < 2 ^ 31 ->
     exists e rest, skipn (Z.to_nat (p + offset + another)) tape = e ++ rest /\
       index_encoding e (private_subroutines r)).
Proof. exact name_keyed_forward. Qed.
Print Assumptions C35_name_keyed.

Theorem C35_cid_keyed : forall (cfg : config) (tape : list byte) (p : Z) (f : font_set)
  (i : nat) (ops : operations) (c : cid_record) (j : nat) (o : operations) (r : private_record)
  (size offset : Z),
  0 <= p < 2 ^ 63 -> Z.of_nat (length tape) < 2 ^ 63 -> read_font_set cfg tape p = Ok f ->
  nth_error (fs_operations f) i = Some ops -> nth_error (fs_records f) i = Some (CharacterIDKeyed c) ->
  nth_error (cid_operations c) j = Some o -> nth_error (cid_records c) j = Some r ->
  operands o Op_Private size offset -> 0 <= offset < 2 ^ 31 ->
  let chunk := firstn (Z.to_nat size) (skipn (Z.to_nat (p + offset)) tape) in
  Z.of_nat (length chunk) = size /\ dictionary_data chunk (private_operations r) /\
  (no_operand (private_operations r) Op_Subrs -> private_subroutines r = index_value 0 []) /\
  (forall another, operand (private_operations r) Op_Subrs another -> 0 <= offset + another < 2 ^ 31 ->
     exists e rest, skipn (Z.to_nat (p + offset + another)) tape = e ++ rest /\
       index_encoding e (private_subroutines r)).
Proof. exact cid_forward. Qed.
Print Assumptions C35_cid_keyed.

Example C35_case : operands name_keyed_operations Op_Private 2 43 /\
  operand (private_operations name_keyed_record) Op_Subrs 2 /\
  skipn (Z.to_nat 45) name_keyed = [x00; x01; x01; x01; x02; x0b].
Proof. repeat split. - apply need_double_iff. reflexivity. - apply need_single_iff. reflexivity. Qed.

(** C36. *)
Theorem C36_formats : forall (cfg : config) (glyphs : Z) (s : list byte)
  (x : C1FontSet.dictionary_encoding) (r : list byte), 0 <= glyphs < 2 ^ 62 ->
  (read_dictionary_encoding cfg glyphs s = Ok (x, r) <->
   exists e, s = e ++ r /\ select_encoding glyphs e x).
Proof. exact select_iff. Qed.
Print Assumptions C36_formats.

Theorem C36_other_formats : forall (cfg : config) (glyphs : Z) (b : byte) (t : list byte),
  bz b <> 0 -> bz b <> 3 -> read_dictionary_encoding cfg glyphs (b :: t) = Err Other.
Proof. exact select_other. Qed.
Print Assumptions C36_other_formats.

Theorem C36_settled : forall (cfg : config) (glyphs : Z) (s : list byte),
  0 <= glyphs < 2 ^ 62 -> settled (read_dictionary_encoding cfg glyphs s).
Proof. exact select_settled. Qed.
Print Assumptions C36_settled.

Example C36_case : read_dictionary_encoding dev_profile 2 [x00; x01; x00; xff] =
    Ok (DictFormat0 0 [1; 0], [xff]) /\
  read_dictionary_encoding dev_profile 2 [x03; x00; x01; x00; x00; x00; x00; x02] =
    Ok (DictFormat3 3 1 [{| first_glyph_id := 0; dictionary_id := 0 |}] 2, []).
Proof. vm_compute. auto. Qed.

(** C37. *)
Theorem C37_refuted : forall cfg, overflow_checks cfg = true \/ preallocates cfg = true ->
  exists tape k, read_font_set cfg tape 1 = Panic k.
Proof. exact panic_exists. Qed.
Print Assumptions C37_refuted.

(** The font sets that can cause a panic are those with a [hostile] top dictionary. *)
Theorem C37_partial : forall (cfg : config) (tape : list byte) (p : Z),
  0 <= p < 2 ^ 63 -> Z.of_nat (length tape) < 2 ^ 63 ->
  (forall top, top_dictionary (overflow_checks cfg) tape p top ->
     ~ hostile (overflow_checks cfg) tape p top) ->
  settled (read_font_set cfg tape p).
Proof. exact guarded_settled. Qed.
Print Assumptions C37_partial.

Example C37_case : forall top, top_dictionary true name_keyed 0 top -> ~ hostile true name_keyed 0 top.
Proof. exact (name_keyed_not_hostile true). Qed.

(** Without overflow checks and with buffers that grow with what is read, nothing does. *)
Theorem C37_quiet : forall (cfg : config) (tape : list byte) (p : Z),
  overflow_checks cfg = false -> preallocates cfg = false ->
  0 <= p < 2 ^ 63 -> Z.of_nat (length tape) < 2 ^ 63 -> settled (read_font_set cfg tape p).
Proof. exact quiet_settled. Qed.
Print Assumptions C37_quiet.

(** The font sets that do cause a panic, and which. *)
Theorem C37_panics_partial : forall (cfg : config) (tape : list byte) (p : Z),
  0 <= p < 2 ^ 63 -> Z.of_nat (length tape) < 2 ^ 63 ->
  forall k, read_font_set cfg tape p = Panic k <->
    font_set_panic (overflow_checks cfg) (preallocates cfg) tape p k.
Proof. exact font_set_panic_iff. Qed.
Print Assumptions C37_panics_partial.

(** Reading ends, and all else is rejected. *)
Theorem C37_ends : forall (cfg : config) (tape : list byte) (p : Z),
  0 <= p < 2 ^ 63 -> Z.of_nat (length tape) < 2 ^ 63 -> read_font_set cfg tape p <> OutOfFuel.
Proof. exact read_font_set_ends. Qed.
Print Assumptions C37_ends.

Theorem C37_rejected : forall (cfg : config) (tape : list byte) (p : Z),
  0 <= p < 2 ^ 63 -> Z.of_nat (length tape) < 2 ^ 63 ->
  ((exists e, read_font_set cfg tape p = Err e) <->
   ~ (exists f, font_set_layout (overflow_checks cfg) tape p f) /\
   ~ (exists k, font_set_panic (overflow_checks cfg) (preallocates cfg) tape p k)).
Proof. exact font_set_error_iff. Qed.
Print Assumptions C37_rejected.

Definition going_back : list byte :=
  [x00; x01; x00; x04; x01; x00; x00; x00; x01; x01; x01; x03; x8a; x11; x00; x00; x00; x00].
Example C37_panics_case : font_set_panic true true going_back 1 ArithmeticOverflow.
Proof.
  apply (font_set_panic_iff dev_profile going_back 1); [lia|vm_compute; reflexivity|]. vm_compute. reflexivity.
Qed.
Example C37_rejected_case : exists e, read_font_set dev_profile [x01; x00; x04; x01] 0 = Err e.
Proof. eexists. vm_compute. reflexivity. Qed.

(** C53. A build profile with fewer checks reads whatever one with more checks reads. *)
Theorem C53_profiles : forall (cfg cfg' : config) (tape : list byte) (p : Z) (f : font_set),
  0 <= p -> Z.of_nat (length tape) < 2 ^ 63 ->
  (overflow_checks cfg' = true -> overflow_checks cfg = true) ->
  read_font_set cfg tape p = Ok f -> read_font_set cfg' tape p = Ok f.
Proof. exact profiles_read. Qed.
Print Assumptions C53_profiles.

(** And one with more checks reads the same or reports an overflow. *)
Theorem C53_otherwise : forall (cfg cfg' : config) (tape : list byte) (p : Z) (f : font_set),
  0 <= p < 2 ^ 63 -> Z.of_nat (length tape) < 2 ^ 63 -> read_font_set cfg tape p = Ok f ->
  read_font_set cfg' tape p = Ok f \/ read_font_set cfg' tape p = Panic ArithmeticOverflow.
Proof. exact profiles_or. Qed.
Print Assumptions C53_otherwise.

(** PropGlyphs: properties C21 to C27. *)
From Coq Require Import String.
From Verif Require Import Base C1Operation C1Index C1Glyphs Tables SpecGlyphs GlyphFacts.
Local Open Scope list_scope.
Local Open Scope Z_scope.

(** C21. *)
Theorem C21_format0 : forall (cfg : config) (n : Z) (s : list byte) (ids : list Z) (r : list byte),
  1 <= n < 2 ^ 62 ->
  (read_character_set cfg n s = Ok (CharSetFormat0 0 ids, r) <->
   Z.of_nat (length ids) = n - 1 /\ Forall (fun id => 0 <= id < 2 ^ 16) ids /\
   s = x00 :: flat_map (be_bytes 2) ids ++ r).
Proof. exact format0_iff. Qed.
Print Assumptions C21_format0.

Theorem C21_format0_only : forall (cfg : config) (n : Z) (t : list byte) (c : character_set) (r : list byte),
  1 <= n < 2 ^ 62 -> read_character_set cfg n (x00 :: t) = Ok (c, r) ->
  exists ids, c = CharSetFormat0 0 ids.
Proof. exact format0_read. Qed.
Print Assumptions C21_format0_only.

Example C21_case : read_character_set dev_profile 3 [x00; x00; x22; x01; x87; xff] =
  Ok (CharSetFormat0 0 [34; 391], [xff]).
Proof. reflexivity. Qed.

(** C22. *)
Theorem C22_format1 : forall (cfg : config) (n : Z) (t : list byte) (c : character_set) (r : list byte),
  1 <= n < 2 ^ 62 ->
  (read_character_set cfg n (x01 :: t) = Ok (c, r) <->
   exists e ranges, c = CharSetFormat1 1 ranges /\ t = e ++ r /\
     each (range_encoding 1) e ranges /\ covered ranges = n - 1).
Proof. exact format1_iff. Qed.
Print Assumptions C22_format1.

Theorem C22_format2 : forall (cfg : config) (n : Z) (t : list byte) (c : character_set) (r : list byte),
  1 <= n < 2 ^ 62 ->
  (read_character_set cfg n (x02 :: t) = Ok (c, r) <->
   exists e ranges, c = CharSetFormat2 2 ranges /\ t = e ++ r /\
     each (range_encoding 2) e ranges /\ covered ranges = n - 1).
Proof. exact format2_iff. Qed.
Print Assumptions C22_format2.

Theorem C22_format1_overshoot : forall cfg n e ranges ex x r, 1 <= n < 2 ^ 62 ->
  each (range_encoding 1) e ranges -> range_encoding 1 ex x ->
  covered ranges < n - 1 -> n - 1 < covered (ranges ++ [x]) ->
  read_character_set cfg n (x01 :: e ++ ex ++ r) = Err Other.
Proof. exact format1_overshoot. Qed.
Print Assumptions C22_format1_overshoot.

Theorem C22_format2_overshoot : forall cfg n e ranges ex x r, 1 <= n < 2 ^ 62 ->
  each (range_encoding 2) e ranges -> range_encoding 2 ex x ->
  covered ranges < n - 1 -> n - 1 < covered (ranges ++ [x]) ->
  read_character_set cfg n (x02 :: e ++ ex ++ r) = Err Other.
Proof. exact format2_overshoot. Qed.
Print Assumptions C22_format2_overshoot.

Theorem C22_other_formats : forall (cfg : config) (n : Z) (b : byte) (t : list byte),
  2 < bz b -> read_character_set cfg n (b :: t) = Err Other.
Proof. exact other_character_sets. Qed.
Print Assumptions C22_other_formats.

(** A table cut short is an error of its own kind, and nothing panics. *)
Theorem C22_cut : forall (cfg : config) (n : Z), 1 <= n < 2 ^ 62 ->
  forall (e1 e2 : list byte) (c : character_set), character_set_encoding n (e1 ++ e2) c -> e2 <> [] ->
  read_character_set cfg n e1 = Err UnexpectedEof.
Proof. exact read_character_set_eof. Qed.
Print Assumptions C22_cut.

Theorem C22_no_panic : forall (cfg : config) (n : Z), 1 <= n < 2 ^ 62 ->
  forall s : list byte, settled (read_character_set cfg n s).
Proof. exact read_character_set_total. Qed.
Print Assumptions C22_no_panic.

(** A table that was read assigns a string to every glyph but the first. *)
Theorem C22_all_assigned : forall (cfg : config) (n : Z) (s : list byte) (c : character_set) (r : list byte),
  1 <= n < 2 ^ 62 -> read_character_set cfg n s = Ok (c, r) -> Z.of_nat (length (assigned c)) = n - 1.
Proof. exact read_character_set_assigned. Qed.
Print Assumptions C22_all_assigned.

Example C22_case : read_character_set dev_profile 6 [x01; x00; x22; x02; x00; x42; x01; xff] =
  Ok (CharSetFormat1 1 [{| first_string_id := 34; left_count := 2 |};
                        {| first_string_id := 66; left_count := 1 |}], [xff]).
Proof. reflexivity. Qed.
Example C22_case_overshoot : read_character_set dev_profile 5 [x01; x00; x22; x02; x00; x42; x01; xff] =
  Err Other.
Proof. reflexivity. Qed.

(** C23: false for the first glyph of ISOAdobe, and for most glyphs of the other two. *)
Theorem C23_iso_adobe_refuted : exists id, 0 <= id <= 228 /\
  character_set_get ISOAdobe id <> predefined_name iso_adobe_glyphs id.
Proof. exact iso_adobe_refuted. Qed.
Print Assumptions C23_iso_adobe_refuted.

Theorem C23_expert_refuted : exists id, 0 <= id < Z.of_nat (length expert_glyphs) /\
  character_set_get ExpertSet id <> predefined_name expert_glyphs id.
Proof. exact expert_refuted. Qed.
Print Assumptions C23_expert_refuted.

Theorem C23_expert_subset_refuted : exists id, 0 <= id < Z.of_nat (length expert_subset_glyphs) /\
  character_set_get ExpertSubset id <> predefined_name expert_subset_glyphs id.
Proof. exact expert_subset_refuted. Qed.
Print Assumptions C23_expert_subset_refuted.

(** What holds: ISOAdobe from the second glyph on, and the other two when they are given
    string identifiers instead of glyph indices. *)
Theorem C23_iso_adobe_partial : forall id : Z, 1 <= id <= 228 ->
  character_set_get ISOAdobe id = predefined_name iso_adobe_glyphs id.
Proof. exact iso_adobe_names_spec. Qed.
Print Assumptions C23_iso_adobe_partial.

Theorem C23_iso_adobe_outside : forall id : Z, ~ (1 <= id <= 228) -> character_set_get ISOAdobe id = None.
Proof. exact iso_adobe_outside. Qed.
Print Assumptions C23_iso_adobe_outside.

Theorem C23_expert_partial : forall id : Z,
  (In id expert_glyphs -> id <> 0 -> character_set_get ExpertSet id = standard_name id) /\
  (~ In id expert_glyphs \/ id = 0 -> character_set_get ExpertSet id = None).
Proof. exact expert_named_by_string. Qed.
Print Assumptions C23_expert_partial.

Theorem C23_expert_subset_partial : forall id : Z,
  (In id expert_subset_glyphs -> id <> 0 -> character_set_get ExpertSubset id = standard_name id) /\
  (~ In id expert_subset_glyphs \/ id = 0 -> character_set_get ExpertSubset id = None).
Proof. exact expert_subset_named_by_string. Qed.
Print Assumptions C23_expert_subset_partial.

Example C23_case : character_set_get ISOAdobe 34 = Some "A"%string /\
  character_set_get ExpertSet 229 = Some "exclamsmall"%string /\
  predefined_name expert_glyphs 2 = Some "exclamsmall"%string /\
  length expert_glyphs = 166%nat /\ length expert_subset_glyphs = 87%nat.
Proof. repeat split. Qed.

(** C24. *)
Theorem C24_standard : forall code : Z, 0 <= code <= 255 ->
  encoding_get Standard code = Some (encoded standard_runs code).
Proof. exact standard_encoding_inside. Qed.
Print Assumptions C24_standard.

Theorem C24_expert : forall code : Z, 0 <= code <= 255 ->
  encoding_get ExpertEncoding code = Some (encoded expert_runs code).
Proof. exact expert_encoding_inside. Qed.
Print Assumptions C24_expert.

Theorem C24_outside : forall (code : Z) (x : encoding), x = Standard \/ x = ExpertEncoding ->
  ~ (0 <= code <= 255) -> encoding_get x code = None.
Proof. exact predefined_encoding_outside. Qed.
Print Assumptions C24_outside.

Theorem C24_named : forall (code : Z) (x : encoding) (id : Z), x = Standard \/ x = ExpertEncoding ->
  encoding_get x code = Some id -> exists name, standard_name id = Some name.
Proof. exact predefined_encoding_named. Qed.
Print Assumptions C24_named.

Theorem C24_standard_labels : forall (code : Z) (name : string),
  lookup_code code standard_encoding_labels = Some name ->
  exists id, encoding_get Standard code = Some id /\ standard_name id = Some name.
Proof. exact standard_encoding_label. Qed.
Print Assumptions C24_standard_labels.

Theorem C24_expert_labels : forall (code : Z) (name : string),
  lookup_code code expert_encoding_labels = Some name ->
  exists id, encoding_get ExpertEncoding code = Some id /\ standard_name id = Some name.
Proof. exact expert_encoding_label. Qed.
Print Assumptions C24_expert_labels.

Example C24_case : encoding_get Standard 65 = Some 34 /\ standard_name 34 = Some "A"%string /\
  lookup_code 65 standard_encoding_labels = Some "A"%string.
Proof. repeat split. Qed.

(** C25. *)
Theorem C25_plain : forall (cfg : config) (s : list byte) (x : encoding) (r : list byte),
  (forall f t, s = f :: t -> bz f < 128) ->
  (read_encoding cfg s = Ok (x, r) <-> exists e, s = e ++ r /\ plain_encoding e x).
Proof. exact plain_encoding_iff. Qed.
Print Assumptions C25_plain.

Theorem C25_other_formats : forall (cfg : config) (f : byte) (t : list byte),
  2 <= bz f < 128 -> read_encoding cfg (f :: t) = Err Other.
Proof. exact other_formats. Qed.
Print Assumptions C25_other_formats.

Theorem C25_no_panic : forall (cfg : config) (s : list byte), settled (read_encoding cfg s).
Proof. exact read_encoding_total. Qed.
Print Assumptions C25_no_panic.

Example C25_case : read_encoding dev_profile [x01; x02; x20; x05; x41; x19; xff] =
  Ok (EncFormat1 1 2 [{| first_code := 32; codes_left := 5 |}; {| first_code := 65; codes_left := 25 |}], [xff]).
Proof. reflexivity. Qed.

(** C26: false. The bytes after the format are taken for supplements. *)
Theorem C26_supplements_refuted : forall cfg : config,
  exists codes es supplements e x r,
    supplements <> [] /\ supplemented_codes codes es supplements e /\
    read_encoding cfg e = Ok (x, r) /\ supplements_of x <> supplements.
Proof. exact supplements_refuted. Qed.
Print Assumptions C26_supplements_refuted.

(** What is read instead. *)
Theorem C26_supplements_only_partial :
  forall (cfg : config) (f n : byte) (t : list byte) (x : encoding) (r : list byte), 128 <= bz f ->
  (read_encoding cfg (f :: n :: t) = Ok (x, r) <->
   exists e supplements, x = EncSupplemental (bz f) (bz n) supplements /\ t = e ++ r /\
     each supplement_encoding e supplements /\ bz n = Z.of_nat (length supplements)).
Proof. exact supplements_only. Qed.
Print Assumptions C26_supplements_only_partial.

Example C26_case : read_encoding dev_profile [x80; x01; x44; x00; x22] =
  Ok (EncSupplemental 128 1 [{| supplement_code := 68; supplement_glyph := 34 |}], []).
Proof. reflexivity. Qed.

(** C27: false. No table of a font answers anything. *)
Theorem C27_character_set_refuted : forall cfg : config,
  exists s c r glyph id name,
    read_character_set cfg 3 s = Ok (c, r) /\ 1 <= glyph < 3 /\
    nth_error (assigned c) (Z.to_nat glyph - 1) = Some id /\ standard_name id = Some name /\
    character_set_get c glyph <> Some name.
Proof. exact custom_set_refuted. Qed.
Print Assumptions C27_character_set_refuted.

Theorem C27_encoding_refuted : forall cfg : config,
  exists s codes r,
    read_encoding cfg s = Ok (EncFormat0 0 1 codes, r) /\ In 65 codes /\
    encoding_get (EncFormat0 0 1 codes) 65 = None.
Proof. exact custom_encoding_refuted. Qed.
Print Assumptions C27_encoding_refuted.

Theorem C27_character_sets_silent : forall (cfg : config) (n : Z) (s : list byte) (c : character_set)
  (r : list byte) (id : Z), 1 <= n < 2 ^ 62 ->
  read_character_set cfg n s = Ok (c, r) -> character_set_get c id = None.
Proof. exact custom_set_unanswered. Qed.
Print Assumptions C27_character_sets_silent.

Theorem C27_encodings_silent : forall (cfg : config) (s : list byte) (x : encoding) (r : list byte) (code : Z),
  read_encoding cfg s = Ok (x, r) -> encoding_get x code = None.
Proof. exact custom_encoding_unanswered. Qed.
Print Assumptions C27_encodings_silent.

Example C27_case : read_character_set dev_profile 3 [x00; x00; x22; x00; x23] =
  Ok (CharSetFormat0 0 [34; 35], []).
Proof. reflexivity. Qed.

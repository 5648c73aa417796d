(** PropFile: properties C57 to C59. *)
From Coq Require Import Reals.
From Verif Require Import Base Float C1Number C1Operation C1Index C1Glyphs C1FontSet SpecNumber SpecRounding
  SpecFile FileFacts LiteralFacts T2Number T2Operation T2Program SpecExecution ReferenceFacts GlyphProgramFacts
  BaseFacts SpecProgram T2NumberFacts ProgramFacts.
Local Open Scope list_scope.
Local Open Scope Z_scope.

(** C57. *)
Theorem C57_round_trip : forall (cfg : config) (pre post : list byte) (f : file_source),
  file_valid f -> Z.of_nat (length (pre ++ file_bytes f ++ post)) < 2 ^ 63 ->
  read_font_set cfg (pre ++ file_bytes f ++ post) (Z.of_nat (length pre)) = Ok (file_value f).
Proof. exact file_read. Qed.
Print Assumptions C57_round_trip.

(** The value has the parts that were written, font by font. *)
Theorem C57_file : forall f : file_source,
  data (fs_names (file_value f)) = font_names f /\ data (fs_strings (file_value f)) = strings f /\
  data (fs_subroutines (file_value f)) = global_subroutines f /\
  length (fs_operations (file_value f)) = length (fonts f).
Proof. exact file_parts. Qed.
Print Assumptions C57_file.

Theorem C57_fonts : forall (f : file_source) (i : nat) (x : font_source), nth_error (fonts f) i = Some x ->
  nth_error (fs_character_strings (file_value f)) i = Some (index_value 4 (glyph_programs x)) /\
  nth_error (fs_character_sets (file_value f)) i = Some (table_value (glyph_names x)) /\
  nth_error (fs_encodings (file_value f)) i = Some (table_value (glyph_codes x)) /\
  (exists ops, nth_error (fs_operations (file_value f)) i = Some ops /\
     forall o v, placing o = false ->
       (operand_list ops o v <-> operand_list (table (meant (top_dictionary_source x))) o v)) /\
  (exists start, nth_error (fs_records (file_value f)) i = Some (keyed_value (keyed x) start)).
Proof. exact file_fonts_nth. Qed.
Print Assumptions C57_fonts.

(** A name-keyed font with local subroutines and a character-ID-keyed font with two
    font dictionaries. *)
Definition by_name : font_source :=
  {| top_dictionary_source := {| written := [x8c; x00]; meant := [(Op_Version, [Integer 1])] |};
     glyph_programs := [[x0e]; [x8e; x20; x0a; x16; x0e]];
     glyph_names := custom [x00; x00; x22] (CharSetFormat0 0 [34]);
     glyph_codes := custom [x00; x01; x41] (EncFormat0 0 1 [65]);
     keyed := keyed_by_name
       {| private_dictionary := {| written := []; meant := [] |}; local_subroutines := [[x0b]] |} |}.
Definition by_id : font_source :=
  {| top_dictionary_source := {| written := []; meant := [] |};
     glyph_programs := [[x0e]];
     glyph_names := predefined 0 ISOAdobe;
     glyph_codes := predefined 1 ExpertEncoding;
     keyed := keyed_by_id 391 392 {| written_operand := [x8a]; meant_operand := Integer (-1) |} [x00; x01] (DictFormat0 0 [1])
       [({| written := []; meant := [] |},
         {| private_dictionary := {| written := [x92; x14]; meant := [(Op_DefaultWidthX, [Integer 7])] |};
            local_subroutines := [] |});
        ({| written := []; meant := [] |},
         {| private_dictionary := {| written := []; meant := [] |}; local_subroutines := [[x0b]; [x0e]] |})] |}.
Definition both : file_source :=
  {| font_names := [[x41]; [x42; x43]]; fonts := [by_name; by_id]; strings := [[x44]; [x45; x46]]; global_subroutines := [[x0b]] |}.

Example C57_valid : file_valid both.
Proof.
  assert (W : forall b v o, integer_encoding [b] v -> operator_bytes o = [zb (operator_code o)] ->
      dictionary_encoding [b; zb (operator_code o)] [(o, [Integer v])]).
  { intros b v o H E. apply (each_cons _ [b; zb (operator_code o)] (o, [Integer v]) [] []); [|constructor].
    exists [b]. cbn. rewrite E. split; auto. apply (each_cons _ [b] (Integer v) [] []); [exact H|constructor]. }
  assert (W1 : dictionary_encoding [x8c; x00] [(Op_Version, [Integer 1])]).
  { apply (W x8c 1 Op_Version); auto. apply (one_byte x8c). vm_compute. split; discriminate. }
  assert (W2 : dictionary_encoding [x92; x14] [(Op_DefaultWidthX, [Integer 7])]).
  { apply (W x92 7 Op_DefaultWidthX); auto. apply (one_byte x92). vm_compute. split; discriminate. }
  assert (W0 : dictionary_encoding [] []) by constructor.
  unfold file_valid. do 4 (split; [vm_compute; reflexivity|]). split; [|vm_compute; reflexivity].
  constructor; [|constructor; [|constructor]].
  - split; [vm_compute; reflexivity|split; [|split; [|split; [|split; [|split]]]]].
    + exact W1.
    + intros v [E|[]]; discriminate.
    + exists []. right. split; [intros v [E|[]]; discriminate|]. exists [Whole 2]. split; [reflexivity|repeat constructor].
    + apply (set_format0 2 [34]); auto. repeat constructor; lia.
    + apply any_plain. apply (encoding_format0 x01 [x41]). reflexivity.
    + split; [exact W0|]. split; [intros v []|]. vm_compute. reflexivity.
  - split; [vm_compute; reflexivity|split; [|split; [|split; [|split; [|split]]]]].
    + exact W0.
    + intros v [].
    + exists []. right. split; [intros v []|]. exists [Whole 2]. split; [reflexivity|repeat constructor].
    + left. split; reflexivity.
    + right. split; reflexivity.
    + split; [lia|]. split; [lia|]. split; [apply (one_byte x8a); vm_compute; split; discriminate|].
      split; [apply (select_format0 1 [x01]); reflexivity|].
      split; [vm_compute; reflexivity|]. constructor; [|constructor; [|constructor]]; cbn.
      * split; [exact W0|]. split; [exact W2|]. split; [intros v [E|[]]; discriminate|]. vm_compute. reflexivity.
      * split; [exact W0|]. split; [exact W0|]. split; [intros v []|]. vm_compute. reflexivity.
Qed.
Example C57_case : read_font_set dev_profile ([x07] ++ file_bytes both ++ [x09]) 1 = Ok (file_value both).
Proof. vm_compute. reflexivity. Qed.
(** Two fonts and one name. *)
Example C57_names_case :
  let f := {| font_names := [[x41]]; fonts := [by_name; by_id]; strings := []; global_subroutines := [] |} in
  read_font_set dev_profile (file_bytes f) 0 = Ok (file_value f) /\ length (fs_records (file_value f)) = 2%nat.
Proof. vm_compute. split; reflexivity. Qed.

(** C58. *)
Theorem C58_numbers : forall n : number,
  (exists s r, read_number s = Ok (n, r)) <-> storable n.
Proof. exact storable_iff. Qed.
Print Assumptions C58_numbers.

(** None takes more than 60 bytes. *)
Theorem C58_length : forall n : number, storable n ->
  exists e, (length e <= 60)%nat /\ forall r, read_number (e ++ r) = Ok (n, r).
Proof. exact storable_length. Qed.
Print Assumptions C58_length.

Theorem C58_dictionaries : forall t : operations,
  (exists s, read_operations s = Ok t) <->
  exists ops, Forall (fun op => Forall storable (snd op)) ops /\ t = table ops.
Proof. exact tables_written. Qed.
Print Assumptions C58_dictionaries.

Theorem C58_operands : forall x : f32,
  (exists s r, read_operand s = Ok (x, r)) <->
  exists v, - 2 ^ 31 <= v < 2 ^ 31 /\ rounded (IZR v / 65536) (sign_of (IZR v) false) x.
Proof. exact operands_iff. Qed.
Print Assumptions C58_operands.

Example C58_case : storable (Real (S754_finite true 9437184 (-22))) /\ storable (Real (S754_zero true)) /\
  storable (Integer (-2147483648)) /\ storable (Real (S754_infinity false)).
Proof. cbn. repeat split; try discriminate. Qed.
Example C58_infinity : read_number [x1e; x1b; x39; xff] = Ok (Real (S754_infinity false), []).
Proof. vm_compute. reflexivity. Qed.

Example C58_fixed : read_operand [xff; xff; xfe; x80; x00; x0e] = Ok (S754_finite true 12582912 (-23), [x0e]) /\
  read_operand [xff; x7f; xff; xff; xff] = Ok (S754_finite false 8388608 (-8), []).
Proof. vm_compute. split; reflexivity. Qed.

(** C59. *)
Theorem C59_name_keyed : forall (cfg : config) (pre post : list byte) (f : file_source) (i : nat)
    (x : font_source) (private : private_source) (j : nat) (code : list byte)
    (ops : list t2_operation) (m : machine),
  file_valid f -> Z.of_nat (length (pre ++ file_bytes f ++ post)) < 2 ^ 63 ->
  nth_error (fonts f) i = Some x -> keyed x = keyed_by_name private ->
  nth_error (glyph_programs x) j = Some code ->
  meaning (global_subroutines f) (local_subroutines private) code ops m ->
  exists set programs glyph r q,
    read_font_set cfg (pre ++ file_bytes f ++ post) (Z.of_nat (length pre)) = Ok set /\
    nth_error (fs_character_strings set) i = Some programs /\ nth_error (data programs) j = Some glyph /\
    nth_error (fs_records set) i = Some (CharacterNameKeyed r) /\
    runs cfg (new_program glyph (data (fs_subroutines set)) (data (private_subroutines r))) (Ok (ops, q)) /\
    width q = advance m.
Proof. exact name_keyed_glyph. Qed.
Print Assumptions C59_name_keyed.

Theorem C59_cid_keyed : forall (cfg : config) (pre post : list byte) (f : file_source) (i : nat)
    (x : font_source) (a b : Z) (s : operand_source) (select : list byte) (selected : C1FontSet.dictionary_encoding)
    (subfonts : list (dictionary_source * private_source)) (k : nat) (d : dictionary_source)
    (private : private_source) (j : nat) (code : list byte) (ops : list t2_operation) (m : machine),
  file_valid f -> Z.of_nat (length (pre ++ file_bytes f ++ post)) < 2 ^ 63 ->
  nth_error (fonts f) i = Some x -> keyed x = keyed_by_id a b s select selected subfonts ->
  nth_error subfonts k = Some (d, private) -> nth_error (glyph_programs x) j = Some code ->
  meaning (global_subroutines f) (local_subroutines private) code ops m ->
  exists set programs glyph c r q,
    read_font_set cfg (pre ++ file_bytes f ++ post) (Z.of_nat (length pre)) = Ok set /\
    nth_error (fs_character_strings set) i = Some programs /\ nth_error (data programs) j = Some glyph /\
    nth_error (fs_records set) i = Some (CharacterIDKeyed c) /\ nth_error (cid_records c) k = Some r /\
    runs cfg (new_program glyph (data (fs_subroutines set)) (data (private_subroutines r))) (Ok (ops, q)) /\
    width q = advance m.
Proof. exact cid_keyed_glyph. Qed.
Print Assumptions C59_cid_keyed.

(** The second glyph of the first font: 3 (subroutine -107, which returns at once) hmoveto endchar. *)
Example C59_case : nth_error (fonts both) 0 = Some by_name /\
  nth_error (glyph_programs by_name) 1 = Some [x8e; x20; x0a; x16; x0e] /\
  meaning (global_subroutines both) [[x0b]] [x8e; x20; x0a; x16; x0e] [(T2_HMoveTo, [f32_of_i32 3])]
    {| values := []; hints := 0; advance := None |}.
Proof.
  assert (N : forall bs, forallb (fun b => (32 <=? bz b) && (bz b <=? 246)) bs = true ->
    each t2_number bs (map (fun b => f32_of_i32 (bz b - 139)) bs)).
  { intros bs H. apply numbers_of_bytes. apply Forall_forall. intros b I. rewrite forallb_forall in H. specialize (H b I). lia. }
  split; [reflexivity|]. split; [reflexivity|].
  exists (Ended [] {| values := []; hints := 0; advance := None |}). split; [|reflexivity].
  apply (executes_call _ _ [x8e; x20] (map f32_of_i32 [3; -107]) T2_CallSubr [x16; x0e] start (map f32_of_i32 [3])
    (f32_of_i32 (-107)) [x0b] [] {| values := [f32_of_i32 3]; hints := 0; advance := None |}
    [(T2_HMoveTo, [f32_of_i32 3])]).
  { exact (N [x8e; x20] eq_refl). } { reflexivity. }
  { left. split; [reflexivity|]. exists (-107), 107. split; [apply integral_of_i32; cbn; lia|].
    split; [left; split; reflexivity|]. split; [discriminate|reflexivity]. }
  { exact (executes_return _ _ [] [] [] {| values := [f32_of_i32 3]; hints := 0; advance := None |} (each_nil _)). }
  apply (executes_path _ _ [] [] T2_HMoveTo [x0e] _ [] (map f32_of_i32 [3])).
  { constructor. } { reflexivity. }
  { split; [reflexivity|]. split; [reflexivity|]. intros m -> _. apply le_n. }
  exact (executes_end _ _ [] [] [] {| values := []; hints := 0; advance := None |} (each_nil _)).
Qed.

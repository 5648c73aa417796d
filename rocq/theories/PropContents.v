(** PropContents: property C91. *)
From Verif Require Import Base Float C1Number C1Operation C1Index C1Glyphs C1FontSet SpecNumber SpecOperation SpecFontSet SpecFile SpecSize
  SpecRepack SpecContents FileFacts RepackFacts ContentsFacts PropFile.
Local Open Scope list_scope.
Local Open Scope Z_scope.

(** C91. What is read is within the limits of SpecContents, and not much larger than what it holds. *)
Theorem C91_read : forall (cfg : config) (tape : list byte) (p : Z) (f : font_set),
  0 <= p -> Z.of_nat (length tape) < 2 ^ 63 -> read_font_set cfg tape p = Ok f ->
  font_set_contents f /\ (enough f <= 128 * S (font_set_weight f))%nat.
Proof. exact contents_held. Qed.
Print Assumptions C91_read.

(** All that is within these limits can be read, from some file. *)
Theorem C91_written : forall f : font_set, font_set_contents f -> Z.of_nat (enough f) < 2 ^ 31 ->
  exists file g, (length file <= enough f)%nat /\ repacked f g /\
    forall cfg pre post, Z.of_nat (length (pre ++ file ++ post)) < 2 ^ 63 ->
      read_font_set cfg (pre ++ file ++ post) (Z.of_nat (length pre)) = Ok g.
Proof. exact contents_written. Qed.
Print Assumptions C91_written.

(** A font of three glyphs, the last two of which have the same name, and without any operators of places. *)
Definition held : font :=
  {| font_operations := [(Op_Version, [Integer 7])]; font_encoding := EncSupplemental 130 1 [{| supplement_code := 65; supplement_glyph := 34 |}];
     font_character_set := CharSetFormat1 1 [{| first_string_id := 400; left_count := 0 |}; {| first_string_id := 400; left_count := 0 |}];
     font_character_strings := index_value 1 [[x0e]; [x0e]; []];
     font_record := CharacterNameKeyed {| private_operations := []; private_subroutines := index_value 1 [[x0b]] |} |}.
Definition holding : font_set :=
  {| fs_header := {| major := 1; minor := 0; header_size := 4; header_offset_size := 4 |};
     fs_names := index_value 1 []; fs_operations := [font_operations held]; fs_strings := index_value 1 []; fs_subroutines := index_value 1 [];
     fs_encodings := [font_encoding held]; fs_character_sets := [font_character_set held];
     fs_character_strings := [font_character_strings held]; fs_records := [font_record held] |}.
Example C91_case : font_set_contents holding /\ enough holding = 1242%nat /\ Z.of_nat (enough holding) < 2 ^ 31.
Proof.
  split; [|vm_compute; split; reflexivity]. split; [reflexivity|]. split; [reflexivity|]. split; [reflexivity|].
  exists [held]. split; [reflexivity|]. split; [|cbn; auto 10]. constructor; [|constructor].
  split; [repeat constructor; cbn; lia|]. split.
  { exists []. right. split; [intros v [E|[]]; discriminate|]. exists [Whole 2]. split; [reflexivity|repeat constructor]. }
  split; [reflexivity|]. split; [|split].
  - cbn. split; [reflexivity|]. split; [|reflexivity]. repeat constructor; cbn; lia.
  - cbn. split; [lia|]. split; [reflexivity|]. split; [unfold one_byte_value; lia|]. repeat constructor; cbn; lia.
  - split; [constructor|reflexivity].
Qed.
(** What cannot be held: an identifier of more than two bytes, and one glyph fewer than there are. *)
Example C91_never : forall cfg tape p f i c s ids format, 0 <= p -> Z.of_nat (length tape) < 2 ^ 63 ->
  nth_error (fs_character_sets f) i = Some c -> nth_error (fs_character_strings f) i = Some s -> c = CharSetFormat0 format ids ->
  In 70000 ids \/ length ids = length (data s) -> read_font_set cfg tape p <> Ok f.
Proof.
  intros cfg tape p f i c s ids format Hp Ht C S -> N R. destruct (C91_read cfg tape p f Hp Ht R) as ((_ & _ & _ & xs & _ & F & _ & _ & Qc & Qs & _) & _).
  rewrite Qc, nth_error_map in C. rewrite Qs, nth_error_map in S. destruct (nth_error xs i) as [x|] eqn:E; [|discriminate].
  cbn in C, S. injection C as C. injection S as <-. rewrite Forall_forall in F.
  destruct (F x (nth_error_In _ _ E)) as (_ & _ & _ & H & _). rewrite C in H. destruct H as (_ & V & L). destruct N as [N|N].
  - rewrite Forall_forall in V. specialize (V _ N). unfold two_byte_value in V. lia.
  - lia.
Qed.

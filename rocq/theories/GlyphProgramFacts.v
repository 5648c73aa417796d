(** GlyphProgramFacts: executing the glyph programs of a font set that was written. *)
From Verif Require Import Base Float C1Number C1Operation C1Index C1Glyphs C1FontSet T2Operation T2Program
  SpecFile FileFacts SpecExecution ReferenceFacts.
Local Open Scope list_scope.
Local Open Scope Z_scope.

Lemma index_value_data size chunks : data (index_value size chunks) = chunks.
Proof. destruct chunks; reflexivity. Qed.

Lemma short_31 {A} (l : list A) : short l -> Z.of_nat (length l) < 2 ^ 31.
Proof. unfold short. lia. Qed.

Section Written.
Context (cfg : config) (pre post : list byte) (f : file_source) (i : nat) (x : font_source).
Context (V : file_valid f) (L : Z.of_nat (length (pre ++ file_bytes f ++ post)) < 2 ^ 63).
Context (X : nth_error (fonts f) i = Some x).

Lemma source_valid : font_valid x.
Proof. destruct V as (_ & _ & _ & _ & F & _). rewrite Forall_forall in F. apply F. eapply nth_error_In, X. Qed.

Lemma glyph_program j code : nth_error (glyph_programs x) j = Some code ->
  exists programs, nth_error (fs_character_strings (file_value f)) i = Some programs /\
    nth_error (data programs) j = Some code.
Proof.
  intros C. destruct (file_fonts_nth f i x X) as (P & _). eexists. split; [exact P|].
  rewrite index_value_data. exact C.
Qed.

Lemma glyph_runs locals code ops m : short locals ->
  meaning (global_subroutines f) locals code ops m ->
  exists q, runs cfg (new_program code (data (fs_subroutines (file_value f))) locals) (Ok (ops, q)) /\
    width q = advance m.
Proof.
  intros S M. destruct V as (_ & _ & _ & G & _). cbn [file_value fs_subroutines]. rewrite index_value_data.
  destruct (meaning_runs _ _ (short_31 _ G) (short_31 _ S) cfg _ _ _ M) as (q & R & _ & _ & W). eauto.
Qed.

Lemma record_kind : exists start, nth_error (fs_records (file_value f)) i = Some (keyed_value (keyed x) start).
Proof. destruct (file_fonts_nth f i x X) as (_ & _ & _ & _ & P). exact P. Qed.

End Written.

Theorem name_keyed_glyph cfg pre post f i x private j code ops m :
  file_valid f -> Z.of_nat (length (pre ++ file_bytes f ++ post)) < 2 ^ 63 ->
  nth_error (fonts f) i = Some x -> keyed x = keyed_by_name private ->
  nth_error (glyph_programs x) j = Some code ->
  meaning (global_subroutines f) (local_subroutines private) code ops m ->
  exists set programs glyph r q,
    read_font_set cfg (pre ++ file_bytes f ++ post) (Z.of_nat (length pre)) = Ok set /\
    nth_error (fs_character_strings set) i = Some programs /\ nth_error (data programs) j = Some glyph /\
    nth_error (fs_records set) i = Some (CharacterNameKeyed r) /\
    runs cfg (new_program glyph (data (fs_subroutines set)) (data (private_subroutines r))) (Ok (ops, q)) /\
    width q = advance m.
Proof.
  intros V L X K C M. exists (file_value f).
  destruct (glyph_program f i x X j code C) as (programs & P1 & P2).
  destruct (record_kind f i x X) as (start & R). rewrite K in R. cbn [keyed_value] in R.
  assert (S : short (local_subroutines private)).
  { destruct (source_valid f i x V X) as (_ & _ & _ & _ & _ & _ & Y). rewrite K in Y. apply Y. }
  destruct (glyph_runs cfg f V _ _ _ _ S M) as (q & Q & W).
  exists programs, code, (private_value private), q. split; [apply file_read; auto|].
  do 3 (split; [assumption|]). split; auto. cbn [private_value private_subroutines]. rewrite index_value_data. exact Q.
Qed.

Theorem cid_keyed_glyph cfg pre post f i x a b s select selected subfonts k d private j code ops m :
  file_valid f -> Z.of_nat (length (pre ++ file_bytes f ++ post)) < 2 ^ 63 ->
  nth_error (fonts f) i = Some x -> keyed x = keyed_by_id a b s select selected subfonts ->
  nth_error subfonts k = Some (d, private) -> nth_error (glyph_programs x) j = Some code ->
  meaning (global_subroutines f) (local_subroutines private) code ops m ->
  exists set programs glyph c r q,
    read_font_set cfg (pre ++ file_bytes f ++ post) (Z.of_nat (length pre)) = Ok set /\
    nth_error (fs_character_strings set) i = Some programs /\ nth_error (data programs) j = Some glyph /\
    nth_error (fs_records set) i = Some (CharacterIDKeyed c) /\ nth_error (cid_records c) k = Some r /\
    runs cfg (new_program glyph (data (fs_subroutines set)) (data (private_subroutines r))) (Ok (ops, q)) /\
    width q = advance m.
Proof.
  intros V L X K Y C M. exists (file_value f).
  destruct (glyph_program f i x X j code C) as (programs & P1 & P2).
  destruct (record_kind f i x X) as (start & R). rewrite K in R. cbn [keyed_value] in R.
  assert (S : short (local_subroutines private)).
  { destruct (source_valid f i x V X) as (_ & _ & _ & _ & _ & _ & Z). rewrite K in Z.
    destruct Z as (_ & _ & _ & _ & _ & Z). rewrite Forall_forall in Z.
    apply nth_error_In in Y. apply Z in Y. apply Y. }
  destruct (glyph_runs cfg f V _ _ _ _ S M) as (q & Q & W).
  eexists programs, code, _, (private_value private), q. split; [apply file_read; auto|].
  do 3 (split; [eassumption|]). cbn [cid_records]. split.
  { rewrite nth_error_map, Y. reflexivity. }
  split; auto. cbn [private_value private_subroutines]. rewrite index_value_data. exact Q.
Qed.

(** PropTape: properties C69 and C70. *)
From Verif Require Import Base Float C1Number C1Operation C1Index C1Glyphs C1FontSet C1Tape SpecFile SpecTape
  TapeFacts TapeFileFacts PropFile.
Local Open Scope list_scope.
Local Open Scope Z_scope.

(** C69. *)
Theorem C69_agrees : forall (cfg : config) (tape : list byte) (p : Z), 0 <= p ->
  (forall f, read_font_set cfg tape p = Ok f <-> exists place, font_set_taken cfg tape p = Ok (f, place)) /\
  (forall n, font_set_count cfg tape p = Ok n <-> exists place, count_taken cfg tape p = Ok (n, place)) /\
  (forall e, read_font_set cfg tape p = Err e <-> font_set_taken cfg tape p = Err e) /\
  (forall e, font_set_count cfg tape p = Err e <-> count_taken cfg tape p = Err e) /\
  (forall w, read_font_set cfg tape p = Panic w <-> font_set_taken cfg tape p = Panic w) /\
  (forall w, font_set_count cfg tape p = Panic w <-> count_taken cfg tape p = Panic w).
Proof. exact positions_agree. Qed.
Print Assumptions C69_agrees.

Theorem C69_left : forall (cfg : config) (tape : list byte) (p : Z) (f : font_set) (place : Z),
  0 <= p -> Z.of_nat (length tape) < 2 ^ 63 ->
  font_set_taken cfg tape p = Ok (f, place) <->
  font_set_layout (overflow_checks cfg) tape p f /\ font_set_behind (overflow_checks cfg) tape p f place.
Proof. intros. apply font_set_taken_iff; assumption. Qed.
Print Assumptions C69_left.

Theorem C69_written : forall (cfg : config) (pre post : list byte) (f : file_source),
  file_valid f -> Z.of_nat (length (pre ++ file_bytes f ++ post)) < 2 ^ 63 ->
  font_set_taken cfg (pre ++ file_bytes f ++ post) (Z.of_nat (length pre)) =
  Ok (file_value f, Z.of_nat (length (pre ++ file_bytes f))).
Proof. exact file_taken. Qed.
Print Assumptions C69_written.

Theorem C69_sequence : forall (cfg : config) (pre post : list byte) (fs : list file_source),
  Forall file_valid fs -> Z.of_nat (length (pre ++ concat (map file_bytes fs) ++ post)) < 2 ^ 63 ->
  in_a_row (font_set_taken cfg (pre ++ concat (map file_bytes fs) ++ post)) (Z.of_nat (length pre))
    (map file_value fs) (Z.of_nat (length (pre ++ concat (map file_bytes fs)))).
Proof. exact files_taken. Qed.
Print Assumptions C69_sequence.

(** Two files with two fonts each and one with no fonts between them. *)
Definition bare : file_source := {| font_names := []; fonts := []; strings := [[x44]]; global_subroutines := [] |}.
Example C69_valid : Forall file_valid [both; bare; both].
Proof.
  assert (B : file_valid bare).
  { unfold file_valid. do 4 (split; [vm_compute; reflexivity|]). split; [constructor|vm_compute; reflexivity]. }
  exact (Forall_cons _ C57_valid (Forall_cons _ B (Forall_cons _ C57_valid (Forall_nil _)))).
Qed.
Example C69_case : let tape := [x07] ++ concat (map file_bytes [both; bare; both]) ++ [x09] in
  Z.of_nat (length (file_bytes both)) = 264 /\ Z.of_nat (length (file_bytes bare)) = 22 /\
  font_set_taken dev_profile tape 1 = Ok (file_value both, 265) /\
  font_set_taken dev_profile tape 265 = Ok (file_value bare, 287) /\
  font_set_taken dev_profile tape 287 = Ok (file_value both, 551) /\
  font_set_taken dev_profile tape 551 = Err UnexpectedEof.
Proof. vm_compute. repeat split. Qed.

(** C70. *)
Theorem C70_refuted : forall (cfg : config) (pre post : list byte) (f : file_source),
  file_valid f -> font_names f <> [] -> Z.of_nat (length (pre ++ file_bytes f ++ post)) < 2 ^ 63 ->
  count_taken cfg (pre ++ file_bytes f ++ post) (Z.of_nat (length pre)) =
    Ok (Z.of_nat (length (font_names f)), Z.of_nat (length pre) + 6) /\
  font_set_taken cfg (pre ++ file_bytes f ++ post) (Z.of_nat (length pre) + 6) = Err Other.
Proof. exact count_then_read. Qed.
Print Assumptions C70_refuted.

Theorem C70_partial : forall (cfg : config) (tape : list byte) (p n place : Z), 0 <= p ->
  count_taken cfg tape p = Ok (n, place) <->
  exists eh h b1 b0, header_encoding eh h /\ stands tape p eh /\
    behind (overflow_checks cfg) tape p (header_size h) [b1; b0] place /\ n = bz b1 * 256 + bz b0.
Proof. exact count_taken_iff. Qed.
Print Assumptions C70_partial.

Example C70_case : font_names both <> [] /\
  count_taken dev_profile ([x07] ++ file_bytes both) 1 = Ok (2, 7) /\
  font_set_taken dev_profile ([x07] ++ file_bytes both) 7 = Err Other.
Proof. split; [discriminate|]. vm_compute. split; reflexivity. Qed.

(** PropKept: property C77. *)
From Verif Require Import Base Float C1Number C1Operation C1Index C1Glyphs C1FontSet SpecKept FontSetSamples LayoutFacts
  FontSetFacts IndexFacts SpecIndex KeptFacts.
Local Open Scope list_scope.
Local Open Scope Z_scope.

(** C77. The same table is read from the same bytes only. *)
Theorem C77_tables : forall (cfg cfg' : config) (n n' : Z), 1 <= n < 2 ^ 16 -> 1 <= n' < 2 ^ 16 ->
  kept (read_index cfg) (read_index cfg') /\
  kept (read_character_set cfg n) (read_character_set cfg' n') /\
  kept (read_encoding cfg) (read_encoding cfg') /\
  kept (read_dictionary_encoding cfg n) (read_dictionary_encoding cfg' n') /\
  kept read_header read_header.
Proof. exact readers_keep. Qed.
Print Assumptions C77_tables.

(** Two files from which the same font set is read agree on everything but dictionaries; the strings and the
    global subroutines may have moved, as they follow the dictionaries. *)
Theorem C77_font_sets : forall (cfg : config) (tape tape' : list byte) (p : Z) (f : font_set),
  0 <= p -> Z.of_nat (length tape) < 2 ^ 63 -> Z.of_nat (length tape') < 2 ^ 63 ->
  read_font_set cfg tape p = Ok f -> read_font_set cfg tape' p = Ok f ->
  (forall q, font_set_kept (overflow_checks cfg) tape p f q -> shared tape tape' q) /\
  exists i1 i2 i3 i4 j3 j4 e,
    four_indices (overflow_checks cfg) tape p f i1 i2 i3 i4 /\ four_indices (overflow_checks cfg) tape' p f i1 i2 j3 j4 /\
    j4 - j3 = i4 - i3 /\ stands tape i3 e /\ stands tape' j3 e /\
    exists e3 e4, e = e3 ++ e4 /\ index_encoding e3 (fs_strings f) /\ index_encoding e4 (fs_subroutines f).
Proof. exact font_set_same_tables. Qed.
Print Assumptions C77_font_sets.

(** Dictionaries are not kept. *)
Theorem C77_dictionaries :
  exists (tape tape' : list byte) (f : font_set) (size offset : Z) (top : operations) (q : Z),
  read_font_set dev_profile tape 0 = Ok f /\ read_font_set dev_profile tape' 0 = Ok f /\
  nth_error (fs_operations f) 0 = Some top /\ operands top Op_Private size offset /\ offset <= q < offset + size /\
  ~ shared tape tape' q.
Proof. exact dictionaries_lost. Qed.
Print Assumptions C77_dictionaries.

(** An index with a count of one, before and in front of something else. *)
Example C77_case : exists e, [x00; x01; x01; x01; x02; x41; xff] = e ++ [xff] /\ [x00; x01; x01; x01; x02; x41] = e ++ [].
Proof.
  apply (proj1 (C77_tables dev_profile release_profile 1 1 ltac:(lia) ltac:(lia)) _ _ (index_value 1 [[x41]]));
    vm_compute; reflexivity.
Qed.

(** Two files with the same font set; the places of the character strings are among those that are kept. *)
Example C77_case_font_sets : twice x8d <> twice x8c /\
  read_font_set dev_profile (twice x8d) 0 = Ok twice_value /\ read_font_set dev_profile (twice x8c) 0 = Ok twice_value /\
  (forall q, 28 <= q < 36 -> font_set_kept true (twice x8d) 0 twice_value q) /\
  forall q, 28 <= q < 36 -> shared (twice x8d) (twice x8c) q.
Proof.
  split; [discriminate|]. split; [apply twice_read; auto|]. split; [apply twice_read; auto|].
  assert (K : forall q, 28 <= q < 36 -> font_set_kept true (twice x8d) 0 twice_value q).
  { intros q H. do 2 right. exists 0%nat.
    do 5 eexists. repeat (split; [vm_compute; reflexivity|]). left.
    exists 28, (index_bytes 1 [[x0e]; [x0e]]). split; [apply need_single_iff; vm_compute; reflexivity|].
    split. { exists 1, [[x0e]; [x0e]]. split; [|auto]. split; [cbn; lia|right; cbn; lia]. }
    exists 28. split; [apply located_forward; lia|]. split; [|exact H]. split; [lia|]. eexists. vm_compute. reflexivity. }
  split; [exact K|]. intros q H.
  apply (C77_font_sets dev_profile (twice x8d) (twice x8c) 0 twice_value); try lia.
  - vm_compute. reflexivity.
  - vm_compute. reflexivity.
  - apply twice_read. auto.
  - apply twice_read. auto.
  - exact (K q H).
Qed.

(** PropRepack: property C89. *)
From Verif Require Import Base Float C1Number C1Operation C1Index C1Glyphs C1FontSet SpecNumber SpecOperation SpecFile SpecSize SpecRepack
  FontSetSamples FileFacts RepackFacts ContentsFacts PropFile.
Local Open Scope list_scope.
Local Open Scope Z_scope.

(** C89. However its parts are laid out, a font set that is read can be written again one part after another, and
    is read from there with the same contents.  The length of the new file is by what the font set holds. *)
Theorem C89_repacked : forall (cfg : config) (tape : list byte) (p : Z) (f : font_set),
  0 <= p -> Z.of_nat (length tape) < 2 ^ 63 -> read_font_set cfg tape p = Ok f ->
  Z.of_nat (128 * S (font_set_weight f)) < 2 ^ 31 ->
  exists file g, (length file <= 128 * S (font_set_weight f))%nat /\ repacked f g /\
    forall cfg' pre post, Z.of_nat (length (pre ++ file ++ post)) < 2 ^ 63 ->
      read_font_set cfg' (pre ++ file ++ post) (Z.of_nat (length pre)) = Ok g.
Proof. exact font_set_again. Qed.
Print Assumptions C89_repacked.

(** The same for some of the fonts, in any order. *)
Theorem C89_selected : forall (cfg : config) (tape : list byte) (p : Z) (f : font_set) (numbers : list nat),
  0 <= p -> Z.of_nat (length tape) < 2 ^ 63 -> read_font_set cfg tape p = Ok f ->
  Z.of_nat (length numbers) < 2 ^ 16 ->
  Z.of_nat (128 * S (font_set_weight (selection numbers f))) < 2 ^ 31 ->
  exists file g, (length file <= 128 * S (font_set_weight (selection numbers f)))%nat /\ repacked (selection numbers f) g /\
    forall cfg' pre post, Z.of_nat (length (pre ++ file ++ post)) < 2 ^ 63 ->
      read_font_set cfg' (pre ++ file ++ post) (Z.of_nat (length pre)) = Ok g.
Proof. exact selection_again. Qed.
Print Assumptions C89_selected.

(** The dictionaries have the same operands, given or by default, except those that say where things are. *)
Theorem C89_operands : forall (f g : font_set) (i : nat) (t u : operations) (o : operator) (v : list number),
  repacked f g -> nth_error (fs_operations f) i = Some t -> nth_error (fs_operations g) i = Some u ->
  ~ In o references -> (operand_list t o v <-> operand_list u o v).
Proof. exact repacked_operands. Qed.
Print Assumptions C89_operands.

(** A font set in its shortest form; and the second of two fonts. *)
Example C89_case : read_font_set dev_profile name_keyed 0 = Ok name_keyed_value /\
  font_set_weight name_keyed_value = 28%nat.
Proof. repeat split; vm_compute; reflexivity. Qed.
Example C89_selected_case : let f := file_value both in
  read_font_set dev_profile (file_bytes both) 0 = Ok f /\
  data (fs_names (selection [1%nat] f)) = [[x42; x43]] /\ Z.of_nat (128 * S (font_set_weight (selection [1%nat] f))) < 2 ^ 31 /\
  exists file g, repacked (selection [1%nat] f) g /\
    read_font_set release_profile (file ++ [x07]) 0 = Ok g /\ data (fs_names g) = [[x42; x43]].
Proof.
  intros f. assert (R : read_font_set dev_profile (file_bytes both) 0 = Ok f) by (vm_compute; reflexivity).
  assert (N : data (fs_names (selection [1%nat] f)) = [[x42; x43]]) by (vm_compute; reflexivity).
  assert (W : Z.of_nat (128 * S (font_set_weight (selection [1%nat] f))) < 2 ^ 31) by (vm_compute; reflexivity).
  assert (T : Z.of_nat (length (file_bytes both)) < 2 ^ 63) by (vm_compute; reflexivity).
  clearbody f. split; [exact R|]. split; [exact N|]. split; [exact W|].
  destruct (C89_selected dev_profile (file_bytes both) 0 f [1%nat] ltac:(lia) T R ltac:(reflexivity) W) as (file & g & B & Q & H).
  exists file, g. split; [exact Q|]. split.
  - apply (H release_profile [] [x07]). cbn [app]. rewrite app_length. cbn [length]. lia.
  - destruct Q as (Q & _). rewrite <- N. exact (eq_sym Q).
Qed.

(** PropRedraw: property C94. *)
From Verif Require Import Base Float C1Number C1Operation C1Index C1Glyphs C1FontSet T2Operation T2Program SpecIndex SpecFile SpecSize
  SpecRepack SpecContents SpecProgram SpecExpress SpecRedraw FileFacts RedrawFacts PropFile PropContents.
Local Open Scope list_scope.
Local Open Scope Z_scope.

(** C94. Whatever code is given for the glyphs of a font set that is read, there is a file from which the font set is
    read with that code, and without subroutines. *)
Theorem C94_replaced : forall (cfg : config) (tape : list byte) (p : Z) (f : font_set) (codes : list (list (list byte))),
  0 <= p -> Z.of_nat (length tape) < 2 ^ 63 -> read_font_set cfg tape p = Ok f ->
  code_given f codes -> 128 * (Z.of_nat (font_set_weight f) + 1) + 60 * code_length codes < 2 ^ 31 ->
  exists file g, Z.of_nat (length file) <= 128 * (Z.of_nat (font_set_weight f) + 1) + 60 * code_length codes /\
    repacked (redrawn codes f) g /\
    forall cfg' pre post, Z.of_nat (length (pre ++ file ++ post)) < 2 ^ 63 ->
      read_font_set cfg' (pre ++ file ++ post) (Z.of_nat (length pre)) = Ok g.
Proof. exact redrawn_again. Qed.
Print Assumptions C94_replaced.

(** So a font set whose glyphs can all be drawn can be read without any subroutines from some file, with the same
    pictures.  The length of the file is by what the font set holds and by what the pictures are. *)
Theorem C94_pictures : forall (cfg : config) (tape : list byte) (p : Z) (f : font_set) (pictures : list (list picture)),
  0 <= p -> Z.of_nat (length tape) < 2 ^ 63 -> read_font_set cfg tape p = Ok f ->
  pictured cfg f pictures -> 128 * (Z.of_nat (font_set_weight f) + 1) + 60 * picture_length pictures < 2 ^ 31 ->
  exists file codes g, Z.of_nat (length file) <= 128 * (Z.of_nat (font_set_weight f) + 1) + 60 * picture_length pictures /\
    code_given f codes /\ repacked (redrawn codes f) g /\ bare g /\ (forall cfg', pictured cfg' g pictures) /\
    forall cfg' pre post, Z.of_nat (length (pre ++ file ++ post)) < 2 ^ 63 ->
      read_font_set cfg' (pre ++ file ++ post) (Z.of_nat (length pre)) = Ok g.
Proof. exact pictures_again. Qed.
Print Assumptions C94_pictures.

(** More generally, all pictures that can be drawn at all can be put into all font sets. *)
Theorem C94_any : forall (f : font_set) (pictures : list (list picture)),
  font_set_contents f -> pictures_given f pictures -> Z.of_nat (enough f) + 60 * picture_length pictures < 2 ^ 31 ->
  exists file codes g, Z.of_nat (length file) <= Z.of_nat (enough f) + 60 * picture_length pictures /\
    code_given f codes /\ repacked (redrawn codes f) g /\ bare g /\ (forall cfg', pictured cfg' g pictures) /\
    forall cfg' pre post, Z.of_nat (length (pre ++ file ++ post)) < 2 ^ 63 ->
      read_font_set cfg' (pre ++ file ++ post) (Z.of_nat (length pre)) = Ok g.
Proof. exact pictures_written. Qed.
Print Assumptions C94_any.

(** A font set laid out again (C89) has the same pictures. *)
Theorem C94_same : forall f g : font_set, repacked f g ->
  forall (cfg : config) (pictures : list (list picture)), pictured cfg f pictures <-> pictured cfg g pictures.
Proof. exact repacked_pictured. Qed.
Print Assumptions C94_same.

(** Two fonts, one with a glyph that calls a subroutine; the other has two private dictionaries. *)
Definition three : f32 := f32_of_i32 3.
Definition drawings : list (list picture) := [[([], None); ([(T2_HMoveTo, [three])], None)]; [([], None)]].
Example C94_case : let f := file_value both in
  read_font_set dev_profile (file_bytes both) 0 = Ok f /\ pictured dev_profile f drawings /\ ~ bare f /\
  code_given f [[[]; [x0e]]; [[x8b; x8b; x15; x0e]]] /\
  128 * (Z.of_nat (font_set_weight f) + 1) + 60 * picture_length drawings < 2 ^ 31.
Proof.
  intros f. split; [vm_compute; reflexivity|]. split; [|split].
  - split; [reflexivity|]. intros [|[|[|i]]] strings r xs E1 E2 E3; vm_compute in E1, E2, E3; try discriminate;
      injection E1 as <-; injection E2 as <-; injection E3 as <-.
    + constructor; [|constructor; [|constructor]]; eexists _, _; (split; [left; reflexivity|]; split; [split; [discriminate|exists 20%nat; vm_compute; reflexivity]|reflexivity]).
    + constructor; [|constructor]. eexists _, _; (split; [right; left; reflexivity|]; split; [split; [discriminate|exists 20%nat; vm_compute; reflexivity]|reflexivity]).
  - intros (B & _). vm_compute in B. discriminate.
  - split; [|vm_compute; reflexivity]. repeat constructor.
Qed.

(** A picture with an infinite coordinate for the first glyph, and a negative zero for a width. *)
Example C94_any_case : exists f pictures, font_set_contents f /\ pictures_given f pictures /\ pictures <> drawings /\
  Z.of_nat (enough f) + 60 * picture_length pictures < 2 ^ 31.
Proof.
  exists (file_value both), [[([(T2_HMoveTo, [S754_infinity true])], Some (S754_zero true)); ([], None)]; [([], None)]].
  split; [exact (proj1 (C91_read dev_profile (file_bytes both) 0 (file_value both) ltac:(lia) ltac:(vm_compute; reflexivity) ltac:(vm_compute; reflexivity)))|].
  split; [|split; [discriminate|vm_compute; reflexivity]]. split; [repeat constructor|].
  assert (E : drawable ([], None)) by (split; [constructor|split; [constructor|intros w E; discriminate]]).
  split.
  - constructor; [constructor; [|constructor; [exact E|constructor]]|constructor; [constructor; [exact E|constructor]|constructor]].
    split; [constructor; [|constructor]|split; [repeat constructor|intros w [= <-]; reflexivity]].
    split; [reflexivity|]. cbn. reflexivity.
  - intros [|[|[|i]]] r xs A B N; vm_compute in A; try discriminate; injection A as <-; discriminate.
Qed.

(** PropEdit: property C76. *)
From Verif Require Import Base Float C1Number C1Operation C1Index C1Glyphs C1FontSet SpecEdit LayoutFacts FontSetFacts
  FontSetSamples EditFacts.
Local Open Scope list_scope.
Local Open Scope Z_scope.

(** C76. Whatever is written over the elements, the font set is read, and it has the same layout and the new
    elements. *)
Theorem C76_edited : forall (cfg : config) (tape tape' : list byte) (p : Z) (f : font_set),
  0 <= p -> Z.of_nat (length tape) < 2 ^ 63 -> length tape' = length tape ->
  read_font_set cfg tape p = Ok f ->
  (forall q, font_set_frame (overflow_checks cfg) tape p f q -> same_byte tape tape' q) ->
  exists g, read_font_set cfg tape' p = Ok g /\ font_set_overwritten (overflow_checks cfg) tape tape' p f g.
Proof. exact font_set_edited. Qed.
Print Assumptions C76_edited.

(** An element that has not been written to is the same. *)
Theorem C76_untouched : forall (tape tape' : list byte) (start : Z) (x y : index),
  overwritten tape tape' start x y ->
  forall j c, nth_error (data x) j = Some c ->
  (forall q, element_place x start j <= q < element_place x start j + Z.of_nat (length c) -> same_byte tape tape' q) ->
  nth_error (data y) j = Some c.
Proof. exact element_untouched. Qed.
Print Assumptions C76_untouched.

(** A single glyph is replaced. *)
Theorem C76_glyph : forall (cfg : config) (pre c c' post : list byte) (p : Z) (f : font_set) (i j : nat)
  (ops : operations) (x : index) (strings start : Z),
  0 <= p -> Z.of_nat (length (pre ++ c ++ post)) < 2 ^ 63 -> length c' = length c ->
  read_font_set cfg (pre ++ c ++ post) p = Ok f ->
  nth_error (fs_operations f) i = Some ops -> nth_error (fs_character_strings f) i = Some x ->
  operand ops Op_CharStrings strings -> located (overflow_checks cfg) p strings start ->
  nth_error (data x) j = Some c -> element_place x start j = Z.of_nat (length pre) ->
  (forall q, font_set_frame (overflow_checks cfg) (pre ++ c ++ post) p f q ->
     ~ (Z.of_nat (length pre) <= q < Z.of_nat (length pre) + Z.of_nat (length c))) ->
  exists g y, read_font_set cfg (pre ++ c' ++ post) p = Ok g /\
    font_set_overwritten (overflow_checks cfg) (pre ++ c ++ post) (pre ++ c' ++ post) p f g /\
    nth_error (fs_character_strings g) i = Some y /\ nth_error (data y) j = Some c'.
Proof. exact glyph_edited. Qed.
Print Assumptions C76_glyph.

(** Both glyphs of the sample are overwritten. *)
Example C76_case : let tape' := firstn 34 name_keyed ++ [x0b; xff] ++ skipn 36 name_keyed in
  exists g, read_font_set dev_profile tape' 0 = Ok g /\ font_set_overwritten true name_keyed tape' 0 name_keyed_value g /\
    fs_character_strings g = [index_value 1 [[x0b]; [xff]]].
Proof.
  intros tape'.
  destruct (C76_edited dev_profile name_keyed tape' 0 name_keyed_value) as (g & R & O).
  - lia.
  - vm_compute. reflexivity.
  - reflexivity.
  - vm_compute. reflexivity.
  - intros q H. apply name_keyed_frame in H.
    change name_keyed with (firstn 34 name_keyed ++ [x0e; x0e] ++ skipn 36 name_keyed).
    apply same_outside; [reflexivity|]. cbn. lia.
  - exists g. repeat (split; [assumption|]). vm_compute in R. injection R as <-. reflexivity.
Qed.

(** The first one is replaced and the second one stays. *)
Example C76_case_glyph : let pre := firstn 34 name_keyed in let post := skipn 35 name_keyed in
  exists g y, read_font_set dev_profile (pre ++ [x0b] ++ post) 0 = Ok g /\
    nth_error (fs_character_strings g) 0 = Some y /\ nth_error (data y) 0 = Some [x0b] /\
    nth_error (data y) 1 = Some [x0e].
Proof.
  intros pre post. assert (E : pre ++ [x0e] ++ post = name_keyed) by reflexivity.
  destruct (C76_glyph dev_profile pre [x0e] [x0b] post 0 name_keyed_value 0 0 name_keyed_operations
              (index_value 1 [[x0e]; [x0e]]) 28 28) as (g & y & R & O & Y & C); rewrite ?E.
  - lia.
  - vm_compute. reflexivity.
  - reflexivity.
  - vm_compute. reflexivity.
  - reflexivity.
  - reflexivity.
  - apply need_single_iff. vm_compute. reflexivity.
  - apply located_forward; lia.
  - reflexivity.
  - reflexivity.
  - intros q H. apply name_keyed_frame in H. change (~ (34 <= q < 35)). lia.
  - exists g, y. repeat (split; [assumption|]).
    pose proof O as (_ & _ & _ & _ & _ & _ & W & _).
    destruct (W 0%nat name_keyed_operations _ eq_refl eq_refl) as (y' & strings & start & Y' & Os & L & Ow).
    rewrite Y in Y'. injection Y' as <-.
    apply need_single_iff in Os. vm_compute in Os. injection Os as <-. apply located_forward in L; try lia.
    eapply C76_untouched; [exact Ow|reflexivity|]. intros q H. subst start.
    change (35 <= q < 36) in H. apply same_outside; [reflexivity|]. change (~ (34 <= q < 35)). lia.
Qed.

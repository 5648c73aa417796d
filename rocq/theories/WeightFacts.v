(** WeightFacts: how much memory a font set takes. *)
From Verif Require Import Base Float C1Number C1Operation C1Index C1Glyphs C1FontSet T2Operation T2Program BaseFacts StringFacts SpecSize SizeFacts.
Local Open Scope list_scope.
Local Open Scope nat_scope.

(** Reading takes at least a byte. *)
Definition shrinks {A} (rd : reader A) : Prop := forall s a r, rd s = Ok (a, r) -> length r < length s.

Lemma shrinks_u8 : shrinks take_u8.
Proof. intros [|b s] a r H; [discriminate|]. injection H as <- <-. cbn. lia. Qed.
Lemma shrinks_byte : shrinks take_byte.
Proof. intros [|b s] a r H; [discriminate|]. injection H as <- <-. cbn. lia. Qed.
Lemma shrinks_u16 : shrinks take_u16.
Proof. intros [|b [|c s]] a r H; try discriminate. injection H as <- <-. cbn. lia. Qed.

Lemma shrinks_pair {A B} (ra : reader A) (rb : reader B) C (f : A -> B -> C) : shrinks ra -> shrinks rb ->
  shrinks (fun s => let* (a, s1) := ra s in let* (b, s2) := rb s1 in Ok (f a b, s2)).
Proof.
  intros Sa Sb s c r H. inv_ok H. destruct a as [a s1]. inv_ok H. destruct a0 as [b s2]. injection H as <- <-.
  apply Sa in H0. apply Sb in H1. lia.
Qed.

Lemma take_n_length {A} (rd : reader A) : shrinks rd -> forall n s xs r,
  take_n rd n s = Ok (xs, r) -> length xs + length r <= length s.
Proof.
  intros S n. induction n as [|n IH]; intros s xs r H; cbn in H.
  - injection H as <- <-. cbn. lia.
  - inv_ok H. destruct a as [x s1]. inv_ok H. destruct a as [ys s2]. injection H as <- <-.
    apply S in H0. apply IH in H1. cbn. lia.
Qed.

Lemma take_vec_length {A} cfg size (rd : reader A) count : shrinks rd -> forall s xs r,
  take_vec cfg size rd count s = Ok (xs, r) -> length xs + length r <= length s.
Proof. intros S s xs r H. unfold take_vec in H. destruct (_ && _)%bool; [discriminate|]. eapply take_n_length; eauto. Qed.

Lemma rest_at_length data position : length (rest_at data position) <= length data.
Proof. unfold rest_at. destruct (Z.leb _ _); [cbn; lia|]. rewrite skipn_length. lia. Qed.

Lemma jump_length cfg data position offset s : jump cfg data position offset = Ok s -> length s <= length data.
Proof. unfold jump. intros H. inv_ok H. injection H as <-. apply rest_at_length. Qed.

(** ** Indices *)

Lemma read_index_weight cfg s x r : read_index cfg s = Ok (x, r) ->
  index_weight x + 2 * length r <= 2 * length s /\ length (data x) + length (concat (data x)) + length r <= length s.
Proof.
  intros H. pose proof (index_size_read _ _ _ _ H) as E.
  assert (W : (data x = [] /\ offsets x = []) \/ (length (offsets x) = S (length (data x)) /\ (1 <= offset_size x)%Z)).
  { unfold read_index in H. inv_ok H. destruct a as [n s1]. destruct (Z.eqb n 0).
    - injection H as <- <-. auto.
    - right. inv_ok H. destruct a as [size s2]. inv_ok H. destruct a as [offs s3].
      destruct offs as [|o offs]; [discriminate|]. destruct o as [|[o|o|]|]; try discriminate.
      inv_ok H. destruct a as [chunks s4]. injection H as <- <-. cbn [offsets data offset_size].
      split.
      + clear - H3. change 1%Z with (1)%Z in *. revert H3. generalize (1)%Z as o. revert s3 chunks s4.
        induction offs as [|o2 offs IH]; intros s3 chunks s4 o H; cbn [read_elements] in H.
        * injection H as <- <-. reflexivity.
        * destruct (Z.ltb o2 o); [discriminate|]. inv_ok H. destruct a as [c s5]. inv_ok H. destruct a as [cs s6].
          injection H as <- <-. cbn [length]. f_equal. eapply IH; eauto.
      + destruct (Z.to_nat (n + 1)) eqn:En; [discriminate|]. cbn in H2. inv_ok H2. destruct a as [o s5].
        unfold read_offset in H. destruct (Z.eqb_spec size 1); [lia|]. destruct (Z.eqb_spec size 2); [lia|].
        destruct (Z.eqb_spec size 3); [lia|]. destruct (Z.eqb_spec size 4); [lia|]. discriminate. }
  unfold index_size in E. unfold index_weight.
  destruct W as [[D O]|[L S]].
  - rewrite D, O in *. cbn [length concat] in *. lia.
  - destruct (data x) as [|c cs] eqn:D.
    + cbn [length concat] in *. lia.
    + rewrite <- D in *. nia.
Qed.

Lemma empty_index_weight : index_weight empty_index = 0.
Proof. reflexivity. Qed.

(** ** Character sets and encodings *)

Lemma shrinks_range1 : shrinks read_range1.
Proof. apply (shrinks_pair take_u16 take_u8 _ Build_string_range shrinks_u16 shrinks_u8). Qed.
Lemma shrinks_range2 : shrinks read_range2.
Proof. apply (shrinks_pair take_u16 take_u16 _ Build_string_range shrinks_u16 shrinks_u16). Qed.
Lemma shrinks_code_range : shrinks read_code_range.
Proof. apply (shrinks_pair take_u8 take_u8 _ Build_code_range shrinks_u8 shrinks_u8). Qed.
Lemma shrinks_supplement : shrinks read_supplement.
Proof. apply (shrinks_pair take_u8 take_u16 _ Build_supplement shrinks_u8 shrinks_u16). Qed.
Lemma shrinks_range3 : shrinks read_range3.
Proof. apply (shrinks_pair take_u16 take_u8 _ Build_dictionary_range shrinks_u16 shrinks_u8). Qed.

Lemma ranges_length rd : shrinks rd -> forall fuel n k s rs found r,
  read_ranges rd fuel n k s = Ok ((rs, found), r) -> length rs + length r <= length s.
Proof.
  intros Sr fuel. induction fuel as [|fuel IH]; intros n k s rs found r H; cbn [read_ranges] in H;
    destruct (Z.ltb _ _); try discriminate; try (injection H as <- <- <-; cbn; lia).
  inv_ok H. destruct a as [x s1]. inv_ok H. destruct a as [[ys f] s2]. injection H as <- <- <-.
  apply Sr in H0. apply IH in H1. cbn. lia.
Qed.

Lemma character_set_length cfg n s c r : read_character_set cfg n s = Ok (c, r) -> character_set_weight c + length r <= length s.
Proof.
  unfold read_character_set. intros H. inv_ok H. destruct (Z.eqb _ _); [|destruct (Z.eqb _ _); [|destruct (Z.eqb _ _); [|discriminate]]].
  - unfold read_character_set0 in H. inv_ok H. destruct a0 as [f s1]. destruct (negb _); [discriminate|]. inv_ok H. inv_ok H.
    destruct a1 as [xs s2]. injection H as <- <-. apply take_vec_length in H3; [|exact shrinks_u16]. apply shrinks_u8 in H1. cbn. lia.
  - unfold read_character_set1 in H. inv_ok H. destruct a0 as [f s1]. destruct (negb _); [discriminate|]. inv_ok H.
    destruct a0 as [[xs k] s2]. destruct (negb _); [discriminate|]. injection H as <- <-.
    apply (ranges_length _ shrinks_range1) in H2. apply shrinks_u8 in H1. cbn. lia.
  - unfold read_character_set2 in H. inv_ok H. destruct a0 as [f s1]. destruct (negb _); [discriminate|]. inv_ok H.
    destruct a0 as [[xs k] s2]. destruct (negb _); [discriminate|]. injection H as <- <-.
    apply (ranges_length _ shrinks_range2) in H2. apply shrinks_u8 in H1. cbn. lia.
Qed.

Lemma encoding_length cfg s c r : read_encoding cfg s = Ok (c, r) -> encoding_weight c + length r <= length s.
Proof.
  unfold read_encoding. intros H. inv_ok H. destruct (Z.eqb _ _); [|destruct (Z.eqb _ _); [|destruct (Z.ltb _ _); [|discriminate]]].
  - unfold read_encoding0 in H. inv_ok H. destruct a0 as [f s1]. destruct (negb _); [discriminate|]. inv_ok H.
    destruct a0 as [n s2]. inv_ok H. destruct a0 as [xs s3]. injection H as <- <-.
    apply take_vec_length in H3; [|exact shrinks_u8]. apply shrinks_u8 in H1, H2. cbn. lia.
  - unfold read_encoding1 in H. inv_ok H. destruct a0 as [f s1]. destruct (negb _); [discriminate|]. inv_ok H.
    destruct a0 as [n s2]. inv_ok H. destruct a0 as [xs s3]. injection H as <- <-.
    apply take_vec_length in H3; [|exact shrinks_code_range]. apply shrinks_u8 in H1, H2. cbn. lia.
  - unfold read_encoding_supplemental in H. inv_ok H. destruct a0 as [f s1]. inv_ok H.
    destruct a0 as [n s2]. inv_ok H. destruct a0 as [xs s3]. injection H as <- <-.
    apply take_vec_length in H3; [|exact shrinks_supplement]. apply shrinks_u8 in H1, H2. cbn. lia.
Qed.

Lemma selector_length cfg n s c r : read_dictionary_encoding cfg n s = Ok (c, r) -> selector_weight c + length r <= length s.
Proof.
  unfold read_dictionary_encoding. intros H. inv_ok H. destruct (Z.eqb _ _); [|destruct (Z.eqb _ _); [|discriminate]].
  - unfold read_dictionary_encoding0 in H. inv_ok H. destruct a0 as [f s1]. destruct (_ && _)%bool; [discriminate|]. inv_ok H.
    destruct a0 as [xs s2]. injection H as <- <-. apply take_vec_length in H2; [|exact shrinks_u8]. apply shrinks_u8 in H1. cbn. lia.
  - unfold read_dictionary_encoding3 in H. inv_ok H. destruct a0 as [f s1]. destruct (negb _); [discriminate|]. inv_ok H.
    destruct a0 as [k s2]. inv_ok H. destruct a0 as [xs s3]. inv_ok H. destruct a0 as [z s4]. injection H as <- <-.
    apply take_vec_length in H3; [|exact shrinks_range3]. apply shrinks_u8 in H1. apply shrinks_u16 in H2, H4. cbn. lia.
Qed.

(** ** Font sets *)

Lemma list_sum_cons (n : nat) l : list_sum (n :: l) = n + list_sum l.
Proof. reflexivity. Qed.

Lemma dictionaries_length cfg d opss : dictionaries_try_into cfg d = Ok opss ->
  length opss = length (data d) /\ list_sum (map count_operations opss) <= length (concat (data d)).
Proof.
  unfold dictionaries_try_into. rewrite (dictionaries_loop_chunks cfg d (data d) 0) by auto.
  generalize (data d) as cs. intros cs. revert opss. induction cs as [|c cs IH]; intros opss H.
  - injection H as <-. auto.
  - cbn in H. inv_ok H. inv_ok H. injection H as <-. apply IH in H1. apply dictionary_size in H0.
    cbn [length map concat]. rewrite app_length. rewrite list_sum_cons. lia.
Qed.

Lemma private_length cfg tape position top r : read_private cfg tape position top = Ok r ->
  private_weight r <= 3 * length tape.
Proof.
  unfold read_private. intros H. inv_ok H. destruct a as [size offset]. inv_ok H. inv_ok H. destruct a0 as [chunk s1].
  inv_ok H. inv_ok H.
  apply jump_length in H1. apply take_vec_length in H2; [|exact shrinks_byte]. apply dictionary_size in H3.
  destruct a1 as [z|].
  - inv_ok H. inv_ok H. inv_ok H. destruct a3 as [x s2]. injection H as <-.
    apply jump_length in H6. apply read_index_weight in H7. unfold private_weight; cbn [private_operations private_subroutines]. lia.
  - injection H as <-. unfold private_weight; cbn [private_operations private_subroutines]. rewrite empty_index_weight. lia.
Qed.

Lemma privates_length cfg tape position tops rs : read_privates cfg tape position tops = Ok rs ->
  length rs = length tops /\ list_sum (map private_weight rs) <= 3 * length tape * length rs.
Proof.
  revert rs. induction tops as [|t tops IH]; intros rs H; cbn [read_privates] in H.
  - injection H as <-. cbn. lia.
  - inv_ok H. inv_ok H. injection H as <-. apply private_length in H0. apply IH in H1. cbn [map length]. rewrite list_sum_cons. nia.
Qed.

Lemma record_length cfg tape position ops cs r : read_record cfg tape position ops cs = Ok r ->
  record_weight r <= 2 * length tape + 3 * length tape * privates r /\ privates r <= Nat.max 1 (length tape).
Proof.
  unfold read_record. intros H. destruct (map_contains _ _).
  - inv_ok H. injection H as <-. unfold read_cid in H0. destruct (operations_get _ _) as [[|n0 [|n1 [|n2 [|? ?]]]]|]; try discriminate.
    inv_ok H0. inv_ok H0. inv_ok H0. destruct a2 as [e s1]. inv_ok H0. inv_ok H0. inv_ok H0. destruct a4 as [d s2].
    inv_ok H0. inv_ok H0. inv_ok H0. inv_ok H0. injection H0 as <-. cbn [record_weight privates cid_encoding cid_operations cid_records].
    apply jump_length in H1, H4. apply selector_length in H2. apply read_index_weight in H5.
    apply dictionaries_length in H6. apply privates_length in H7. nia.
  - inv_ok H. injection H as <-. cbn [record_weight privates].
    apply private_length in H0. lia.
Qed.

Lemma read_font_length cfg tape position i ops g g' : read_font cfg tape position i ops g = Ok g' ->
  exists e c x r, encodings g' = encodings g ++ [e] /\ character_sets g' = character_sets g ++ [c] /\
    character_strings g' = character_strings g ++ [x] /\ records g' = records g ++ [r] /\
    encoding_weight e <= length tape /\ character_set_weight c <= length tape /\ index_weight x <= 2 * length tape /\
    record_weight r <= 2 * length tape + 3 * length tape * privates r /\ privates r <= length tape.
Proof.
  unfold read_font. intros H. inv_ok H. inv_ok H. inv_ok H. inv_ok H. destruct a2 as [x s1]. inv_ok H. inv_ok H. inv_ok H. inv_ok H.
  destruct (nth_error _ i) as [y|] eqn:N; [|discriminate]. inv_ok H. injection H as <-.
  exists a5, a3, x, a6. cbn [encodings character_sets character_strings records]. do 4 (split; [reflexivity|]).
  apply jump_length in H1. unfold read_character_strings in H3. destruct (Z.eqb _ _) in H3; [|discriminate].
  pose proof (index_size_read _ _ _ _ H3) as E. apply read_index_weight in H3. apply record_length in H8.
  assert (1 <= length tape).
  { unfold index_size in E. destruct (data x); [lia|]. destruct H3. cbn [length] in *. lia. }
  repeat split; try lia.
  - destruct (Z.eqb _ _) in H7; [injection H7 as <-; cbn; lia|]. destruct (Z.eqb _ _) in H7; [injection H7 as <-; cbn; lia|].
    inv_ok H7. inv_ok H7. destruct a8 as [e s2]. injection H7 as <-. apply jump_length in H9. apply encoding_length in H10. lia.
  - destruct (Z.eqb _ _) in H5; [injection H5 as <-; cbn; lia|]. destruct (Z.eqb _ _) in H5; [injection H5 as <-; cbn; lia|].
    destruct (Z.eqb _ _) in H5; [injection H5 as <-; cbn; lia|].
    inv_ok H5. inv_ok H5. destruct a8 as [e s2]. injection H5 as <-.
    apply jump_length in H9. apply character_set_length in H10. lia.
Qed.

Definition gathered_weight (g : gathered) : nat :=
  list_sum (map encoding_weight (encodings g)) + list_sum (map index_weight (character_strings g)) +
  list_sum (map character_set_weight (character_sets g)) + list_sum (map record_weight (records g)).

Lemma read_fonts_length cfg tape position opss : forall i g g', read_fonts cfg tape position i opss g = Ok g' ->
  exists rs, records g' = records g ++ rs /\ length rs = length opss /\ Forall (fun r => privates r <= length tape) rs /\
    gathered_weight g' <= gathered_weight g + 6 * length tape * length rs + 3 * length tape * list_sum (map privates rs).
Proof.
  induction opss as [|ops opss IH]; intros i g g' H; cbn [read_fonts] in H.
  - injection H as <-. exists []. rewrite app_nil_r. cbn. repeat split; auto. lia.
  - inv_ok H. apply read_font_length in H0. apply IH in H. destruct H as [rs [R [L [F W]]]].
    destruct H0 as [e [c [x [r [E1 [E2 [E3 [E4 [W1 [W2 [W3 [W4 W5]]]]]]]]]]]].
    exists (r :: rs). rewrite R, E4, <- app_assoc. split; [reflexivity|]. split; [cbn; lia|]. split; [auto|].
    unfold gathered_weight in *. rewrite E1, E2, E3, E4, !map_app, !list_sum_app in W. cbn [map] in *.  rewrite !list_sum_cons in W.
    change (list_sum []) with 0 in W.     rewrite list_sum_cons. cbn [length]. nia.
Qed.

Lemma font_set_length cfg tape position f : read_font_set cfg tape position = Ok f ->
  length (fs_records f) = length (fs_operations f) /\
  font_set_weight f <= 2 * length tape + 6 * length tape * length (fs_operations f) +
    3 * length tape * list_sum (map privates (fs_records f)) /\
  length (fs_operations f) <= length tape /\ Forall (fun r => privates r <= length tape) (fs_records f).
Proof.
  unfold read_font_set. intros H. inv_ok H. destruct a as [h s0]. inv_ok H. inv_ok H. destruct a0 as [names s1].
  inv_ok H. destruct a0 as [d s2]. inv_ok H. inv_ok H. destruct a1 as [strings s3]. inv_ok H. destruct a1 as [subs s4].
  inv_ok H. injection H as <-.
  apply jump_length in H1. apply read_index_weight in H2, H3, H5, H6. apply dictionaries_length in H4.
  apply read_fonts_length in H7. destruct H7 as [rs [R [L [F W]]]]. cbn [records app] in R.
  unfold font_set_weight, gathered_weight in *.
  cbn [encodings character_sets character_strings records fs_names fs_operations fs_strings fs_subroutines fs_encodings
       fs_character_strings fs_character_sets fs_records map] in *.
  change (list_sum []) with 0 in W. rewrite R in *. repeat split; auto; lia.
Qed.

Lemma font_set_cubic cfg tape position f : read_font_set cfg tape position = Ok f ->
  font_set_weight f <= 2 * length tape + 6 * length tape ^ 2 + 3 * length tape ^ 3.
Proof.
  intros H. apply font_set_length in H. destruct H as [E [W [L F]]].
  assert (list_sum (map privates (fs_records f)) <= length tape * length (fs_records f)).
  { clear - F. induction F as [|r rs Hr _ IH]; [cbn; lia|]. cbn [map length]. rewrite list_sum_cons. nia. }
  rewrite E in *. cbn [Nat.pow]. nia.
Qed.

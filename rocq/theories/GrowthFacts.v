(** GrowthFacts: small files whose font sets are large. *)
From Verif Require Import Base Float C1Number C1Operation C1Index C1Glyphs C1FontSet SpecNumber SpecRounding SpecFile SpecSize
  BaseFacts OperationFacts FontSetFacts LayoutFacts FileFacts WeightFacts.
Local Open Scope list_scope.
Local Open Scope Z_scope.

(** All fonts have the same font dictionaries, which all have the same private dictionary.  The glyph
    programs and the glyph-to-dictionary encodings are two bytes of the name index, which is empty. *)
Section files.
  Context (n : nat) (Hn : (1 <= n)%nat) (Hm : Z.of_nat n < 2 ^ 16).

  Definition shared_private : list byte := repeat x8b n ++ [x06].
  Definition shared_font_entries : list (operator * list Z) :=
    [(Op_Private, [Z.of_nat n + 1; 24 + 56 * Z.of_nat n])].
  Definition shared_top_entries : list (operator * list Z) :=
    [(Op_ROS, [0; 0; 0]); (Op_CharStrings, [4]); (Op_FDSelect, [4]); (Op_FDArray, [17 + 41 * Z.of_nat n])].
  Definition shared_array : list byte := four_byte_index (repeat (written_operations shared_font_entries) n).
  Definition shared_front : list byte :=
    file_header ++ [x00; x00] ++ four_byte_index (repeat (written_operations shared_top_entries) n) ++ [x00; x00] ++ [x00; x00].
  Definition shared_file : list byte := shared_front ++ shared_array ++ shared_private.

  Definition shared_record : record :=
    CharacterIDKeyed
      {| registry := 0; ordering := 0; cid_supplement := Integer 0; cid_encoding := DictFormat0 0 [];
         cid_operations := repeat (table (integer_operations shared_font_entries)) n;
         cid_records := repeat {| private_operations := table [(Op_BlueValues, repeat (Integer 0) n)];
                                  private_subroutines := index_value 0 [] |} n |}.
  Definition shared_font : font :=
    {| font_operations := table (integer_operations shared_top_entries);
       font_encoding := Standard; font_character_set := ISOAdobe; font_character_strings := index_value 0 [];
       font_record := shared_record |}.
  Definition shared_value : font_set :=
    {| fs_header := {| major := 1; minor := 0; header_size := 4; header_offset_size := 4 |};
       fs_names := index_value 0 [];
       fs_operations := repeat (font_operations shared_font) n;
       fs_strings := index_value 0 [];
       fs_subroutines := index_value 0 [];
       fs_encodings := repeat Standard n;
       fs_character_strings := repeat (index_value 0 []) n;
       fs_character_sets := repeat ISOAdobe n;
       fs_records := repeat shared_record n |}.

  Lemma repeat_bytes (c : list byte) : length (concat (repeat c n)) = (n * length c)%nat.
  Proof. clear. induction n; cbn; auto. rewrite app_length. lia. Qed.

  Lemma repeat_index (c : list byte) : Z.of_nat (length (four_byte_index (repeat c n))) =
    7 + 4 * Z.of_nat n + Z.of_nat n * Z.of_nat (length c).
  Proof.
    rewrite four_byte_length, repeat_bytes, repeat_length. destruct n; [lia|]. cbn [repeat]. lia.
  Qed.

  Lemma array_bytes : Z.of_nat (length shared_array) = 7 + 15 * Z.of_nat n.
  Proof. unfold shared_array. rewrite repeat_index. change (length (written_operations _)) with 11%nat. lia. Qed.
  Lemma front_bytes : Z.of_nat (length shared_front) = 17 + 41 * Z.of_nat n.
  Proof.
    unfold shared_front. rewrite !app_length, !Nat2Z.inj_add, repeat_index.
    change (length (written_operations _)) with 37%nat. cbn [length file_header]. lia.
  Qed.
  Lemma private_bytes_length : length shared_private = (n + 1)%nat.
  Proof. unfold shared_private. rewrite app_length, repeat_length. reflexivity. Qed.
  Lemma file_bytes_length : length shared_file = (25 + 57 * n)%nat.
  Proof.
    unfold shared_file. apply Nat2Z.inj. rewrite !app_length, !Nat2Z.inj_add, front_bytes, array_bytes, private_bytes_length. lia.
  Qed.

  Lemma zeros_encoding k : each operand_encoding (repeat x8b k) (repeat (Integer 0) k).
  Proof.
    induction k; [constructor|]. apply (each_cons _ [x8b] (Integer 0) (repeat x8b k)); auto.
    apply (one_byte x8b). vm_compute. split; discriminate.
  Qed.
  Lemma private_encoding : dictionary_encoding shared_private [(Op_BlueValues, repeat (Integer 0) n)].
  Proof.
    unfold shared_private. rewrite <- (app_nil_r (repeat x8b n ++ [x06])).
    apply (each_cons _ (repeat x8b n ++ [x06]) (Op_BlueValues, repeat (Integer 0) n) [] []); [|constructor].
    exists (repeat x8b n). split; [reflexivity|]. apply zeros_encoding.
  Qed.

  Lemma found_here checks before e after : Z.of_nat (length before) < 2 ^ 31 ->
    shared_file = before ++ e ++ after -> found checks shared_file 0 (Z.of_nat (length before)) e.
  Proof.
    intros L E. apply found_forward; [lia|lia|]. exists after. rewrite E, Z.add_0_l, Nat2Z.id.
    rewrite skipn_app, skipn_all, Nat.sub_diag. reflexivity.
  Qed.

  Lemma entries_small : Forall (fun op : operator * list Z => Forall small (snd op)) (shared_font_entries ++ shared_top_entries).
  Proof. unfold small. repeat (apply Forall_cons || apply Forall_nil); cbn [snd]; repeat (apply Forall_cons || apply Forall_nil); lia. Qed.

  Lemma Forall2_repeat {A B} (P : A -> B -> Prop) a b k : P a b -> Forall2 P (repeat a k) (repeat b k).
  Proof. intros H. induction k; constructor; auto. Qed.
  Lemma map_repeat {A B} (f : A -> B) a k : map f (repeat a k) = repeat (f a) k.
  Proof. induction k; cbn; congruence. Qed.
  Lemma Forall_same {A} (P : A -> Prop) a k : P a -> Forall P (repeat a k).
  Proof. intros H. induction k; constructor; auto. Qed.

  Lemma shared_empty : index_encoding [x00; x00] (index_value 0 []).
  Proof. exists 0, []. split; [|split; reflexivity]. split; [cbn; lia|auto]. Qed.

  Lemma shared_layout checks : font_set_layout checks shared_file 0 shared_value.
  Proof.
    pose proof entries_small as Sm. apply Forall_app in Sm as [Sf St].
    assert (Z4 : found checks shared_file 0 4 [x00; x00]).
    { apply (found_here checks file_header [x00; x00]
        (four_byte_index (repeat (written_operations shared_top_entries) n) ++ [x00; x00] ++ [x00; x00] ++ shared_array ++ shared_private)).
      { cbn. lia. } unfold shared_file, shared_front. rewrite <- !app_assoc. reflexivity. }
    exists file_header, [x00; x00], (four_byte_index (repeat (written_operations shared_top_entries) n)), [x00; x00], [x00; x00],
      (index_value 4 (repeat (written_operations shared_top_entries) n)), (repeat shared_font n).
    rewrite data_value, !map_repeat. cbn [shared_value fs_header fs_names fs_operations fs_strings fs_subroutines fs_encodings fs_character_sets
      fs_character_strings fs_records header_size].
    split. { exists x01, x00, x04, x04. split; reflexivity. }
    split. { split; [lia|]. exists (skipn 4 shared_file). reflexivity. }
    split. { apply (found_here checks file_header _ (shared_array ++ shared_private)).
      { cbn. lia. } unfold shared_file, shared_front. rewrite <- !app_assoc. reflexivity. }
    split; [apply shared_empty|].
    split. { apply four_byte_encoding. { unfold short. rewrite repeat_length. assumption. }
      rewrite repeat_index. change (length (written_operations _)) with 37%nat. lia. }
    split; [apply shared_empty|]. split; [apply shared_empty|].
    split. { apply Forall2_repeat, dictionary_data_encoding, written_encoding. assumption. }
    do 5 (split; [reflexivity|]). apply Forall_same.
    exists 4, 0, 0, [x00; x00]. cbn [shared_font font_operations font_character_strings font_character_set font_encoding font_record].
    split. { apply (tail_operand [] [(Op_ROS, [0; 0; 0])] Op_CharStrings 4 []). intros w I. cbn in I. intuition discriminate. }
    split. { exists []. right. split; [apply table_absent; intros v I; cbn in I; intuition discriminate|]. exists [Whole 2]. split; [reflexivity|]. constructor; [reflexivity|constructor]. }
    split; [exact Z4|]. split; [apply shared_empty|].
    split. { exists []. right. split; [apply table_absent; intros v I; cbn in I; intuition discriminate|]. exists [Whole 0]. split; [reflexivity|]. constructor; [reflexivity|constructor]. }
    split; [left; auto|].
    split. { exists []. right. split; [apply table_absent; intros v I; cbn in I; intuition discriminate|]. exists [Whole 0]. split; [reflexivity|]. constructor; [reflexivity|constructor]. }
    split; [left; auto|]. split.
    { intros N. assert (E : entry (table (integer_operations shared_top_entries)) Op_ROS (map Integer [0; 0; 0])).
      { apply (tail_entry [] [] Op_ROS [0; 0; 0]). intros w I. cbn in I. intuition discriminate. }
      destruct E as (b1 & b2 & E & _). apply (N (map Integer [0; 0; 0])). rewrite E. apply in_or_app. right. left. reflexivity. }
    cbn [count index_value].
    exists 0, 0, 4, (17 + 41 * Z.of_nat n), [x00], (index_value 4 (repeat (written_operations shared_font_entries) n)), shared_array.
    rewrite data_value. cbn [registry ordering cid_supplement cid_encoding cid_operations cid_records].
    split. { left. apply (tail_entry [] [] Op_ROS [0; 0; 0]). intros w I. cbn in I. intuition discriminate. }
    do 4 (split; [cbn; lia|]).
    split. { apply (tail_operand [] [(Op_ROS, [0; 0; 0]); (Op_CharStrings, [4])] Op_FDSelect 4 []). intros w I. cbn in I. intuition discriminate. }
    split. { destruct Z4 as [place [L [P [r E]]]]. exists place. split; auto. split; auto. exists (x00 :: r). exact E. }
    split. { apply (select_format0 0 []). reflexivity. }
    split. { apply (tail_operand [] [(Op_ROS, [0; 0; 0]); (Op_CharStrings, [4]); (Op_FDSelect, [4])] Op_FDArray _ []). intros w I. destruct I. }
    split. { rewrite <- front_bytes. apply (found_here checks _ _ shared_private); [rewrite front_bytes; lia|reflexivity]. }
    split. { apply four_byte_encoding. { unfold short. rewrite repeat_length. assumption. }
      rewrite repeat_index. change (length (written_operations _)) with 11%nat. lia. }
    split. { apply Forall2_repeat, dictionary_data_encoding, written_encoding. assumption. }
    apply Forall2_repeat. exists (Z.of_nat n + 1), (24 + 56 * Z.of_nat n), shared_private.
    split. { apply (tail_operands [] [] Op_Private _ _ []). intros w []. }
    split. { replace (24 + 56 * Z.of_nat n) with (Z.of_nat (length (shared_front ++ shared_array)))
               by (rewrite app_length, Nat2Z.inj_add, front_bytes, array_bytes; lia).
             apply (found_here checks _ _ []); [rewrite app_length, Nat2Z.inj_add, front_bytes, array_bytes; lia|].
             rewrite app_nil_r, <- app_assoc. reflexivity. }
    split. { rewrite private_bytes_length. lia. }
    split. { apply dictionary_data_encoding, private_encoding. }
    left. split; [|reflexivity]. intros v [E|[_ [ls [D _]]]]; [|discriminate].
    apply table_entry in E. destruct E as (b1 & b2 & E & _).
    assert (I : In (Op_Subrs, v) [(Op_BlueValues, repeat (Integer 0) n)]) by (rewrite E; apply in_or_app; right; left; reflexivity).
    destruct I as [I|[]]. discriminate.
  Qed.

  Lemma list_sum_repeat a k : list_sum (repeat a k) = (k * a)%nat.
  Proof. induction k; cbn [repeat]; [reflexivity|]. rewrite list_sum_cons, IHk. lia. Qed.

  Lemma shared_weight : (n ^ 3 <= font_set_weight shared_value)%nat.
  Proof.
    unfold font_set_weight. cbn [shared_value fs_records].
    assert (E : (n ^ 3 <= list_sum (map record_weight (repeat shared_record n)))%nat); [|lia].
    rewrite map_repeat, list_sum_repeat. cbn [shared_record record_weight cid_records].
    rewrite (map_repeat private_weight), list_sum_repeat. unfold private_weight. cbn [private_operations private_subroutines].
    assert (W : (n <= count_operations (table [(Op_BlueValues, repeat (Integer 0) n)]))%nat).
    { cbn. rewrite repeat_length. lia. }
    cbn [Nat.pow]. nia.
  Qed.

  Lemma shared_read cfg : read_font_set cfg shared_file 0 = Ok shared_value.
  Proof.
    apply font_set_iff_closed; [lia| |apply shared_layout]. rewrite file_bytes_length. lia.
  Qed.
End files.

Lemma font_set_grows cfg (n : nat) : (1 <= n)%nat -> Z.of_nat n < 2 ^ 16 ->
  exists tape f, length tape = (25 + 57 * n)%nat /\ read_font_set cfg tape 0 = Ok f /\ (n ^ 3 <= font_set_weight f)%nat.
Proof.
  intros H M. exists (shared_file n), (shared_value n).
  split; [apply file_bytes_length; auto|]. split; [apply shared_read; auto|]. apply shared_weight; auto.
Qed.

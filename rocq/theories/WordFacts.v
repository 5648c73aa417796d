(** WordFacts: reading where a [usize] has 32 bits. *)
From Verif Require Import Base Float C1Number C1Operation C1Index C1Glyphs C1FontSet C1Word SpecFontSet BaseFacts IndexFacts FontSetFacts WeightFacts.
Local Open Scope list_scope.
Local Open Scope Z_scope.

(** ** 64 bits are what the other files assume *)

Lemma wide_vec {A} cfg size (rd : reader A) n s : word_vec 64 cfg size rd n s = take_vec cfg size rd n s.
Proof. reflexivity. Qed.

Lemma word_elements_cons w cfg o1 o2 offs s : word_elements w cfg (o1 :: o2 :: offs) s =
  if o2 <? o1 then Err Other
  else let* (chunk, s1) := word_vec w cfg 1 take_byte (o2 - o1) s in
       let* (chunks, s2) := word_elements w cfg (o2 :: offs) s1 in Ok (chunk :: chunks, s2).
Proof. reflexivity. Qed.
Lemma read_elements_cons cfg o1 o2 offs s : read_elements cfg (o1 :: o2 :: offs) s =
  if o2 <? o1 then Err Other
  else let* (chunk, s1) := take_vec cfg 1 take_byte (o2 - o1) s in
       let* (chunks, s2) := read_elements cfg (o2 :: offs) s1 in Ok (chunk :: chunks, s2).
Proof. reflexivity. Qed.

Lemma wide_elements cfg offs : forall s, word_elements 64 cfg offs s = read_elements cfg offs s.
Proof.
  induction offs as [|o1 [|o2 offs] IH]; intros s; try reflexivity.
  rewrite word_elements_cons, read_elements_cons, wide_vec. destruct (o2 <? o1); [reflexivity|].
  destruct (take_vec _ _ _ _ _) as [[c s1]| | |]; cbn [bind]; [|reflexivity..]. rewrite IH. reflexivity.
Qed.

Lemma wide_index cfg s : word_index 64 cfg s = read_index cfg s.
Proof.
  unfold word_index, read_index. destruct (take_u16 s) as [[n s1]| | |]; cbn [bind]; [|reflexivity..].
  destruct (n =? 0); [reflexivity|]. destruct (take_u8 s1) as [[z s2]| | |]; cbn [bind]; [|reflexivity..].
  destruct (take_n _ _ _) as [[offs s3]| | |]; cbn [bind]; [|reflexivity..].
  destruct offs as [|[|[]|] offs]; try reflexivity. rewrite wide_elements. reflexivity.
Qed.

Lemma wide_private cfg tape position top : word_private 64 cfg tape position top = read_private cfg tape position top.
Proof.
  unfold word_private, read_private. destruct (need_double _ _) as [[size offset]| | |]; cbn [bind]; [|reflexivity..].
  destruct (jump _ _ _ _) as [s| | |]; cbn [bind]; [|reflexivity..].
  change (word_vec 64 cfg 1 take_byte (word_as_usize 64 size) s) with (take_vec cfg 1 take_byte (as_usize size) s).
  destruct (take_vec _ _ _ _ _) as [[c s1]| | |]; cbn [bind]; [|reflexivity..].
  destruct (read_operations c) as [ops| | |]; cbn [bind]; [|reflexivity..].
  destruct (try_single _ _) as [[another|]| | |]; cbn [bind]; [|reflexivity..].
  destruct (add_i32 _ _ _) as [sum| | |]; cbn [bind]; [|reflexivity..].
  destruct (jump _ _ _ _) as [s'| | |]; cbn [bind]; [|reflexivity..]. rewrite wide_index. reflexivity.
Qed.

Lemma wide_privates cfg tape position tops : word_privates 64 cfg tape position tops = read_privates cfg tape position tops.
Proof.
  induction tops as [|top tops IH]; [reflexivity|]. cbn [word_privates read_privates]. rewrite wide_private.
  destruct (read_private _ _ _ _); try reflexivity. cbn [bind]. rewrite IH. reflexivity.
Qed.

Lemma wide_cid cfg tape position top cs : word_cid 64 cfg tape position top cs = read_cid cfg tape position top cs.
Proof.
  unfold word_cid, read_cid. destruct (operations_get _ _) as [[|a [|b [|c [|]]]]|]; try reflexivity.
  destruct (need_single _ _) as [offset| | |]; cbn [bind]; [|reflexivity..].
  destruct (jump _ _ _ _) as [s| | |]; cbn [bind]; [|reflexivity..].
  change (word_dictionary_encoding 64) with read_dictionary_encoding.
  destruct (read_dictionary_encoding _ _ _) as [[enc s1]| | |]; cbn [bind]; [|reflexivity..].
  destruct (need_single _ _) as [offset'| | |]; cbn [bind]; [|reflexivity..].
  destruct (jump _ _ _ _) as [s'| | |]; cbn [bind]; [|reflexivity..]. rewrite wide_index.
  destruct (read_index _ _) as [[d s2]| | |]; cbn [bind]; [|reflexivity..].
  destruct (dictionaries_try_into _ _) as [opss| | |]; cbn [bind]; [|reflexivity..]. rewrite wide_privates. reflexivity.
Qed.

Lemma wide_record cfg tape position ops cs : word_record 64 cfg tape position ops cs = read_record cfg tape position ops cs.
Proof. unfold word_record, read_record. rewrite wide_cid, wide_private. reflexivity. Qed.

Lemma wide_font cfg tape position i ops g : word_font 64 cfg tape position i ops g = read_font cfg tape position i ops g.
Proof.
  unfold word_font, read_font.
  destruct (need_single ops Op_CharStrings) as [offset| | |]; cbn [bind]; [|reflexivity..].
  destruct (jump cfg tape position offset) as [s| | |]; cbn [bind]; [|reflexivity..].
  destruct (need_single ops Op_CharStringType) as [format| | |]; cbn [bind]; [|reflexivity..].
  unfold word_character_strings, read_character_strings.
  destruct (format =? 2); [|reflexivity]. rewrite wide_index.
  destruct (read_index cfg s) as [[d s2]| | |]; cbn [bind]; [|reflexivity..].
  change (word_character_set 64) with read_character_set. change (word_encoding 64) with read_encoding.
  destruct (need_single ops Op_CharSet) as [offset'| | |]; cbn [bind]; [|reflexivity..].
  match goal with |- context [bind ?m _] => destruct m as [set| | |] end; cbn [bind]; [|reflexivity..].
  destruct (need_single ops Op_Encoding) as [offset''| | |]; cbn [bind]; [|reflexivity..].
  match goal with |- context [bind ?m _] => destruct m as [enc| | |] end; cbn [bind]; [|reflexivity..].
  destruct (nth_error _ _); [|reflexivity]. rewrite wide_record. reflexivity.
Qed.

Lemma wide_fonts cfg tape position opss : forall i g, word_fonts 64 cfg tape position i opss g = read_fonts cfg tape position i opss g.
Proof.
  induction opss as [|ops opss IH]; intros i g; [reflexivity|]. cbn [word_fonts read_fonts]. rewrite wide_font.
  destruct (read_font _ _ _ _ _ _); try reflexivity. cbn [bind]. apply IH.
Qed.

Lemma wide_font_set cfg tape position : word_font_set 64 cfg tape position = read_font_set cfg tape position.
Proof.
  unfold word_font_set, read_font_set.
  destruct (read_header _) as [[h s0]| | |]; cbn [bind]; [|reflexivity..].
  destruct (jump _ _ _ _) as [s| | |]; cbn [bind]; [|reflexivity..]. rewrite wide_index.
  destruct (read_index _ _) as [[n s1]| | |]; cbn [bind]; [|reflexivity..]. rewrite wide_index.
  destruct (read_index _ _) as [[d s2]| | |]; cbn [bind]; [|reflexivity..].
  destruct (dictionaries_try_into _ _) as [opss| | |]; cbn [bind]; [|reflexivity..]. rewrite wide_index.
  destruct (read_index _ _) as [[ss s3]| | |]; cbn [bind]; [|reflexivity..]. rewrite wide_index.
  destruct (read_index _ _) as [[sr s4]| | |]; cbn [bind]; [|reflexivity..]. rewrite wide_fonts. reflexivity.
Qed.

(** ** 32 bits *)

(** The outcome is the same, or reserving memory panics where reading would have run out of bytes. *)
Definition narrowly {A} (cfg : config) (x y : outcome A) : Prop :=
  x = y \/ (x = Panic CapacityOverflow /\ y = Err UnexpectedEof /\ preallocates cfg = true).

Lemma narrowly_same {A} cfg (x : outcome A) : narrowly cfg x x.
Proof. left. reflexivity. Qed.

Lemma narrowly_bind {A B} cfg (x y : outcome A) (f h : A -> outcome B) : narrowly cfg x y ->
  (forall a, y = Ok a -> narrowly cfg (f a) (h a)) -> narrowly cfg (bind x f) (bind y h).
Proof.
  intros [->|(-> & -> & P)] K; [|right; auto]. destruct y; cbn [bind]; [auto| | |]; left; reflexivity.
Qed.

(** A vector of more elements than the tape has bytes. *)
Lemma take_n_short {A} (rd : reader A) : shrinks rd -> (forall s, rd s = Err UnexpectedEof \/ exists a r, rd s = Ok (a, r)) ->
  forall n s, (length s < n)%nat -> take_n rd n s = Err UnexpectedEof.
Proof.
  intros Sh T n. induction n as [|n IH]; intros s L; [lia|]. cbn [take_n].
  destruct (T s) as [E|(a & r & E)]; rewrite E; [reflexivity|]. cbn [bind]. apply Sh in E. rewrite IH by lia. reflexivity.
Qed.

Definition plain {A} (rd : reader A) : Prop := forall s, rd s = Err UnexpectedEof \/ exists a r, rd s = Ok (a, r).

Lemma plain_byte : plain take_byte.
Proof. intros [|b s]; cbn; eauto. Qed.
Lemma plain_u16 : plain take_u16.
Proof. intros [|b [|c s]]; cbn [take_u16]; eauto. Qed.

(** The same number of elements. *)
Lemma narrow_vec {A} cfg size (rd : reader A) n s : shrinks rd -> plain rd -> 1 <= size -> size <= 4 ->
  (size = 1 \/ n < 2 ^ 29) -> Z.of_nat (length s) < 2 ^ 31 ->
  narrowly cfg (word_vec 32 cfg size rd n s) (take_vec cfg size rd n s).
Proof.
  intros Sh Pl S1 S2 Sn L. unfold word_vec, take_vec. destruct (preallocates cfg) eqn:P; [|left; reflexivity].
  change (word_max 32) with (2 ^ 31 - 1). change isize_max with (2 ^ 63 - 1). cbn [andb].
  destruct (2 ^ 63 - 1 <? n * size) eqn:E1.
  - apply Z.ltb_lt in E1. assert (E2 : 2 ^ 31 - 1 <? n * size = true) by (apply Z.ltb_lt; lia). rewrite E2. left. reflexivity.
  - destruct (2 ^ 31 - 1 <? n * size) eqn:E2; [|left; reflexivity]. apply Z.ltb_lt in E2.
    right. repeat split; auto. destruct Sn as [->|Sn]; [|nia].
    apply take_n_short; auto. lia.
Qed.

(** As many elements as no tape has bytes. *)
Lemma huge_vec {A} cfg size (rd : reader A) n m s : shrinks rd -> plain rd -> 1 <= size ->
  Z.of_nat (length s) < 2 ^ 31 -> 2 ^ 31 <= n -> 2 ^ 63 <= m ->
  word_vec 32 cfg size rd n s = take_vec cfg size rd m s.
Proof.
  intros Sh Pl S1 L N M. unfold word_vec, take_vec. change (word_max 32) with (2 ^ 31 - 1). change isize_max with (2 ^ 63 - 1).
  assert (E1 : 2 ^ 31 - 1 <? n * size = true) by (apply Z.ltb_lt; nia).
  assert (E2 : 2 ^ 63 - 1 <? m * size = true) by (apply Z.ltb_lt; nia).
  rewrite E1, E2. destruct (preallocates cfg); [reflexivity|]. cbn [andb].
  rewrite !take_n_short by (auto; lia). reflexivity.
Qed.

(** A small number of elements. *)
Lemma few_vec {A} cfg size (rd : reader A) n s : 0 <= size <= 4 -> n < 2 ^ 29 ->
  word_vec 32 cfg size rd n s = take_vec cfg size rd n s.
Proof.
  intros S1 N. unfold word_vec, take_vec. change (word_max 32) with (2 ^ 31 - 1). change isize_max with (2 ^ 63 - 1).
  assert (E1 : 2 ^ 31 - 1 <? n * size = false) by (apply Z.ltb_ge; nia).
  assert (E2 : 2 ^ 63 - 1 <? n * size = false) by (apply Z.ltb_ge; nia).
  rewrite E1, E2. reflexivity.
Qed.

Lemma narrow_elements cfg offs : forall s, Z.of_nat (length s) < 2 ^ 31 ->
  narrowly cfg (word_elements 32 cfg offs s) (read_elements cfg offs s).
Proof.
  induction offs as [|o1 [|o2 offs] IH]; intros s L; try apply narrowly_same.
  rewrite word_elements_cons, read_elements_cons. destruct (o2 <? o1); [apply narrowly_same|].
  apply narrowly_bind.
  - apply narrow_vec; auto using shrinks_byte, plain_byte; lia.
  - intros [c s1] E. apply take_vec_length in E; [|exact shrinks_byte]. apply narrowly_bind.
    + apply IH. lia.
    + intros [cs s2] _. apply narrowly_same.
Qed.

Lemma shrinks_offset size : shrinks (read_offset size).
Proof.
  intros s x r H. unfold read_offset in H.
  destruct (size =? 1); [eapply shrinks_u8; eauto|]. destruct (size =? 2); [eapply shrinks_u16; eauto|].
  destruct (size =? 3).
  - destruct s as [|b2 [|b1 [|b0 s]]]; try discriminate. cbn [take_u8x3 bind] in H. injection H as <- <-. cbn. lia.
  - destruct (size =? 4); [|discriminate]. apply take_u32_ok in H as (b3 & b2 & b1 & b0 & -> & _). cbn. lia.
Qed.

Lemma narrow_index cfg s : Z.of_nat (length s) < 2 ^ 31 -> narrowly cfg (word_index 32 cfg s) (read_index cfg s).
Proof.
  intros L. unfold word_index, read_index.
  apply narrowly_bind; [apply narrowly_same|]. intros [n s1] E1. apply shrinks_u16 in E1.
  destruct (n =? 0); [apply narrowly_same|].
  apply narrowly_bind; [apply narrowly_same|]. intros [z s2] E2. apply shrinks_u8 in E2.
  apply narrowly_bind; [apply narrowly_same|]. intros [offs s3] E3. apply take_n_length in E3; [|apply shrinks_offset].
  destruct offs as [|[|[]|] offs]; try apply narrowly_same.
  apply narrowly_bind; [apply narrow_elements; lia|]. intros [cs s4] _. apply narrowly_same.
Qed.

Lemma take_u8_range s n r : take_u8 s = Ok (n, r) -> 0 <= n < 256.
Proof. intros H. apply take_u8_ok in H as (b & _ & ->). apply bz_range. Qed.
Lemma take_u16_range s n r : take_u16 s = Ok (n, r) -> 0 <= n < 2 ^ 16.
Proof. intros H. apply take_u16_ok in H as (b & c & _ & ->). pose proof (bz_range b). pose proof (bz_range c). lia. Qed.

Lemma index_count_range cfg s x r : read_index cfg s = Ok (x, r) -> 0 <= count x < 2 ^ 16.
Proof.
  unfold read_index. intros H. inv_ok H. destruct a as [n s1]. apply take_u16_range in H0.
  destruct (n =? 0); [injection H as <- <-; cbn [count empty_index]; lia|].
  inv_ok H. destruct a as [z s2]. inv_ok H. destruct a as [offs s3].
  destruct offs as [|[|[]|] offs]; try discriminate. inv_ok H. destruct a as [cs s4]. injection H as <- <-. exact H0.
Qed.

Lemma narrow_private cfg tape position top : Z.of_nat (length tape) < 2 ^ 31 ->
  bounded top ->
  narrowly cfg (word_private 32 cfg tape position top) (read_private cfg tape position top).
Proof.
  intros L R. unfold word_private, read_private.
  apply narrowly_bind; [apply narrowly_same|]. intros [size offset] E. apply need_double_iff in E. destruct (bounded_double _ _ _ _ R E) as [E0 _]. clear E. rename E0 into E.
  apply narrowly_bind; [apply narrowly_same|]. intros s E1. apply jump_length in E1.
  apply narrowly_bind.
  - destruct (Z.ltb_spec size 0).
    + left. apply huge_vec; auto using shrinks_byte, plain_byte; try lia.
      * unfold word_as_usize. rewrite <- (Z.mod_unique size (2 ^ 32) (-1) (size + 2 ^ 32)); lia.
      * unfold as_usize, as_u64. rewrite <- (Z.mod_unique size (2 ^ 64) (-1) (size + 2 ^ 64)); lia.
    + unfold word_as_usize, as_usize, as_u64. rewrite !Z.mod_small by lia.
      apply narrow_vec; auto using shrinks_byte, plain_byte; lia.
  - intros [c s1] _. apply narrowly_bind; [apply narrowly_same|]. intros ops _.
    apply narrowly_bind; [apply narrowly_same|]. intros [another|] _; [|apply narrowly_same].
    apply narrowly_bind; [apply narrowly_same|]. intros sum _.
    apply narrowly_bind; [apply narrowly_same|]. intros s' E2. apply jump_length in E2.
    apply narrowly_bind; [apply narrow_index; lia|]. intros [sr s2] _. apply narrowly_same.
Qed.

Lemma narrow_privates cfg tape position tops : Z.of_nat (length tape) < 2 ^ 31 -> Forall bounded tops ->
  narrowly cfg (word_privates 32 cfg tape position tops) (read_privates cfg tape position tops).
Proof.
  intros L. induction 1 as [|top tops B _ IH]; [apply narrowly_same|]. cbn [word_privates read_privates].
  apply narrowly_bind; [apply narrow_private; auto|]. intros r _.
  apply narrowly_bind; [exact IH|]. intros rs _. apply narrowly_same.
Qed.

Lemma narrow_character_set0 cfg n s : Z.of_nat (length s) < 2 ^ 31 -> 0 <= n < 2 ^ 16 ->
  narrowly cfg (word_character_set0 32 cfg n s) (read_character_set0 cfg n s).
Proof.
  intros L N. unfold word_character_set0, read_character_set0.
  apply narrowly_bind; [apply narrowly_same|]. intros [format s1] E. apply shrinks_u8 in E.
  destruct (negb _); [apply narrowly_same|].
  unfold word_sub, word_of, sub_usize, in_u64. destruct (Z.leb_spec 0 (n - 1)) as [P|P].
  - assert (E1 : n - 1 <? 2 ^ 32 = true) by (apply Z.ltb_lt; lia).
    assert (E2 : n - 1 <? 2 ^ 64 = true) by (apply Z.ltb_lt; lia).
    rewrite E1, E2. cbn [andb bind]. rewrite few_vec by lia. apply narrowly_same.
  - cbn [andb]. destruct (overflow_checks cfg); [apply narrowly_same|]. cbn [bind]. left. f_equal.
    apply huge_vec; auto using shrinks_u16, plain_u16; try lia.
    + unfold word_as_usize. rewrite <- (Z.mod_unique (n - 1) (2 ^ 32) (-1) (n - 1 + 2 ^ 32)); lia.
    + unfold as_usize, as_u64. rewrite <- (Z.mod_unique (n - 1) (2 ^ 64) (-1) (n - 1 + 2 ^ 64)); lia.
Qed.

Lemma narrow_character_set cfg n s : Z.of_nat (length s) < 2 ^ 31 -> 0 <= n < 2 ^ 16 ->
  narrowly cfg (word_character_set 32 cfg n s) (read_character_set cfg n s).
Proof.
  intros L N. unfold word_character_set, read_character_set.
  apply narrowly_bind; [apply narrowly_same|]. intros f _.
  destruct (f =? 0); [apply narrow_character_set0; auto|apply narrowly_same].
Qed.

Lemma narrow_encoding cfg s : word_encoding 32 cfg s = read_encoding cfg s.
Proof.
  unfold word_encoding, read_encoding. destruct (peek_u8 s) as [f| | |]; cbn [bind]; [|reflexivity..].
  destruct (f =? 0); [|destruct (f =? 1); [|destruct (0 <? _); [|reflexivity]]].
  - unfold word_encoding0, read_encoding0. destruct (take_u8 s) as [[z s1]| | |]; cbn [bind]; [|reflexivity..].
    destruct (negb _); [reflexivity|]. destruct (take_u8 s1) as [[n s2]| | |] eqn:E; try reflexivity. cbn [bind].
    apply take_u8_range in E. rewrite few_vec by lia. reflexivity.
  - unfold word_encoding1, read_encoding1. destruct (take_u8 s) as [[z s1]| | |]; cbn [bind]; [|reflexivity..].
    destruct (negb _); [reflexivity|]. destruct (take_u8 s1) as [[n s2]| | |] eqn:E; try reflexivity. cbn [bind].
    apply take_u8_range in E. rewrite few_vec by lia. reflexivity.
  - unfold word_encoding_supplemental, read_encoding_supplemental. destruct (take_u8 s) as [[z s1]| | |]; try reflexivity.
    cbn [bind]. destruct (take_u8 s1) as [[n s2]| | |] eqn:E; try reflexivity. cbn [bind].
    apply take_u8_range in E. rewrite few_vec by lia. reflexivity.
Qed.

Lemma narrow_dictionary_encoding cfg n s : 0 <= n < 2 ^ 16 ->
  word_dictionary_encoding 32 cfg n s = read_dictionary_encoding cfg n s.
Proof.
  intros N. unfold word_dictionary_encoding, read_dictionary_encoding. destruct (peek_u8 s) as [f| | |]; cbn [bind]; [|reflexivity..].
  destruct (f =? 0); [|destruct (f =? 3); [|reflexivity]].
  - unfold word_dictionary_encoding0, read_dictionary_encoding0. destruct (take_u8 s) as [[z s1]| | |]; cbn [bind]; [|reflexivity..].
    destruct (_ && _)%bool; [reflexivity|]. rewrite few_vec by lia. reflexivity.
  - unfold word_dictionary_encoding3, read_dictionary_encoding3. destruct (take_u8 s) as [[z s1]| | |]; cbn [bind]; [|reflexivity..].
    destruct (negb _); [reflexivity|]. destruct (take_u16 s1) as [[k s2]| | |] eqn:E; try reflexivity. cbn [bind].
    apply take_u16_range in E. rewrite few_vec by lia. reflexivity.
Qed.

Lemma narrow_record cfg tape position ops cs : Z.of_nat (length tape) < 2 ^ 31 -> bounded ops -> 0 <= count cs < 2 ^ 16 ->
  narrowly cfg (word_record 32 cfg tape position ops cs) (read_record cfg tape position ops cs).
Proof.
  intros L B N. unfold word_record, read_record. destruct (map_contains _ _).
  - apply narrowly_bind; [|intros r _; apply narrowly_same]. unfold word_cid, read_cid.
    destruct (operations_get _ _) as [[|a [|b [|c [|]]]]|]; try apply narrowly_same.
    apply narrowly_bind; [apply narrowly_same|]. intros offset _.
    apply narrowly_bind; [apply narrowly_same|]. intros s _. rewrite narrow_dictionary_encoding by exact N.
    apply narrowly_bind; [apply narrowly_same|]. intros [enc s1] _.
    apply narrowly_bind; [apply narrowly_same|]. intros offset' _.
    apply narrowly_bind; [apply narrowly_same|]. intros s' E. apply jump_length in E.
    apply narrowly_bind; [apply narrow_index; lia|]. intros [d s2] _.
    apply narrowly_bind; [apply narrowly_same|]. intros opss E2. apply tables_iff in E2.
    apply narrowly_bind; [apply narrow_privates; [lia|eapply dictionaries_bounded; eauto]|]. intros rs _. apply narrowly_same.
  - apply narrowly_bind; [apply narrow_private; auto|]. intros r _. apply narrowly_same.
Qed.

Definition counted (g : gathered) : Prop := Forall (fun cs => 0 <= count cs < 2 ^ 16) (character_strings g).

Lemma narrow_font cfg tape position i ops g : Z.of_nat (length tape) < 2 ^ 31 -> bounded ops -> counted g ->
  narrowly cfg (word_font 32 cfg tape position i ops g) (read_font cfg tape position i ops g) /\
  forall g', read_font cfg tape position i ops g = Ok g' -> counted g'.
Proof.
  intros L B G.
  assert (C : forall cs s r, read_index cfg s = Ok (cs, r) -> forall k c, nth_error (character_strings g ++ [cs]) k = Some c ->
    0 <= count c < 2 ^ 16).
  { intros cs s r E k c Nc. apply nth_error_In in Nc. apply in_app_iff in Nc as [Nc|[<-|[]]].
    - exact (proj1 (Forall_forall _ _) G c Nc).
    - eapply index_count_range; eauto. }
  split.
  - unfold word_font, read_font.
    apply narrowly_bind; [apply narrowly_same|]. intros offset _.
    apply narrowly_bind; [apply narrowly_same|]. intros s E. apply jump_length in E.
    apply narrowly_bind; [apply narrowly_same|]. intros format _.
    apply narrowly_bind; [unfold word_character_strings, read_character_strings;
      destruct (format =? 2); [apply narrow_index; lia|apply narrowly_same]|].
    intros [cs s1] E1. unfold read_character_strings in E1. destruct (format =? 2); [|discriminate]. specialize (C cs s s1 E1).
    apply narrowly_bind; [apply narrowly_same|]. intros offset' _.
    apply narrowly_bind.
    { destruct (offset' =? 0); [apply narrowly_same|]. destruct (offset' =? 1); [apply narrowly_same|].
      destruct (offset' =? 2); [apply narrowly_same|].
      apply narrowly_bind; [apply narrowly_same|]. intros s' E'. apply jump_length in E'.
      destruct (nth_error _ _) eqn:Nc; [|apply narrowly_same].
      apply narrowly_bind; [apply narrow_character_set; [lia|eauto]|]. intros [] _. apply narrowly_same. }
    intros set _. apply narrowly_bind; [apply narrowly_same|]. intros offset'' _.
    apply narrowly_bind.
    { destruct (offset'' =? 0); [apply narrowly_same|]. destruct (offset'' =? 1); [apply narrowly_same|].
      apply narrowly_bind; [apply narrowly_same|]. intros s' _. rewrite narrow_encoding. apply narrowly_same. }
    intros enc _. destruct (nth_error _ _) eqn:Nc; [|apply narrowly_same].
    apply narrowly_bind; [apply narrow_record; eauto|]. intros r _. apply narrowly_same.
  - intros g' H. unfold read_font in H. do 3 inv_ok H. inv_ok H. destruct a2 as [cs s1].
    unfold read_character_strings in H3. destruct (a1 =? 2); [|discriminate].
    do 4 inv_ok H. destruct (nth_error _ _); [|discriminate]. inv_ok H. injection H as <-. unfold counted. cbn [character_strings].
    apply Forall_app. split; [exact G|]. constructor; [|constructor]. eapply index_count_range; eauto.
Qed.

Lemma narrow_fonts cfg tape position opss : Z.of_nat (length tape) < 2 ^ 31 -> Forall bounded opss -> forall i g, counted g ->
  narrowly cfg (word_fonts 32 cfg tape position i opss g) (read_fonts cfg tape position i opss g).
Proof.
  intros L. induction 1 as [|ops opss B _ IH]; intros i g G; [apply narrowly_same|]. cbn [word_fonts read_fonts].
  destruct (narrow_font cfg tape position i ops g L B G) as [N K].
  apply narrowly_bind; [exact N|]. intros g' E. apply IH. eauto.
Qed.

Lemma narrow_font_set cfg tape position : Z.of_nat (length tape) < 2 ^ 31 ->
  narrowly cfg (word_font_set 32 cfg tape position) (read_font_set cfg tape position).
Proof.
  intros L. unfold word_font_set, read_font_set.
  apply narrowly_bind; [apply narrowly_same|]. intros [h s0] _.
  apply narrowly_bind; [apply narrowly_same|]. intros s E. apply jump_length in E.
  apply narrowly_bind; [apply narrow_index; lia|]. intros [names s1] E1. apply read_index_weight in E1 as [_ E1].
  apply narrowly_bind; [apply narrow_index; lia|]. intros [d s2] E2. apply read_index_weight in E2 as [_ E2].
  apply narrowly_bind; [apply narrowly_same|]. intros opss E3. apply tables_iff in E3.
  apply narrowly_bind; [apply narrow_index; lia|]. intros [ss s3] E4. apply read_index_weight in E4 as [_ E4].
  apply narrowly_bind; [apply narrow_index; lia|]. intros [sr s4] _.
  apply narrowly_bind; [apply narrow_fonts; [lia|eapply dictionaries_bounded; eauto|constructor]|]. intros g _. apply narrowly_same.
Qed.

Lemma narrow_read cfg tape position f : Z.of_nat (length tape) < 2 ^ 31 ->
  word_font_set 32 cfg tape position = Ok f <-> read_font_set cfg tape position = Ok f.
Proof.
  intros L. destruct (narrow_font_set cfg tape position L) as [->|(-> & -> & _)]; [reflexivity|]. split; discriminate.
Qed.

Lemma narrow_errors cfg tape position : Z.of_nat (length tape) < 2 ^ 31 -> preallocates cfg = false ->
  word_font_set 32 cfg tape position = read_font_set cfg tape position.
Proof. intros L P. destruct (narrow_font_set cfg tape position L) as [->|(_ & _ & Q)]; [reflexivity|congruence]. Qed.

Lemma narrow_fails cfg tape position : Z.of_nat (length tape) < 2 ^ 31 ->
  word_font_set 32 cfg tape position = word_font_set 64 cfg tape position \/
  (preallocates cfg = true /\ word_font_set 32 cfg tape position = Panic CapacityOverflow /\
   word_font_set 64 cfg tape position = Err UnexpectedEof).
Proof. intros L. rewrite wide_font_set. destruct (narrow_font_set cfg tape position L) as [E|(? & ? & ?)]; auto. Qed.

Lemma narrow_read_wide cfg tape position f : Z.of_nat (length tape) < 2 ^ 31 ->
  word_font_set 32 cfg tape position = Ok f <-> word_font_set 64 cfg tape position = Ok f.
Proof. rewrite wide_font_set. apply narrow_read. Qed.

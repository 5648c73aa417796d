(** ContentsFacts: what font sets hold, and that all of it can be written. *)
From Coq Require Import Reals.
From Verif Require Import Base Float C1Number C1Operation C1Index C1Glyphs C1FontSet BaseFacts
  SpecNumber NumberFacts SpecOperation OperationFacts SpecIndex IndexFacts SpecGlyphs GlyphFacts
  SpecFontSet FontSetFacts LayoutFacts SpecFile FileFacts LiteralFacts SpecSize SizeFacts SpecRepack SpecContents RepackFacts.
Local Open Scope list_scope.
Local Open Scope Z_scope.

Lemma paired_length {A B} (R : A -> B -> Prop) l l' : Forall2 R l l' -> length l = length l'.
Proof. induction 1; cbn; congruence. Qed.

Lemma select_length glyphs e x : select_encoding glyphs e x -> (length e <= 5 + 3 * selector_weight x)%nat.
Proof.
  intros [ids L|e0 ranges sentinel L E S]; cbn [selector_weight].
  - cbn [length]. rewrite map_length. lia.
  - assert (Q : length e0 = (3 * length ranges)%nat).
    { clear - E. induction E as [|e x es xs (b1 & b2 & b3 & -> & _) _ IH]; [reflexivity|]. cbn [length app]. lia. }
    cbn [length]. rewrite !app_length, !be_bytes_length. lia.
Qed.

Lemma four_byte_bound l : (length (four_byte_index l) <= 7 + 4 * length l + length (concat l))%nat.
Proof. pose proof (four_byte_length l) as L. destruct l; lia. Qed.

Lemma font_dictionaries_length fs start : length (font_dictionaries fs start) = length fs.
Proof. unfold font_dictionaries. rewrite map_length, combine_length, starts_length. unfold private_blocks. rewrite map_length. lia. Qed.


Definition font_weight (x : font) : nat :=
  count_operations (font_operations x) + encoding_weight (font_encoding x) + index_weight (font_character_strings x) +
  character_set_weight (font_character_set x) + record_weight (font_record x).

Definition font_repacked (x y : font) : Prop :=
  same_but references (font_operations x) (font_operations y) /\ font_encoding x = font_encoding y /\
  font_character_set x = font_character_set y /\ same_elements (font_character_strings x) (font_character_strings y) /\
  record_repacked (font_record x) (font_record y).

Lemma each_length {A} (enc : list byte -> A -> Prop) (n : nat) e xs : (forall e x, enc e x -> length e = n) ->
  each enc e xs -> length e = (n * length xs)%nat.
Proof. intros H. induction 1 as [|e x es xs E _ IH]; [cbn; lia|]. rewrite app_length, (H _ _ E), IH. cbn. lia. Qed.

Lemma range_length n e x : range_encoding n e x -> length e = (2 + n)%nat.
Proof. intros (_ & _ & ->). rewrite app_length, !be_bytes_length. reflexivity. Qed.

Lemma set_length glyphs e c : character_set_encoding glyphs e c -> (length e <= 1 + 4 * character_set_weight c)%nat.
Proof.
  intros [ids L F|e0 ranges E _|e0 ranges E _]; cbn [character_set_weight length].
  - rewrite flat_length. lia.
  - rewrite (each_length _ _ _ _ (range_length 1) E). lia.
  - rewrite (each_length _ _ _ _ (range_length 2) E). lia.
Qed.

Lemma any_length e x : any_encoding e x -> (length e <= 2 + 3 * encoding_weight x)%nat.
Proof.
  intros [e0 x0 [n codes L|n e1 ranges L E]|f n e0 supplements F L E]; cbn [encoding_weight]; rewrite app_length; cbn [length].
  - rewrite map_length. lia.
  - rewrite (each_length code_range_encoding 2 e1 ranges); [|intros ? ? (? & ? & -> & _); reflexivity|exact E]. lia.
  - rewrite (each_length supplement_encoding 3 e0 supplements); [|intros ? ? (? & ? & ? & -> & _); reflexivity|exact E]. lia.
Qed.

(** ** Tables *)

Lemma each_of {A} (enc : list byte -> A -> Prop) (P : A -> Prop) xs :
  Forall P xs -> (forall x, P x -> exists e, enc e x) -> exists e, each enc e xs.
Proof.
  intros F H. induction F as [|x xs Px _ (es & IH)]; [exists []; constructor|].
  destruct (H x Px) as (e & E). exists (e ++ es). constructor; auto.
Qed.

Lemma byte_of v : one_byte_value v -> exists b, v = bz b.
Proof. intros V. exists (zb v). rewrite bz_zb by exact V. reflexivity. Qed.

Lemma bytes_of ids : Forall one_byte_value ids -> exists es, ids = map bz es.
Proof.
  induction 1 as [|v ids V _ (es & ->)]; [exists []; reflexivity|]. exists (zb v :: es). cbn. rewrite bz_zb by exact V. reflexivity.
Qed.

Lemma bytes_values es : Forall one_byte_value (map bz es).
Proof. apply Forall_forall. intros v I. apply in_map_iff in I as (b & <- & _). exact (bz_range b). Qed.

Lemma pair_value b1 b2 : two_byte_value (big_endian [b1; b2]).
Proof. unfold two_byte_value, big_endian. cbn [fold_left]. pose proof (bz_range b1). pose proof (bz_range b2). lia. Qed.

Lemma pair_of v : two_byte_value v -> exists b1 b2, v = big_endian [b1; b2].
Proof.
  intros H. destruct (be_bytes 2 v) as [|b1 [|b2 [|b l]]] eqn:E; try discriminate. exists b1, b2. rewrite <- E.
  rewrite big_endian_be_bytes, Z.mod_small; [reflexivity|exact H].
Qed.

Lemma set_held glyphs e c : character_set_encoding glyphs e c -> set_contents glyphs c.
Proof.
  assert (R : forall n e ranges, each (range_encoding n) e ranges ->
    Forall (fun r => two_byte_value (first_string_id r) /\ 0 <= left_count r < 256 ^ Z.of_nat n) ranges).
  { intros n e0 ranges E. refine (each_all (range_encoding n) _ _ _ _ E). intros e' x (H & K & _). split; assumption. }
  intros [ids L F|e0 ranges E C|e0 ranges E C]; cbn [set_contents].
  - auto.
  - split; [reflexivity|]. split; [exact (R _ _ _ E)|exact C].
  - split; [reflexivity|]. split; [exact (R _ _ _ E)|exact C].
Qed.

Lemma set_written glyphs c : set_contents glyphs c -> exists t, names_valid glyphs t /\ table_value t = c /\
  (length (table_block t) <= 1 + 4 * character_set_weight c)%nat.
Proof.
  assert (X : forall e, character_set_encoding glyphs e c -> exists t, names_valid glyphs t /\ table_value t = c /\
    (length (table_block t) <= 1 + 4 * character_set_weight c)%nat).
  { intros e E. exists (custom e c). split; [exact E|]. split; [reflexivity|]. exact (set_length _ _ _ E). }
  assert (R : forall n ranges, Forall (fun r => two_byte_value (first_string_id r) /\ 0 <= left_count r < 256 ^ Z.of_nat n) ranges ->
    exists e, each (range_encoding n) e ranges).
  { intros n ranges F. refine (each_of _ _ _ F _). intros x (H & K). eexists. split; [exact H|]. split; [exact K|reflexivity]. }
  destruct c as [| | |format ids|format ranges|format ranges]; cbn [set_contents].
  - intros _. exists (predefined 0 ISOAdobe). cbn. auto 10.
  - intros _. exists (predefined 1 ExpertSet). cbn. auto 10.
  - intros _. exists (predefined 2 ExpertSubset). cbn. auto 10.
  - intros (-> & F & L). eapply X. constructor; [exact L|exact F].
  - intros (-> & F & C). destruct (R 1%nat ranges F) as (e & E). eapply X. constructor; [exact E|exact C].
  - intros (-> & F & C). destruct (R 2%nat ranges F) as (e & E). eapply X. constructor; [exact E|exact C].
Qed.

Lemma codes_held e x : any_encoding e x -> encoding_contents x.
Proof.
  intros [e0 x0 [n codes L|n e1 ranges L E]|f n e0 supplements F L E]; cbn [encoding_contents].
  - rewrite map_length. split; [reflexivity|]. split; [exact L|]. split; [exact (bz_range n)|apply bytes_values].
  - split; [reflexivity|]. split; [exact L|]. split; [exact (bz_range n)|].
    refine (each_all code_range_encoding _ _ _ _ E). intros e' y (b1 & b2 & _ & ->). split; apply bz_range.
  - split; [pose proof (bz_range f); lia|]. split; [exact L|]. split; [exact (bz_range n)|].
    refine (each_all supplement_encoding _ _ _ _ E). intros e' y (b1 & b2 & b3 & _ & ->). split; [apply bz_range|apply pair_value].
Qed.

Lemma codes_written x : encoding_contents x -> exists t, codes_valid t /\ table_value t = x /\
  (length (table_block t) <= 2 + 3 * encoding_weight x)%nat.
Proof.
  assert (X : forall e, any_encoding e x -> exists t, codes_valid t /\ table_value t = x /\
    (length (table_block t) <= 2 + 3 * encoding_weight x)%nat).
  { intros e E. exists (custom e x). split; [exact E|]. split; [reflexivity|]. exact (any_length _ _ E). }
  destruct x as [| |format n codes|format n ranges|format n supplements]; cbn [encoding_contents].
  - intros _. exists (predefined 0 Standard). cbn. auto 10.
  - intros _. exists (predefined 1 ExpertEncoding). cbn. auto 10.
  - intros (-> & L & V & F). destruct (bytes_of _ F) as (es & ->). rewrite map_length in L.
    destruct (byte_of n V) as (b & ->). eapply X, any_plain, encoding_format0. exact L.
  - intros (-> & L & V & F). destruct (each_of code_range_encoding _ ranges F) as (e & E).
    { intros (a & b) (A & B). cbn in A, B. exists [zb a; zb b], (zb a), (zb b). rewrite !bz_zb by assumption. split; reflexivity. }
    destruct (byte_of n V) as (b & ->). eapply X, any_plain, encoding_format1; [exact L|exact E].
  - intros (Q & L & V & F). destruct (each_of supplement_encoding _ supplements F) as (e & E).
    { intros (a & b) (A & B). cbn in A, B. destruct (pair_of b B) as (b1 & b2 & ->). exists [zb a; b1; b2], (zb a), b1, b2.
      rewrite bz_zb by exact A. split; reflexivity. }
    destruct (byte_of n V) as (b & ->). destruct (byte_of format) as (d & ->); [unfold one_byte_value; lia|].
    eapply X, any_supplements; [lia|exact L|exact E].
Qed.

Lemma select_held glyphs e x : select_encoding glyphs e x -> select_contents glyphs x.
Proof.
  intros [ids L|e0 ranges sentinel L E S]; cbn [select_contents].
  - rewrite map_length. split; [reflexivity|]. split; [apply bytes_values|exact L].
  - split; [reflexivity|]. split; [reflexivity|]. split; [unfold two_byte_value; lia|]. split; [|exact S].
    refine (each_all dictionary_range_encoding _ _ _ _ E). intros e' y (b1 & b2 & b3 & _ & ->). split; [apply pair_value|apply bz_range].
Qed.

Lemma select_written glyphs x : select_contents glyphs x -> exists e, select_encoding glyphs e x.
Proof.
  destruct x as [format ids|format n ranges sentinel]; cbn [select_contents].
  - intros (-> & F & L). destruct (bytes_of _ F) as (es & ->). rewrite map_length in L. eexists. constructor. exact L.
  - intros (-> & -> & V & F & S). destruct (each_of dictionary_range_encoding _ ranges F) as (e & E).
    { intros (a & b) (A & B). cbn in A, B. destruct (pair_of a A) as (b1 & b2 & ->). exists [b1; b2; zb b], b1, b2, (zb b).
      rewrite bz_zb by exact B. split; reflexivity. }
    eexists. apply select_format3; [apply V|exact E|exact S].
Qed.

(** ** What has been read *)

Lemma private_held checks tape p top r : private_layout checks tape p top r -> private_contents r.
Proof.
  intros (size & offset & chunk & _ & _ & _ & D & B). split; [exact (data_storable _ _ D)|].
  destruct B as [(_ & ->)|(another & sum & e & _ & _ & _ & E)]; [reflexivity|exact (index_short _ _ E)].
Qed.

Lemma record_held checks tape p top glyphs r : record_layout checks tape p top glyphs r -> storables top ->
  record_contents glyphs r.
Proof.
  intros H S. destruct r as [r|r]; cbn [record_layout] in H.
  - destruct H as [_ (a & b & select & array & e & dictionaries & ea & O & A & Ra & B & Rb & _ & _ & E & _ & _ & Ea & D & P)].
    cbn [record_contents]. rewrite Ra, Rb. split; [apply Z.mod_pos_bound; lia|]. split; [apply Z.mod_pos_bound; lia|]. split.
    { destruct O as [(before & after & -> & _)|(_ & l & L & _)]; [|discriminate].
      apply Forall_app in S as [_ S]. inversion S as [|? ? S1 _]; subst. cbn in S1.
      inversion S1 as [|? ? _ S2]; subst. inversion S2 as [|? ? _ S3]; subst. inversion S3; auto. }
    split; [exact (select_held _ _ _ E)|]. split.
    { apply index_short in Ea. apply paired_length in D. unfold few, short in *. unfold operations in *. rewrite <- D. exact Ea. }
    split. { clear - D. induction D; constructor; auto. eapply data_storable; eauto. }
    split; [symmetry; exact (paired_length _ _ _ P)|]. clear - P. induction P; constructor; auto. eapply private_held; eauto.
  - destruct H as [_ H]. exact (private_held _ _ _ _ _ H).
Qed.

Lemma font_held checks tape p x : font_layout checks tape p x -> storables (font_operations x) -> font_contents x.
Proof.
  intros (strings & set & code & e & _ & T & _ & E & _ & Ls & _ & Lc & R) D.
  assert (C : count (font_character_strings x) = Z.of_nat (length (data (font_character_strings x)))) by (apply index_count in E; tauto).
  rewrite C in Ls, R. split; [exact D|]. split; [exact T|]. split; [exact (index_short _ _ E)|]. split; [|split].
  - destruct Ls as [(_ & ->)|[(_ & ->)|[(_ & ->)|(_ & e' & _ & Ls)]]]; try exact I. exact (set_held _ _ _ Ls).
  - destruct Lc as [(_ & ->)|[(_ & ->)|(_ & e' & _ & Lc)]]; try exact I. exact (codes_held _ _ Lc).
  - exact (record_held _ _ _ _ _ _ R D).
Qed.

Lemma operands_weight top o a b : specified_default o = None -> operands top o a b -> (3 <= count_operations top)%nat.
Proof.
  intros D (more & [(before & after & -> & _)|(_ & l & E & _)]); [|congruence].
  unfold count_operations. rewrite map_app, list_sum_app. cbn [map snd length].
  change (list_sum (?x :: ?l)) with (x + list_sum l)%nat. 
  lia.
Qed.

Lemma operand_weight top o a : specified_default o = None -> operand top o a -> (2 <= count_operations top)%nat.
Proof.
  intros D (more & [(before & after & -> & _)|(_ & l & E & _)]); [|congruence].
  unfold count_operations. rewrite map_app, list_sum_app. cbn [map snd length].
  change (list_sum (?x :: ?l)) with (x + list_sum l)%nat. lia.
Qed.


(** How much of a font set dictionaries take. *)
Lemma record_entries checks tape p top glyphs r : record_layout checks tape p top glyphs r ->
  (3 * font_dictionary_count r <= record_weight r)%nat.
Proof.
  intros H. destruct r as [r|r]; cbn [record_layout font_dictionary_count record_weight] in *; [|lia].
  destruct H as [_ (a & b & select & array & e & dictionaries & ea & _ & _ & _ & _ & _ & _ & _ & _ & _ & _ & _ & _ & P)].
  enough (3 * length (cid_records r) <= list_sum (map count_operations (cid_operations r)))%nat by lia. clear - P.
  induction P as [|t r0 ts rs (size & offset & _ & H & _) _ IH]; [cbn; lia|]. cbn [length map].
  change (list_sum (?x :: ?l)) with (x + list_sum l)%nat. pose proof (operands_weight _ Op_Private _ _ eq_refl H). lia.
Qed.


(** ** What can be written *)

Lemma private_written r : private_contents r -> exists s,
  private_valid s /\ private_repacked r (private_value s) /\
  (length (private_block s) <= 13 + 60 * private_weight r)%nat.
Proof.
  intros (D & SH). destruct (source_without Op_Subrs (private_operations r) D) as (d & V & M & L).
  exists {| private_dictionary := d; local_subroutines := data (private_subroutines r) |}. split; [|split].
  - split; [exact V|]. split; [|exact SH]. cbn [private_dictionary]. rewrite M. intros v I. apply in_rev in I.
    exact (absent_kept _ _ v I).
  - split.
    + cbn [private_operations private_value private_dictionary]. rewrite M.
      eapply same_but_trans; [apply same_kept|]. apply same_tail. intros o w I. apply in_integers in I as (u & I).
      unfold private_entries in I. cbn in I. destruct (data (private_subroutines r)); [destruct I|].
      destruct I as [I|[]]. injection I as <- _. left. reflexivity.
    + unfold same_elements. cbn. rewrite data_value. reflexivity.
  - unfold private_block, private_bytes, private_entries. cbn [private_dictionary local_subroutines].
    rewrite !app_length. pose proof (four_byte_weight (private_subroutines r)) as W. unfold private_weight.
    destruct (data (private_subroutines r)) as [|c l].
    + change (length (written_operations [])) with O. change (length (@nil byte)) with O. lia.
    + change (length (written_operations [(Op_Subrs, [Z.of_nat (length (written d)) + 6])])) with 6%nat. lia.
Qed.

(** Font dictionaries and their private dictionaries. *)
Lemma subfonts_written ops rs : length rs = length ops -> Forall dictionary_contents ops -> Forall private_contents rs -> exists fs,
  length fs = length ops /\ Forall (fun f => dictionary_valid (fst f) /\ private_valid (snd f)) fs /\
  (forall start, Forall2 (same_but [Op_Private]) ops (font_dictionary_values fs start)) /\
  Forall2 private_repacked rs (map (fun f => private_value (snd f)) fs) /\
  forall start, (4 * length fs + length (concat (font_dictionaries fs start)) + length (concat (private_blocks fs)) <=
    28 * length rs + 60 * (list_sum (map count_operations ops) + list_sum (map private_weight rs)))%nat.
Proof.
  revert rs. induction ops as [|top ops IH]; intros [|r rs] L S P; try discriminate.
  - exists []. split; [reflexivity|]. split; [constructor|]. split; [constructor|]. split; [constructor|]. intros start. cbn. lia.
  - inversion S as [|? ? S1 S2]; subst. inversion P as [|? ? P1 P2]; subst.
    destruct (IH rs) as (fs & Lf & V & A & B & C); auto.
    destruct (source_same top S1) as (d & Vd & M & Ld). destruct (private_written r P1) as (s & Vs & R & Ls).
    exists ((d, s) :: fs). split; [cbn; congruence|]. split; [constructor; auto|].
    split; [|split; [constructor; auto|]].
    + intros start. constructor.
      * cbn [fst snd]. rewrite M. eapply same_but_trans; [apply same_again|]. apply same_tail.
        intros o w [I|[]]. injection I as <- _. left. reflexivity.
      * apply A.
    + intros start. specialize (C (start + Z.of_nat (length (private_block s)))).
      unfold font_dictionaries, private_blocks in *. cbn [map starts combine concat fst snd]. rewrite !app_length.
      change (length (written_operations (private_reference s start))) with 11%nat. cbn [length map].
      repeat match goal with |- context[list_sum (?x :: ?l)] => change (list_sum (x :: l)) with (x + list_sum l)%nat end. lia.
Qed.

Lemma record_written glyphs r : record_contents glyphs r -> exists k,
  keyed_valid glyphs k /\ (forall start, record_repacked r (keyed_value k start)) /\
  forall start, (length (written (keyed_head k)) + length (written_operations (keyed_tail k start)) + length (keyed_block k start) <=
    98 + 28 * font_dictionary_count r + 60 * record_weight r)%nat.
Proof.
  intros H. destruct r as [r|r]; cbn [record_contents] in H.
  - destruct H as (A & B & T & E & N & F & Q & P). destruct (select_written _ _ E) as (e & Ee).
    destruct (storable_short _ T) as (es & Es & Ls).
    destruct (subfonts_written _ _ Q F P) as (fs & L & V & X & Y & Z).
    exists (keyed_by_id (registry r) (ordering r) {| written_operand := es; meant_operand := cid_supplement r |} e (cid_encoding r) fs).
    split; [|split].
    + cbn [keyed_valid written_operand meant_operand].
      split; [exact A|]. split; [exact B|]. split; [exact Es|]. split; [exact Ee|].
      split; [|exact V]. unfold short, few in *. rewrite L. exact N.
    + intros start. cbn. auto 10.
    + intros start. cbn [keyed_head keyed_tail keyed_block written written_operand record_weight font_dictionary_count].
      set (at' := start + Z.of_nat (length e) + array_length fs). specialize (Z at').
      rewrite !app_length. pose proof (four_byte_bound (font_dictionaries fs at')) as U. rewrite font_dictionaries_length in U.
      apply select_length in Ee.
      change (length (written_operations _)) with 14%nat. change (length (five_byte_integer _)) with 5%nat.
      change (length (operator_bytes Op_ROS)) with 2%nat. lia.
  - destruct (private_written r H) as (s & V & R & L). exists (keyed_by_name s).
    split; [exact V|]. split; [intros start; exact R|]. intros start.
    cbn [keyed_head keyed_tail keyed_block written record_weight]. change (length (@nil byte)) with O.
    change (length (written_operations _)) with 11%nat. lia.
Qed.

Lemma font_written x : font_contents x -> exists y,
  font_valid y /\ (forall start, font_repacked x (font_value y start)) /\
  (length (top_bytes y 0) + length (font_block y 0) + 4 <= 130 + 28 * font_dictionary_count (font_record x) + 60 * font_weight x)%nat.
Proof.
  intros (D & T & Nf & Cs & Ce & Cr).
  destruct (source_without Op_ROS _ D) as (d & V & M & L).
  destruct (set_written _ _ Cs) as (tn & Vn & En & Bn). destruct (codes_written _ Ce) as (tc & Vc & Ec & Bc).
  destruct (record_written _ _ Cr) as (k & Vk & Rk & Bk).
  exists {| top_dictionary_source := d; glyph_programs := data (font_character_strings x);
    glyph_names := tn; glyph_codes := tc; keyed := k |}.
  split; [|split].
  - unfold font_valid. cbn [glyph_programs top_dictionary_source glyph_names glyph_codes keyed].
    split; [exact Nf|]. split; [exact V|]. rewrite M. split.
    { intros v I. apply in_rev in I. exact (absent_kept _ _ v I). }
    split; [|auto]. destruct T as (more & T). exists more. apply operands_kept; [discriminate|exact T].
  - intros start. unfold font_repacked.
    cbn [font_operations font_encoding font_character_set font_character_strings font_record font_value
      glyph_programs top_dictionary_source glyph_names glyph_codes keyed].
    rewrite En, Ec, M. split; [|split; [reflexivity|split; [reflexivity|split; [|apply Rk]]]].
    + intros o N v. rewrite inner_entry.
      * symmetry. apply table_kept. intros ->. apply N. left. reflexivity.
      * intros w I. apply N. destruct k; [destruct I|]. destruct I as [I|[]]. injection I as <- _. left. reflexivity.
      * intros w I. apply N. apply in_integers in I as (u & I). unfold font_tail in I. cbn [keyed] in I.
        apply in_app_or in I as [I|I].
        -- cbn in I. unfold references. cbn. intuition congruence.
        -- unfold references. destruct k; cbn in I; cbn; intuition congruence.
    + unfold same_elements. rewrite data_value. reflexivity.
  - unfold top_bytes, font_block, font_tail. cbn [top_dictionary_source glyph_programs glyph_names glyph_codes keyed].
    rewrite !app_length. unfold written_operations at 1. rewrite flat_map_app. fold (written_operations (keyed_tail k
      (keyed_start {| top_dictionary_source := d; glyph_programs := data (font_character_strings x);
    glyph_names := tn; glyph_codes := tc; keyed := k |} 0))).
    rewrite app_length. match goal with |- context[keyed_tail k ?s] => specialize (Bk s) end.
    match goal with |- context[length (flat_map ?f ?l)] => change (length (flat_map f l)) with 18%nat end.
    pose proof (four_byte_weight (font_character_strings x)). unfold font_weight. lia.
Qed.

Lemma fonts_written xs : Forall font_contents xs -> exists ys,
  Forall font_valid ys /\ length ys = length xs /\
  (forall starts, length starts = length ys ->
     Forall2 font_repacked xs (map (fun ys => font_value (fst ys) (snd ys)) (combine ys starts))) /\
  (list_sum (map (fun y => length (top_bytes y 0)) ys) + list_sum (map (fun y => length (font_block y 0)) ys) + 4 * length xs <=
   130 * length xs + 28 * list_sum (map (fun x => font_dictionary_count (font_record x)) xs) + 60 * list_sum (map font_weight xs))%nat.
Proof.
  induction xs as [|x xs IH]; intros F.
  - exists []. split; [constructor|]. split; [reflexivity|]. split; [intros; constructor|cbn; lia].
  - inversion F as [|? ? F1 F2]; subst.
    destruct IH as (ys & V & Ly & R & B); auto.
    destruct (font_written x F1) as (y & Vy & Ry & By).
    exists (y :: ys). split; [constructor; auto|]. split; [cbn; congruence|]. split.
    + intros [|s starts] Q; [discriminate|]. cbn. constructor; [apply Ry|]. apply R. cbn in Q. lia.
    + cbn [map length].
      repeat match goal with |- context[list_sum (?x :: ?l)] => change (list_sum (x :: l)) with (x + list_sum l)%nat end. lia.
Qed.

Lemma blocks_length (f : font_source -> Z -> list byte) ys : (forall y a b, length (f y a) = length (f y b)) ->
  forall ss, length ss = length ys ->
  length (concat (map (fun xs => f (fst xs) (snd xs)) (combine ys ss))) = list_sum (map (fun y => length (f y 0)) ys).
Proof.
  intros H. induction ys as [|y ys IH]; intros [|s ss] L; try discriminate; [reflexivity|].
  cbn [combine map concat fst snd]. rewrite app_length, IH, (H y s 0) by (cbn in L; lia). reflexivity.
Qed.

Lemma weights xs :
  (list_sum (map count_operations (map font_operations xs)) + list_sum (map encoding_weight (map font_encoding xs)) +
   list_sum (map index_weight (map font_character_strings xs)) +
   list_sum (map character_set_weight (map font_character_set xs)) + list_sum (map record_weight (map font_record xs)) =
   list_sum (map font_weight xs))%nat.
Proof.
  induction xs as [|x xs IH]; [reflexivity|]. cbn [map].
  repeat match goal with |- context[list_sum (?x :: ?l)] => change (list_sum (x :: l)) with (x + list_sum l)%nat end.
  unfold font_weight at 1. lia.
Qed.

Lemma related_map {A B} (R : A -> A -> Prop) (S : B -> B -> Prop) (f : A -> B) l l' :
  (forall x y, R x y -> S (f x) (f y)) -> Forall2 R l l' -> Forall2 S (map f l) (map f l').
Proof. intros H. induction 1; cbn; auto. Qed.

Lemma related_same {A B} (R : A -> A -> Prop) (f : A -> B) l l' :
  (forall x y, R x y -> f x = f y) -> Forall2 R l l' -> map f l = map f l'.
Proof. intros H. induction 1 as [|x y l l' Q _ IH]; cbn; [reflexivity|]. rewrite (H _ _ Q), IH. reflexivity. Qed.

Theorem contents_written f : font_set_contents f -> Z.of_nat (enough f) < 2 ^ 31 ->
  exists file g, (length file <= enough f)%nat /\ repacked f g /\
    forall cfg pre post, Z.of_nat (length (pre ++ file ++ post)) < 2 ^ 63 ->
      read_font_set cfg (pre ++ file ++ post) (Z.of_nat (length pre)) = Ok g.
Proof.
  intros (S1 & S3 & S4 & xs & S0 & F & Qo & Qe & Qc & Qs & Qr) W.
  destruct (fonts_written xs F) as (ys & V & Ly & R & B).
  set (g := {| font_names := data (fs_names f); fonts := ys; strings := data (fs_strings f); global_subroutines := data (fs_subroutines f) |}).
  exists (file_bytes g), (file_value g).
  specialize (R (font_starts ys (front_length g)) (eq_sym (font_starts_length ys _))).
  change (Forall2 font_repacked xs (file_fonts g)) in R.
  assert (L : (length (file_bytes g) <= enough f)%nat).
  { unfold file_bytes, front. rewrite !app_length. cbn [font_names fonts strings global_subroutines g].
    rewrite (blocks_length font_block ys font_block_length) by (symmetry; apply font_starts_length).
    pose proof (four_byte_bound (map (fun xs => top_bytes (fst xs) (snd xs)) (combine ys (font_starts ys (front_length g))))) as T.
    rewrite (blocks_length top_bytes ys top_bytes_length) in T by (symmetry; apply font_starts_length).
    rewrite map_length, combine_length, <- font_starts_length, Nat.min_id in T.
    pose proof (four_byte_weight (fs_names f)). pose proof (four_byte_weight (fs_strings f)).
    pose proof (four_byte_weight (fs_subroutines f)). change (length file_header) with 4%nat.
    unfold enough, font_set_weight. rewrite Qo, Qe, Qc, Qs, Qr. pose proof (weights xs) as Wx.
    rewrite (map_map font_record font_dictionary_count), map_length. fold g. lia. }
  split; [exact L|]. split.
  - unfold repacked, same_elements.
    cbn [file_value fs_names fs_strings fs_subroutines fs_operations fs_encodings fs_character_sets fs_character_strings fs_records].
    rewrite !data_value, Qo, Qe, Qc, Qs, Qr. cbn [g font_names fonts strings global_subroutines].
    split; [reflexivity|]. split; [reflexivity|]. split; [reflexivity|].
    split; [refine (related_map _ _ _ _ _ _ R); intros ? ? (? & _); auto|].
    split; [refine (related_same _ _ _ _ _ R); intros ? ? (? & ? & _); auto|].
    split; [refine (related_same _ _ _ _ _ R); intros ? ? (? & ? & ? & _); auto|].
    split; [refine (related_map _ _ _ _ _ _ R); intros ? ? (? & ? & ? & ? & _); auto|].
    refine (related_map _ _ _ _ _ _ R). intros ? ? (? & ? & ? & ? & ?). auto.
  - intros cfg pre post H. apply file_read; auto. unfold file_valid, short. cbn [font_names fonts strings global_subroutines g].
    split; [exact S1|]. split; [unfold few in S0; rewrite Ly; exact S0|]. split; [exact S3|]. split; [exact S4|]. split; [exact V|].
    fold g. lia.
Qed.


(** ** Font sets that have been read *)

Lemma layout_held checks tape p f : font_set_layout checks tape p f -> exists xs,
  Forall (fun x => font_contents x /\ (130 + 28 * font_dictionary_count (font_record x) <= 68 * font_weight x)%nat) xs /\
  few xs /\ few (data (fs_names f)) /\ few (data (fs_strings f)) /\ few (data (fs_subroutines f)) /\
  fs_operations f = map font_operations xs /\ fs_encodings f = map font_encoding xs /\
  fs_character_sets f = map font_character_set xs /\ fs_character_strings f = map font_character_strings xs /\
  fs_records f = map font_record xs.
Proof.
  intros (eh & e1 & e2 & e3 & e4 & ds & xs & _ & _ & _ & E1 & E2 & E3 & E4 & D & Qo & Qe & Qc & Qs & Qr & F).
  rewrite Qo in D. exists xs. split.
  { clear - D F. revert D. generalize (data ds). induction F as [|x xs F _ IH]; intros l D; [constructor|].
    cbn [map] in D. inversion D as [|c ? cs ? D1 D2]; subst. constructor; [|eapply IH; eauto].
    split; [exact (font_held _ _ _ _ F (data_storable _ _ D1))|].
    destruct F as (strings & set & code & e & H & _ & _ & _ & _ & _ & _ & _ & R).
    pose proof (operand_weight _ Op_CharStrings _ eq_refl H). pose proof (record_entries _ _ _ _ _ _ R). unfold font_weight. lia. }
  split.
  { apply index_short in E2. apply paired_length in D. rewrite map_length in D. unfold few, short in *. rewrite <- D. exact E2. }
  split; [exact (index_short _ _ E1)|]. split; [exact (index_short _ _ E3)|]. split; [exact (index_short _ _ E4)|]. auto 10.
Qed.

Theorem contents_held cfg tape p f : 0 <= p -> Z.of_nat (length tape) < 2 ^ 63 -> read_font_set cfg tape p = Ok f ->
  font_set_contents f /\ (enough f <= 128 * S (font_set_weight f))%nat.
Proof.
  intros Hp Ht R. apply font_set_iff_closed in R; auto.
  destruct (layout_held _ _ _ _ R) as (xs & F & S0 & S1 & S3 & S4 & Qo & Qe & Qc & Qs & Qr). split.
  - split; [exact S1|]. split; [exact S3|]. split; [exact S4|]. exists xs. split; [exact S0|].
    split; [eapply Forall_impl; [|exact F]; cbn; tauto|]. auto 10.
  - unfold enough. enough (130 * length (fs_operations f) + 28 * list_sum (map font_dictionary_count (fs_records f)) <=
      68 * font_set_weight f)%nat by lia.
    rewrite Qo, Qr, map_length, map_map. unfold font_set_weight. rewrite Qo, Qe, Qc, Qs, Qr. pose proof (weights xs) as W.
    enough (130 * length xs + 28 * list_sum (map (fun x => font_dictionary_count (font_record x)) xs) <=
      68 * list_sum (map font_weight xs))%nat by lia.
    clear - F. induction F as [|x xs (_ & H) _ IH]; [cbn; lia|]. cbn [map length].
    repeat match goal with |- context[list_sum (?x :: ?l)] => change (list_sum (x :: l)) with (x + list_sum l)%nat end. lia.
Qed.

Theorem font_set_again cfg tape p f : 0 <= p -> Z.of_nat (length tape) < 2 ^ 63 -> read_font_set cfg tape p = Ok f ->
  Z.of_nat (128 * S (font_set_weight f)) < 2 ^ 31 ->
  exists file g, (length file <= 128 * S (font_set_weight f))%nat /\ repacked f g /\
    forall cfg' pre post, Z.of_nat (length (pre ++ file ++ post)) < 2 ^ 63 ->
      read_font_set cfg' (pre ++ file ++ post) (Z.of_nat (length pre)) = Ok g.
Proof.
  intros Hp Ht R W. destruct (contents_held _ _ _ _ Hp Ht R) as (C & B).
  destruct (contents_written f C) as (file & g & L & Q & H); [lia|]. exists file, g. split; [lia|]. auto.
Qed.

(** ** Some of the fonts *)

Lemma pick_map {A B} (f : A -> B) is xs : pick is (map f xs) = map f (pick is xs).
Proof.
  induction is as [|i is IH]; [reflexivity|]. cbn [pick flat_map] in *. rewrite map_app. f_equal; [|exact IH].
  rewrite nth_error_map. destruct (nth_error xs i); reflexivity.
Qed.

Lemma pick_short {A} is (xs : list A) : (length (pick is xs) <= length is)%nat.
Proof.
  induction is as [|i is IH]; [cbn; lia|]. cbn [pick flat_map length] in *. rewrite app_length.
  destruct (nth_error xs i); cbn [length]; unfold pick in IH; lia.
Qed.

Lemma pick_all {A} (P : A -> Prop) is xs : Forall P xs -> Forall P (pick is xs).
Proof.
  intros H. induction is as [|i is IH]; [constructor|]. cbn [pick flat_map]. apply Forall_app. split; [|exact IH].
  destruct (nth_error xs i) eqn:E; [|constructor]. constructor; [|constructor].
  exact (proj1 (Forall_forall _ _) H _ (nth_error_In _ _ E)).
Qed.

Theorem selection_again cfg tape p f is : 0 <= p -> Z.of_nat (length tape) < 2 ^ 63 -> read_font_set cfg tape p = Ok f ->
  Z.of_nat (length is) < 2 ^ 16 -> Z.of_nat (128 * S (font_set_weight (selection is f))) < 2 ^ 31 ->
  exists file g, (length file <= 128 * S (font_set_weight (selection is f)))%nat /\ repacked (selection is f) g /\
    forall cfg' pre post, Z.of_nat (length (pre ++ file ++ post)) < 2 ^ 63 ->
      read_font_set cfg' (pre ++ file ++ post) (Z.of_nat (length pre)) = Ok g.
Proof.
  intros Hp Ht R Li W. apply font_set_iff_closed in R; auto.
  destruct (layout_held _ _ _ _ R) as (xs & F & S0 & S1 & S3 & S4 & Qo & Qe & Qc & Qs & Qr).
  apply (pick_all _ is) in F. set (ys := pick is xs) in *.
  assert (C : font_set_contents (selection is f)).
  { unfold font_set_contents.
    cbn [selection fs_names fs_strings fs_subroutines fs_operations fs_encodings fs_character_sets fs_character_strings fs_records].
    rewrite data_value. split; [unfold few; pose proof (pick_short is (data (fs_names f))); lia|]. split; [exact S3|]. split; [exact S4|].
    exists ys. split; [unfold few, ys; pose proof (pick_short is xs); lia|]. split; [eapply Forall_impl; [|exact F]; cbn; tauto|].
    rewrite Qo, Qe, Qc, Qs, Qr, !pick_map. auto 10. }
  assert (B : (enough (selection is f) <= 128 * S (font_set_weight (selection is f)))%nat).
  { unfold enough, font_set_weight.
    cbn [selection fs_names fs_strings fs_subroutines fs_operations fs_encodings fs_character_sets fs_character_strings fs_records].
    rewrite Qo, Qe, Qc, Qs, Qr, !pick_map. fold ys. rewrite (map_map font_record font_dictionary_count), map_length. pose proof (weights ys).
    enough (130 * length ys + 28 * list_sum (map (fun x => font_dictionary_count (font_record x)) ys) <=
      68 * list_sum (map font_weight ys))%nat by lia.
    clearbody ys. clear - F. induction F as [|x xs (_ & H) _ IH]; [cbn; lia|]. cbn [map length].
    repeat match goal with |- context[list_sum (?x :: ?l)] => change (list_sum (x :: l)) with (x + list_sum l)%nat end. lia. }
  destruct (contents_written _ C) as (file & g & L & Q & H); [lia|]. exists file, g. split; [lia|]. auto.
Qed.

(** Operands are the same, defaults included. *)
Lemma same_operands os t u o v : same_but os t u -> ~ In o os -> (operand_list t o v <-> operand_list u o v).
Proof.
  intros H N. assert (E : forall v, entry t o v <-> entry u o v) by (intros; apply H, N).
  assert (A : absent t o <-> absent u o).
  { rewrite <- !absent_iff. split; intros Q.
    - destruct (map_get u o) as [w|] eqn:G; auto. apply entry_iff, E, entry_iff in G. congruence.
    - destruct (map_get t o) as [w|] eqn:G; auto. apply entry_iff, E, entry_iff in G. congruence. }
  unfold operand_list. rewrite E, A. reflexivity.
Qed.

Lemma related_nth {A B} (R : A -> B -> Prop) l l' : Forall2 R l l' -> forall i x y,
  nth_error l i = Some x -> nth_error l' i = Some y -> R x y.
Proof.
  induction 1 as [|a b l l' H _ IH]; intros [|i] x y E E'; try discriminate; cbn in *; [congruence|]. eapply IH; eauto.
Qed.

Lemma repacked_operands f g i t u o v : repacked f g -> nth_error (fs_operations f) i = Some t ->
  nth_error (fs_operations g) i = Some u -> ~ In o references -> (operand_list t o v <-> operand_list u o v).
Proof.
  intros (_ & _ & _ & H & _) E E' N. eapply same_operands; [|exact N]. exact (related_nth _ _ _ H i t u E E').
Qed.

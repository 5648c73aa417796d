(** FileFacts: what is written from the parts of a font set is laid out as SpecFontSet says. *)
From Verif Require Import Base Float C1Number C1Operation C1Index C1Glyphs C1FontSet BaseFacts
  SpecNumber NumberFacts SpecOperation OperationFacts SpecIndex IndexFacts SpecGlyphs GlyphFacts
  SpecFontSet FontSetFacts LayoutFacts SpecFile.
Local Open Scope list_scope.
Local Open Scope Z_scope.

(** ** Dictionaries *)

Definition small (v : Z) : Prop := - 2 ^ 31 <= v < 2 ^ 31.

Lemma five_byte_encoding v : small v -> integer_encoding (five_byte_integer v) v.
Proof. intros H. rewrite <- (bytes32_value v H) at 2. apply five_bytes. Qed.

Lemma written_encoding ops : Forall (fun op => Forall small (snd op)) ops ->
  dictionary_encoding (written_operations ops) (integer_operations ops).
Proof.
  induction 1 as [|[o vs] ops H _ IH]; [constructor|]. cbn. constructor; auto.
  exists (flat_map five_byte_integer vs). cbn. split; auto. cbn in H.
  induction H as [|v vs H _ IHv]; [constructor|]. cbn [flat_map map]. constructor; auto.
  apply five_byte_encoding, H.
Qed.

Lemma dictionary_data_encoding e ops : dictionary_encoding e ops -> dictionary_data e (table ops).
Proof.
  intros H. exists e, ops, []. rewrite app_nil_r. repeat split; auto.
  exists [], [], []. repeat split; auto. constructor.
Qed.

Lemma tail_entry base before o vs after : (forall w, ~ In (o, w) after) ->
  entry (table (base ++ integer_operations (before ++ (o, vs) :: after))) o (map Integer vs).
Proof.
  intros N. apply table_entry. exists (base ++ integer_operations before), (integer_operations after).
  unfold integer_operations. rewrite map_app, <- app_assoc. split; auto.
  intros w I. apply in_map_iff in I as ((o' & w') & E & I). injection E as -> _. exact (N _ I).
Qed.

Lemma tail_operand base before o v vs after : (forall w, ~ In (o, w) after) ->
  operand (table (base ++ integer_operations (before ++ (o, v :: vs) :: after))) o v.
Proof. intros N. exists (map Integer vs). left. apply (tail_entry base before o (v :: vs) after N). Qed.

Lemma tail_operands base before o a b vs after : (forall w, ~ In (o, w) after) ->
  operands (table (base ++ integer_operations (before ++ (o, a :: b :: vs) :: after))) o a b.
Proof. intros N. exists (map Integer vs). left. apply (tail_entry base before o (a :: b :: vs) after N). Qed.

Lemma in_integers o v ops : In (o, v) (integer_operations ops) -> exists w, In (o, w) ops.
Proof. intros I. apply in_map_iff in I as ((o' & w) & E & I). injection E as -> _. eauto. Qed.

(** Other operators do not change the operands of an operator. *)
Lemma inner_entry before ops after o v : (forall w, ~ In (o, w) before) -> (forall w, ~ In (o, w) after) ->
  (entry (table (before ++ ops ++ after)) o v <-> entry (table ops) o v).
Proof.
  intros B A. rewrite !table_entry. split.
  - intros (l & r & E & N). assert (I : In (o, v) (l ++ (o, v) :: r)) by (apply in_or_app; right; left; reflexivity).
    rewrite <- E in I. apply in_app_or in I as [I|I]; [destruct (B _ I)|]. apply in_app_or in I as [I|I]; [|destruct (A _ I)].
    clear I. revert before B E. induction l as [|y l IH]; intros [|b before] B E.
    + cbn in E. destruct ops as [|op ops]; [destruct after as [|a after]; [discriminate|]|].
      * injection E as -> _. destruct (A v (or_introl eq_refl)).
      * injection E as -> E. exists [], ops. split; auto. intros w I. apply (N w). rewrite <- E. apply in_or_app. auto.
    + injection E as -> _. destruct (B v (or_introl eq_refl)).
    + cbn in E. clear IH B.
      revert l y E. induction ops as [|op ops IHo]; intros l y E.
      * exfalso. apply (A v). cbn in E. rewrite E. right. apply in_or_app. right. left. reflexivity.
      * injection E as -> E. destruct l as [|z l].
        -- cbn in E. destruct ops as [|op' ops]; [destruct after as [|a after]; [discriminate|]|].
           ++ injection E as -> _. destruct (A v (or_introl eq_refl)).
           ++ injection E as -> E. exists [y], ops. split; auto. intros w I. apply (N w). rewrite <- E. apply in_or_app. auto.
        -- destruct (IHo l z E) as (l' & r' & -> & N'). exists (y :: l'), r'. split; auto.
    + injection E as -> E. apply (IH before); auto. intros w I. apply (B w). right. exact I.
  - intros (l & r & -> & N). exists (before ++ l), (r ++ after). split; [rewrite <- !app_assoc; reflexivity|].
    intros w I. apply in_app_or in I as [I|I]; [exact (N _ I)|exact (A _ I)].
Qed.

Lemma inner_absent before ops after o : (forall w, ~ In (o, w) before) -> (forall w, ~ In (o, w) after) ->
  (absent (table (before ++ ops ++ after)) o <-> absent (table ops) o).
Proof.
  intros B A. rewrite !table_absent. split; intros H v I.
  - apply (H v). apply in_or_app. right. apply in_or_app. auto.
  - apply in_app_or in I as [I|I]; [exact (B _ I)|]. apply in_app_or in I as [I|I]; [exact (H _ I)|exact (A _ I)].
Qed.

Lemma inner_operands before ops after o v : (forall w, ~ In (o, w) before) -> (forall w, ~ In (o, w) after) ->
  operand_list (table ops) o v -> operand_list (table (before ++ ops ++ after)) o v.
Proof.
  intros B A [H|[H1 H2]]; [left; apply inner_entry; auto|right; split; auto; apply inner_absent; auto].
Qed.

(** ** Lengths *)

Definition shape (ops : list (operator * list Z)) := map (fun op => (fst op, length (snd op))) ops.

Lemma integers_length vs : length (flat_map five_byte_integer vs) = (5 * length vs)%nat.
Proof. induction vs; cbn [flat_map length]; auto. rewrite app_length, IHvs. cbn. lia. Qed.

Lemma written_cons o vs ops : written_operations ((o, vs) :: ops) =
  (flat_map five_byte_integer vs ++ operator_bytes o) ++ written_operations ops.
Proof. reflexivity. Qed.

Lemma written_length a b : shape a = shape b -> length (written_operations a) = length (written_operations b).
Proof.
  revert b. induction a as [|[o vs] a IH]; intros [|[o' ws] b] H; try discriminate; auto.
  cbn in H. injection H as -> E H.
  rewrite !written_cons, !app_length, !integers_length, E, (IH b H). reflexivity.
Qed.

Lemma index_length size a : Z.of_nat (length (offsets_of size a)) = 1 + Z.of_nat (length a).
Proof. revert size. induction a; intros; cbn [offsets_of length]; auto. rewrite Nat2Z.inj_succ, IHa. lia. Qed.

Lemma flat_length n (zs : list Z) : length (flat_map (be_bytes n) zs) = (n * length zs)%nat.
Proof. induction zs; cbn [flat_map length]; [lia|]. rewrite app_length, be_bytes_length, IHzs. lia. Qed.

Lemma four_byte_length a : Z.of_nat (length (four_byte_index a)) =
  match a with [] => 2 | _ => 7 + 4 * Z.of_nat (length a) + Z.of_nat (length (concat a)) end.
Proof.
  unfold four_byte_index, index_bytes. destruct a as [|c a]; auto. remember (c :: a) as l.
  rewrite !app_length, be_bytes_length, flat_length. change (Z.to_nat 4) with 4%nat. cbn [length].
  rewrite !Nat2Z.inj_add, Nat2Z.inj_mul, index_length. lia.
Qed.

Lemma concat_length (a b : list (list byte)) : map (@length byte) a = map (@length byte) b ->
  length (concat a) = length (concat b).
Proof.
  revert b. induction a as [|c a IH]; intros [|d b] H; try discriminate; auto.
  cbn in H. injection H as E H. cbn. rewrite !app_length, E, (IH b H). reflexivity.
Qed.

Lemma four_byte_same a b : map (@length byte) a = map (@length byte) b ->
  length (four_byte_index a) = length (four_byte_index b).
Proof.
  intros H. apply Nat2Z.inj. rewrite !four_byte_length, (concat_length a b H).
  apply (f_equal (@length nat)) in H. rewrite !map_length in H. rewrite H.
  destruct a, b; auto; discriminate.
Qed.

Lemma four_byte_encoding chunks : short chunks -> Z.of_nat (length (four_byte_index chunks)) < 2 ^ 31 ->
  index_encoding (four_byte_index chunks) (index_value 4 chunks).
Proof.
  intros S L. exists 4, chunks. split; [|split; auto]. split; auto.
  rewrite four_byte_length in L. destruct chunks; auto. right. split; lia.
Qed.

Lemma count_value size l : count (index_value size l) = Z.of_nat (length l).
Proof. destruct l; reflexivity. Qed.
Lemma data_value size l : data (index_value size l) = l.
Proof. destruct l; reflexivity. Qed.

(** ** Positions *)

Lemma starts_length from blocks : length (starts from blocks) = length blocks.
Proof. revert from. induction blocks; intros; cbn; auto. Qed.

Lemma starts_same from a b : map (@length byte) a = map (@length byte) b -> starts from a = starts from b.
Proof.
  revert from b. induction a as [|c a IH]; intros from [|d b] H; try discriminate; auto.
  cbn in H. injection H as E H. cbn. rewrite E, (IH _ b H). reflexivity.
Qed.

Lemma combine_left {A B} (l : list A) (l' : list B) : length l = length l' -> map fst (combine l l') = l.
Proof. revert l'. induction l; intros [|b l'] H; try discriminate; auto. cbn in *. rewrite IHl; auto. Qed.
Lemma combine_map {A B C} (g : A -> C) (l : list A) (l' : list B) : length l = length l' ->
  map (fun xs => g (fst xs)) (combine l l') = map g l.
Proof. intros H. rewrite <- (combine_left l l' H) at 2. rewrite map_map. reflexivity. Qed.

Lemma skipn_add {A} n m (l : list A) : skipn n (skipn m l) = skipn (n + m) l.
Proof.
  revert l. induction m as [|m IH]; intros l; [rewrite Nat.add_0_r; reflexivity|].
  rewrite Nat.add_succ_r. destruct l; cbn [skipn]; auto. apply skipn_nil.
Qed.

Section tape.
  Context (checks : bool) (tape : list byte) (p : Z) (Hp : 0 <= p < 2 ^ 63).

  Definition placed (offset : Z) (e : list byte) : Prop :=
    0 <= offset /\ offset + Z.of_nat (length e) < 2 ^ 31 /\
    exists rest, skipn (Z.to_nat (p + offset)) tape = e ++ rest.

  Lemma placed_found offset e : placed offset e -> found checks tape p offset e.
  Proof. intros (A & B & R). apply found_forward; auto. lia. Qed.

  Lemma placed_left offset e1 e2 : placed offset (e1 ++ e2) -> placed offset e1.
  Proof.
    intros (A & B & r & E). rewrite app_length in B. repeat split; auto; [lia|].
    exists (e2 ++ r). rewrite E, <- app_assoc. reflexivity.
  Qed.

  Lemma placed_right offset e1 e2 : placed offset (e1 ++ e2) -> placed (offset + Z.of_nat (length e1)) e2.
  Proof.
    intros (A & B & r & E). rewrite app_length in B. repeat split; auto; [lia|lia|].
    exists r. replace (Z.to_nat (p + (offset + Z.of_nat (length e1)))) with (length e1 + Z.to_nat (p + offset))%nat by lia.
    replace (skipn (length e1 + Z.to_nat (p + offset)) tape) with (skipn (length e1) (skipn (Z.to_nat (p + offset)) tape)).
    - rewrite E, <- app_assoc, skipn_app, skipn_all, Nat.sub_diag. reflexivity.
    - apply skipn_add.
  Qed.

  Lemma placed_concat from blocks : placed from (concat blocks) -> Forall2 placed (starts from blocks) blocks.
  Proof.
    revert from. induction blocks as [|b blocks IH]; intros from H; [constructor|]. cbn in *.
    constructor; [exact (placed_left _ _ _ H)|]. apply IH. exact (placed_right _ _ _ H).
  Qed.

  Lemma placed_index from chunks : short chunks -> placed from (four_byte_index chunks) ->
    found checks tape p from (four_byte_index chunks) /\
    index_encoding (four_byte_index chunks) (index_value 4 chunks).
  Proof. intros S H. split; [apply placed_found, H|]. apply four_byte_encoding; auto. destruct H. lia. Qed.

  (** *** Private dictionaries *)

  Lemma private_placed (s : private_source) start base before after : private_valid s ->
    placed start (private_block s) -> (forall w, ~ In (Op_Private, w) after) ->
    private_layout checks tape p
      (table (base ++ integer_operations (before ++ private_reference s start ++ after))) (private_value s).
  Proof.
    intros (D & A & S) H N.
    exists (Z.of_nat (length (private_bytes s))), start, (private_bytes s).
    pose proof (placed_left _ _ _ H) as H1. pose proof (placed_right _ _ _ H) as H2.
    split; [exact (tail_operands base before Op_Private _ _ [] after N)|].
    split; [apply placed_found, H1|]. split; auto.
    assert (Small : Forall (fun op => Forall small (snd op)) (private_entries s)).
    { destruct H1 as (P & L & _). unfold private_bytes, private_entries in *.
      destruct (local_subroutines s); [constructor|]. rewrite app_length in L. cbn in L.
      repeat constructor; cbn; lia. }
    split.
    { apply dictionary_data_encoding, each_app; auto. apply written_encoding, Small. }
    unfold private_value, private_entries, private_block in *. cbn [private_operations private_subroutines].
    destruct (local_subroutines s) as [|c l] eqn:E; [left|right].
    - split; [|reflexivity]. intros v [I|(_ & literals & X & _)]; [|discriminate].
      apply table_entry in I as (b1 & b2 & I & _). exfalso. rewrite app_nil_r in I. apply (A v).
      rewrite I. apply in_or_app. right. left. reflexivity.
    - rewrite <- E in *. exists (Z.of_nat (length (private_bytes s))), (start + Z.of_nat (length (private_bytes s))), (four_byte_index (local_subroutines s)).
      pose proof (placed_index _ _ S H2) as [F X]. split; [|split; [|split; auto]].
      + replace (Z.of_nat (length (private_bytes s))) with (Z.of_nat (length (written (private_dictionary s))) + 6).
        * refine (tail_operand _ [] Op_Subrs _ [] [] _). intros w [].
        * unfold private_bytes, private_entries. rewrite E, app_length. cbn. lia.
      + apply summed_forward; auto. destruct H2 as (? & ? & _), H1 as (? & ? & _). lia.
  Qed.

  Lemma reference_small (s : private_source) start : placed start (private_block s) ->
    Forall (fun op => Forall small (snd op)) (private_reference s start).
  Proof.
    intros H. pose proof (placed_left _ _ _ H) as (A & B & _). repeat constructor; cbn; lia.
  Qed.

  (** *** The kinds of fonts *)

  Lemma fonts_placed fs start : Forall (fun f => dictionary_valid (fst f) /\ private_valid (snd f)) fs ->
    placed start (concat (private_blocks fs)) ->
    Forall2 dictionary_data (font_dictionaries fs start) (font_dictionary_values fs start) /\
    Forall2 (private_layout checks tape p) (font_dictionary_values fs start)
      (map (fun f => private_value (snd f)) fs).
  Proof.
    intros V. revert start. induction V as [|f fs (V1 & V2) _ IH]; intros start H; [split; constructor|].
    cbn [private_blocks map concat] in H. pose proof (placed_left _ _ _ H) as H1.
    destruct (IH _ (placed_right _ _ _ H)) as [I1 I2].
    split; constructor; auto.
    - apply dictionary_data_encoding, each_app; auto. apply written_encoding, reference_small, H1.
    - exact (private_placed (snd f) start (meant (fst f)) [] [] V2 H1 (fun w F => F)).
  Qed.
End tape.

Lemma dictionaries_lengths fs a b :
  map (@length byte) (font_dictionaries fs a) = map (@length byte) (font_dictionaries fs b).
Proof.
  assert (E : forall s, map (@length byte) (font_dictionaries fs s) =
    map (fun f => length (written (fst f) ++ written_operations (private_reference (snd f) 0))) fs).
  { intros s. unfold font_dictionaries. rewrite map_map.
    rewrite <- (combine_map _ fs (starts s (private_blocks fs))).
    - apply map_ext. intros ((d & q) & place). cbn [fst snd]. rewrite !app_length. f_equal.
    - rewrite starts_length. unfold private_blocks. rewrite map_length. reflexivity. }
  rewrite !E. reflexivity.
Qed.

Lemma array_lengths fs s : Z.of_nat (length (four_byte_index (font_dictionaries fs s))) = array_length fs.
Proof. unfold array_length. rewrite (four_byte_same _ _ (dictionaries_lengths fs s 0)). reflexivity. Qed.

Section kinds.
  Context (checks : bool) (tape : list byte) (p : Z) (Hp : 0 <= p < 2 ^ 63).

  Lemma keyed_placed glyphs k start base before : keyed_valid glyphs k ->
    placed tape p start (keyed_block k start) ->
    absent base Op_ROS -> (forall v, ~ In (Op_ROS, v) before) ->
    record_layout checks tape p
      (table (meant (keyed_head k) ++ base ++ integer_operations (before ++ keyed_tail k start)))
      glyphs (keyed_value k start).
  Proof.
    intros V H A N. destruct k as [s|r o c select selected fs]; cbn [keyed_head keyed_tail keyed_value record_layout].
    - cbn [meant app]. split.
      + apply table_absent. intros v I. apply in_app_or in I as [I|I]; [exact (A v I)|].
        apply in_integers in I as (w & I). apply in_app_or in I as [I|[I|[]]]; [exact (N w I)|discriminate].
      + rewrite <- (app_nil_r (before ++ _)), <- app_assoc.
        apply private_placed; auto.
    - destruct V as (R & O & C & S & L & F). cbn [keyed_block] in H.
      pose proof (placed_left _ _ _ _ _ H) as H1. pose proof (placed_right tape p Hp _ _ _ H) as H2.
      pose proof (placed_left _ _ _ _ _ H2) as H3. pose proof (placed_right tape p Hp _ _ _ H2) as H4.
      rewrite array_lengths in H4.
      cbn [meant]. assert (E : entry (table ([(Op_ROS, [Integer r; Integer o; meant_operand c])] ++ base ++
          integer_operations (before ++ [(Op_FDSelect, [start]); (Op_FDArray, [start + Z.of_nat (length select)])])))
          Op_ROS [Integer r; Integer o; meant_operand c]).
      { apply table_entry. exists [], (base ++
          integer_operations (before ++ [(Op_FDSelect, [start]); (Op_FDArray, [start + Z.of_nat (length select)])])).
        split; [reflexivity|]. intros v I. apply in_app_or in I as [I|I]; [exact (A v I)|].
        apply in_integers in I as (w & I). apply in_app_or in I as [I|[I|[I|[]]]]; [exact (N w I)|discriminate|discriminate]. }
      split.
      { intros B. destruct E as (b1 & b2 & E & _). apply (B [Integer r; Integer o; meant_operand c]). rewrite E.
        apply in_or_app. right. left. reflexivity. }
      exists r, o, start, (start + Z.of_nat (length select)), select,
        (index_value 4 (font_dictionaries fs (start + Z.of_nat (length select) + array_length fs))),
        (four_byte_index (font_dictionaries fs (start + Z.of_nat (length select) + array_length fs))).
      cbn [cid_supplement registry ordering cid_encoding cid_operations cid_records].
      assert (SH : short (font_dictionaries fs (start + Z.of_nat (length select) + array_length fs))).
      { unfold short, font_dictionaries. rewrite map_length, combine_length, starts_length.
        unfold private_blocks. rewrite map_length, Nat.min_id. exact L. }
      destruct (placed_index checks tape p Hp _ _ SH H3) as [F3 X3].
      destruct (fonts_placed checks tape p Hp fs _ F H4) as [Y1 Y2].
      split; [left; exact E|]. split; [lia|]. split; [rewrite Z.mod_small; lia|].
      split; [lia|]. split; [rewrite Z.mod_small; lia|].
      rewrite app_assoc. split.
      { refine (tail_operand _ before Op_FDSelect _ [] [_] _). intros w [I|[]]. discriminate. }
      split; [apply placed_found; auto|]. split; auto. split.
      { change [(Op_FDSelect, [start]); (Op_FDArray, [start + Z.of_nat (length select)])] with
          ([(Op_FDSelect, [start])] ++ [(Op_FDArray, [start + Z.of_nat (length select)])]).
        rewrite app_assoc. refine (tail_operand _ _ Op_FDArray _ [] [] _). intros w []. }
      split; auto. split; auto. rewrite data_value. split; auto.
  Qed.

  (** ** Fonts *)

  Lemma font_placed x start : font_valid x -> 2 < start -> placed tape p start (font_block x start) ->
    font_layout checks tape p (font_value x start) /\
    dictionary_data (top_bytes x start) (font_operations (font_value x start)).
  Proof.
    intros (S & D & A & T & V1 & V2 & V3) B H. unfold font_block in H.
    pose proof (placed_left _ _ _ _ _ H) as H1. apply (placed_right tape p Hp) in H.
    change (start + Z.of_nat (length (four_byte_index (glyph_programs x)))) with (names_start x start) in H.
    pose proof (placed_left _ _ _ _ _ H) as H2. apply (placed_right tape p Hp) in H.
    change (names_start x start + Z.of_nat (length (table_block (glyph_names x)))) with (codes_start x start) in H.
    pose proof (placed_left _ _ _ _ _ H) as H3. apply (placed_right tape p Hp) in H.
    change (codes_start x start + Z.of_nat (length (table_block (glyph_codes x)))) with (keyed_start x start) in H.
    assert (B2 : start <= names_start x start) by (unfold names_start; lia).
    assert (B3 : names_start x start <= codes_start x start) by (unfold codes_start; lia).
    assert (B4 : codes_start x start <= keyed_start x start) by (unfold keyed_start; lia).
    assert (Q : forall o, o = Op_CharStrings \/ o = Op_CharSet \/ o = Op_Encoding -> forall w, ~ In (o, w) (keyed_tail (keyed x) (keyed_start x start))).
    { intros o O w I. destruct (keyed x); cbn in I; intuition congruence. }
    destruct (placed_index checks tape p Hp _ _ S H1) as [F1 X1].
    set (base := meant (keyed_head (keyed x)) ++ meant (top_dictionary_source x)).
    assert (EO : font_operations (font_value x start) = table (base ++ integer_operations (font_tail x start))).
    { unfold base. rewrite <- app_assoc. reflexivity. }
    split.
    - exists start, (table_offset (glyph_names x) (names_start x start)),
        (table_offset (glyph_codes x) (codes_start x start)), (four_byte_index (glyph_programs x)).
      split.
      { rewrite EO. refine (tail_operand base [] Op_CharStrings _ [] _ _).
        intros w [I|[I|I]]; try discriminate. exact (Q _ (or_introl eq_refl) w I). }
      split.
      { rewrite EO. unfold base. rewrite <- app_assoc. destruct T as (more & T). exists more. revert T. apply inner_operands.
        - intros v I. destruct (keyed x); cbn in I; intuition congruence.
        - intros v I. apply in_integers in I as (w & I). unfold font_tail in I.
          destruct (keyed x); cbn in I; intuition congruence. }
      split; auto. split; auto. split.
      { rewrite EO. refine (tail_operand base [_] Op_CharSet _ [] _ _).
        intros w [I|I]; try discriminate. exact (Q _ (or_intror (or_introl eq_refl)) w I). }
      change (font_character_strings (font_value x start)) with (index_value 4 (glyph_programs x)).
      change (font_character_set (font_value x start)) with (table_value (glyph_names x)).
      change (font_encoding (font_value x start)) with (table_value (glyph_codes x)).
      rewrite count_value.
      split.
      { destruct (glyph_names x) as [n c|e c]; cbn [table_offset table_value table_block] in *.
        - destruct V1 as [V1|[V1|V1]]; [left|right; left|right; right; left]; tauto.
        - right. right. right. split; [lia|]. exists e. split; auto. apply placed_found; auto. }
      split.
      { rewrite EO. refine (tail_operand base [_; _] Op_Encoding _ [] _ _).
        exact (Q _ (or_intror (or_intror eq_refl))). }
      split.
      { destruct (glyph_codes x) as [n c|e c]; cbn [table_offset table_value table_block] in *.
        - destruct V2 as [V2|V2]; [left|right; left]; tauto.
        - right. right. split; [lia|]. exists e. split; auto. apply placed_found; auto. }
      apply keyed_placed; auto. intros v [I|[I|[I|[]]]]; discriminate.
    - cbn [font_operations font_value]. apply dictionary_data_encoding. unfold top_bytes.
      apply each_app; [|apply each_app; auto].
      + destruct (keyed x) as [s|r o c select selected fs]; cbn [keyed_head written meant]; [constructor|].
        destruct V3 as (R & O & C & _). rewrite <- (app_nil_r (five_byte_integer r ++ _)).
        apply each_cons; [|constructor]. exists (five_byte_integer r ++ five_byte_integer o ++ written_operand c).
        split; [rewrite <- !app_assoc; reflexivity|]. apply each_cons; [apply five_byte_encoding; unfold small; lia|].
        apply each_cons; [apply five_byte_encoding; unfold small; lia|]. rewrite <- (app_nil_r (written_operand c)).
        apply each_cons; [exact C|constructor].
      + apply written_encoding. unfold font_tail. apply Forall_app. split.
        * destruct H1 as (? & ? & _), H2 as (? & ? & _), H3 as (? & ? & _). repeat constructor; cbn; try lia.
          -- destruct (glyph_names x); cbn; [destruct V1 as [V1|[V1|V1]]|]; lia.
          -- destruct (glyph_names x); cbn; [destruct V1 as [V1|[V1|V1]]|]; lia.
          -- destruct (glyph_codes x); cbn; [destruct V2 as [V2|V2]|]; lia.
          -- destruct (glyph_codes x); cbn; [destruct V2 as [V2|V2]|]; lia.
        * destruct (keyed x) as [s|r o c select selected fs]; cbn [keyed_tail keyed_block] in *.
          -- eapply reference_small; eauto.
          -- pose proof (placed_left _ _ _ _ _ H) as (? & ? & _).
             pose proof (placed_right tape p Hp _ _ _ H) as (? & ? & _). repeat constructor; cbn; lia.
  Qed.
End kinds.

(** ** Files *)

Lemma keyed_block_length k a b : length (keyed_block k a) = length (keyed_block k b).
Proof.
  destruct k as [s|r o c select selected fs]; auto. cbn [keyed_block]. rewrite !app_length. f_equal. f_equal.
  apply four_byte_same, dictionaries_lengths.
Qed.

Lemma font_block_length x a b : length (font_block x a) = length (font_block x b).
Proof.
  unfold font_block. rewrite !app_length. do 3 f_equal. apply keyed_block_length.
Qed.

Lemma top_bytes_length x a b : length (top_bytes x a) = length (top_bytes x b).
Proof.
  unfold top_bytes. rewrite !app_length. do 2 f_equal. apply written_length.
  unfold font_tail. destruct (keyed x); reflexivity.
Qed.

Definition paired (f : file_source) (start : Z) : list (font_source * Z) :=
  combine (fonts f) (font_starts (fonts f) start).

Lemma font_starts_length xs s : length xs = length (font_starts xs s).
Proof. unfold font_starts. rewrite starts_length, map_length. reflexivity. Qed.

Lemma front_lengths f s : Z.of_nat (length (front f s)) = front_length f.
Proof.
  unfold front_length, front. rewrite !app_length. do 2 f_equal. do 2 f_equal.
  apply four_byte_same. rewrite !map_map.
  assert (E : forall s, map (fun xs => length (top_bytes (fst xs) (snd xs))) (combine (fonts f) (font_starts (fonts f) s)) =
    map (fun x => length (top_bytes x 0)) (fonts f)).
  { intros t. rewrite <- (combine_map _ (fonts f) (font_starts (fonts f) t)) by apply font_starts_length.
    apply map_ext. intros (x & y). apply top_bytes_length. }
  rewrite !E. reflexivity.
Qed.

Lemma front_length_lower f : 4 <= front_length f.
Proof. unfold front_length, front. rewrite app_length. cbn. lia. Qed.

Lemma combine_right {A B} (l : list A) (l' : list B) : length l = length l' -> map snd (combine l l') = l'.
Proof. revert l'. induction l; intros [|b l'] H; try discriminate; auto. cbn in *. rewrite IHl; auto. Qed.

Lemma starts_lower from blocks : Forall (fun s => from <= s) (starts from blocks).
Proof.
  revert from. induction blocks; intros; constructor; [lia|].
  eapply Forall_impl; [|apply IHblocks]. cbn. intros. lia.
Qed.

Lemma Forall2_maps {A B C} (P : B -> C -> Prop) (g : A -> B) (h : A -> C) l :
  Forall2 P (map g l) (map h l) <-> Forall (fun x => P (g x) (h x)) l.
Proof.
  induction l; cbn; split; intros H; auto; inversion H; subst; constructor; auto; apply IHl; auto.
Qed.

Section file.
  Context (checks : bool) (pre post : list byte) (f : file_source) (V : file_valid f)
    (Hp : Z.of_nat (length pre) < 2 ^ 63).
  Let tape := pre ++ file_bytes f ++ post.
  Let p := Z.of_nat (length pre).

  Lemma position : 0 <= p < 2 ^ 63.
  Proof. unfold p. lia. Qed.

  Lemma file_placed : placed tape p 0 (file_bytes f).
  Proof.
    destruct V as (_ & _ & _ & _ & L). repeat split; try lia. exists post. unfold tape, p.
    rewrite Z.add_0_r, Nat2Z.id, skipn_app, skipn_all, Nat.sub_diag. reflexivity.
  Qed.

  Lemma front_placed : placed tape p 0 (front f (front_length f)).
  Proof. exact (placed_left _ _ _ _ _ file_placed). Qed.

  Lemma blocks_placed : Forall (fun xs => placed tape p (snd xs) (font_block (fst xs) (snd xs)))
    (paired f (front_length f)).
  Proof.
    pose proof (placed_right tape p position _ _ _ file_placed) as H. rewrite front_lengths, Z.add_0_l in H.
    apply placed_concat in H; [|apply position].
    apply Forall2_maps.
    assert (E : starts (front_length f) (map (fun xs => font_block (fst xs) (snd xs)) (paired f (front_length f))) =
      map snd (paired f (front_length f))).
    { unfold paired at 2. rewrite combine_right by apply font_starts_length. unfold font_starts at 1.
      apply starts_same. rewrite !map_map. unfold paired.
      rewrite <- (combine_map (fun x => length (font_block x 0)) (fonts f) (font_starts (fonts f) (front_length f)))
        by apply font_starts_length.
      apply map_ext. intros (x & y). apply font_block_length. }
    rewrite <- E. exact H.
  Qed.

  Lemma paired_layout : Forall (fun xs =>
      font_layout checks tape p (font_value (fst xs) (snd xs)) /\
      dictionary_data (top_bytes (fst xs) (snd xs)) (font_operations (font_value (fst xs) (snd xs))))
    (paired f (front_length f)).
  Proof.
    apply Forall_forall. intros (x & s) I. cbn [fst snd].
    pose proof blocks_placed as B. rewrite Forall_forall in B. specialize (B _ I). cbn [fst snd] in B.
    apply font_placed; auto.
    - apply position.
    - destruct V as (_ & _ & _ & _ & F & _). rewrite Forall_forall in F. apply F.
      exact (in_combine_l _ _ _ _ I).
    - apply in_combine_r in I. pose proof (starts_lower (front_length f) (map (fun x => font_block x 0) (fonts f))) as L.
      rewrite Forall_forall in L. specialize (L _ I). pose proof (front_length_lower f). lia.
  Qed.

  Lemma file_layout : font_set_layout checks tape p (file_value f).
  Proof.
    pose proof front_placed as H. unfold front in H. pose proof position as P.
    pose proof (placed_left _ _ _ _ _ H) as H0. apply (placed_right tape p position) in H.
    change (0 + Z.of_nat (length file_header)) with 4 in H.
    pose proof H as Hall.
    pose proof (placed_left _ _ _ _ _ H) as H1. apply (placed_right tape p position) in H.
    pose proof (placed_left _ _ _ _ _ H) as H2. apply (placed_right tape p position) in H.
    pose proof (placed_left _ _ _ _ _ H) as H3. apply (placed_right tape p position) in H.
    destruct V as (Q1 & S1 & S3 & S4 & _ & _).
    exists file_header, (four_byte_index (font_names f)),
      (four_byte_index (map (fun xs => top_bytes (fst xs) (snd xs)) (paired f (front_length f)))),
      (four_byte_index (strings f)), (four_byte_index (global_subroutines f)),
      (index_value 4 (map (fun xs => top_bytes (fst xs) (snd xs)) (paired f (front_length f)))), (file_fonts f).
    assert (Q2 : short (map (fun xs => top_bytes (fst xs) (snd xs)) (paired f (front_length f)))).
    { unfold short, paired. rewrite map_length, combine_length, <- font_starts_length, Nat.min_id. exact S1. }
    destruct (placed_index checks tape p P _ _ Q1 H1) as [_ X1].
    destruct (placed_index checks tape p P _ _ Q2 H2) as [_ X2].
    destruct (placed_index checks tape p P _ _ S3 H3) as [_ X3].
    destruct (placed_index checks tape p P _ _ S4 H) as [_ X4].
    split; [exists x01, x00, x04, x04; split; reflexivity|].
    split.
    { split; [lia|]. destruct H0 as (_ & _ & r & E). exists r. rewrite Z.add_0_r in E. exact E. }
    split; [apply placed_found; auto|].
    split; auto. split; auto. split; auto. split; auto.
    pose proof paired_layout as L.
    split.
    { rewrite data_value. cbn [fs_operations file_value]. unfold file_fonts. rewrite map_map.
      apply Forall2_maps. eapply Forall_impl; [|exact L]. cbn. tauto. }
    split; auto. split; auto. split; auto. split; auto. split; auto.
    apply Forall_forall. intros x I. apply in_map_iff in I as (xs & <- & I).
    rewrite Forall_forall in L. exact (proj1 (L _ I)).
  Qed.
End file.

Lemma file_read cfg pre post f : file_valid f ->
  Z.of_nat (length (pre ++ file_bytes f ++ post)) < 2 ^ 63 ->
  read_font_set cfg (pre ++ file_bytes f ++ post) (Z.of_nat (length pre)) = Ok (file_value f).
Proof.
  intros V L. apply font_set_iff_closed; auto; [lia|]. apply file_layout; auto.
  rewrite app_length in L. lia.
Qed.

(** ** What a font of the file is reported to have *)

Lemma nth_error_combine {A B} (xs : list A) (ys : list B) i x : length xs = length ys ->
  nth_error xs i = Some x -> exists y, nth_error (combine xs ys) i = Some (x, y).
Proof.
  revert ys i. induction xs as [|z xs IH]; intros [|y ys] [|i] L H; try discriminate; cbn in *.
  - injection H as ->. eauto.
  - apply IH; auto.
Qed.

Lemma nth_error_paired f i x : nth_error (fonts f) i = Some x ->
  exists s, nth_error (paired f (front_length f)) i = Some (x, s).
Proof. apply nth_error_combine, font_starts_length. Qed.

Lemma other_entries head base tail o v : (forall w, ~ In (o, w) head) -> (forall w, ~ In (o, w) tail) ->
  operand_list (table (head ++ base ++ tail)) o v <-> operand_list (table base) o v.
Proof.
  intros H T. unfold operand_list. rewrite inner_entry, inner_absent by auto. reflexivity.
Qed.

Lemma font_other x s o v : placing o = false ->
  operand_list (font_operations (font_value x s)) o v <-> operand_list (table (meant (top_dictionary_source x))) o v.
Proof.
  intros O. cbn [font_operations font_value]. apply other_entries; intros w I; [|apply in_integers in I as (u & I)].
  - destruct (keyed x); cbn in I; intuition (try discriminate);
      match goal with E : (_, _) = (o, _) |- _ => injection E as <- _; discriminate end.
  - unfold font_tail in I. destruct (keyed x); cbn in I; intuition (try discriminate);
      match goal with E : (_, _) = (o, _) |- _ => injection E as <- _; discriminate end.
Qed.

Lemma file_parts f :
  data (fs_names (file_value f)) = font_names f /\ data (fs_strings (file_value f)) = strings f /\
  data (fs_subroutines (file_value f)) = global_subroutines f /\
  length (fs_operations (file_value f)) = length (fonts f).
Proof.
  unfold file_value. cbn [fs_names fs_strings fs_subroutines fs_operations]. rewrite !data_value, map_length.
  unfold file_fonts. rewrite map_length, combine_length, <- font_starts_length, Nat.min_id. auto.
Qed.

Lemma file_fonts_nth f i x : nth_error (fonts f) i = Some x ->
  nth_error (fs_character_strings (file_value f)) i = Some (index_value 4 (glyph_programs x)) /\
  nth_error (fs_character_sets (file_value f)) i = Some (table_value (glyph_names x)) /\
  nth_error (fs_encodings (file_value f)) i = Some (table_value (glyph_codes x)) /\
  (exists ops, nth_error (fs_operations (file_value f)) i = Some ops /\
     forall o v, placing o = false ->
       (operand_list ops o v <-> operand_list (table (meant (top_dictionary_source x))) o v)) /\
  (exists start, nth_error (fs_records (file_value f)) i = Some (keyed_value (keyed x) start)).
Proof.
  intros H. destruct (nth_error_paired f i x H) as (s & P).
  assert (F : nth_error (file_fonts f) i = Some (font_value x s)).
  { unfold file_fonts. change (combine _ _) with (paired f (front_length f)).
    exact (map_nth_error (fun xs => font_value (fst xs) (snd xs)) _ _ P). }
  unfold file_value. cbn [fs_names fs_character_strings fs_character_sets fs_encodings fs_operations fs_records].
  split; [exact (map_nth_error font_character_strings _ _ F)|].
  split; [exact (map_nth_error font_character_set _ _ F)|].
  split; [exact (map_nth_error font_encoding _ _ F)|].
  split.
  - exists (font_operations (font_value x s)). split; [exact (map_nth_error font_operations _ _ F)|].
    intros. apply font_other. auto.
  - exists (keyed_start x s). exact (map_nth_error font_record _ _ F).
Qed.

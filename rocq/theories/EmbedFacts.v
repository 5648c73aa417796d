(** EmbedFacts: a font set after other bytes. *)
From Verif Require Import Base Float C1Number C1Operation C1Index C1Glyphs C1FontSet BaseFacts
  NumberFacts OperationFacts IndexFacts StringFacts GlyphFacts FontSetFacts LayoutFacts FontSetSamples SpecEmbed.
Local Open Scope list_scope.
Local Open Scope Z_scope.

Lemma bind_same {A B} (m m' : outcome A) (f g : A -> outcome B) : m' = m ->
  (forall x, m = Ok x -> g x = f x) -> bind m' g = bind m f.
Proof. intros -> H. destruct m; cbn; auto. Qed.

Section Prepend.
Context (cfg : config) (pre tape : list byte) (p : Z).
Let k := Z.of_nat (length pre).
Context (Hp : 0 <= p) (Hs : k + p < 2 ^ 63) (Ht : Z.of_nat (length tape) < 2 ^ 63).
Let checks := overflow_checks cfg.

Lemma rest_prepend q : 0 <= q -> rest_at (pre ++ tape) (k + q) = rest_at tape q.
Proof.
  intros H. rewrite !rest_at_skipn by (unfold k; lia). rewrite skipn_app, skipn_all2 by (unfold k; lia).
  cbn [app]. f_equal. unfold k. lia.
Qed.

Lemma jump_prepend offset : 0 <= offset < 2 ^ 31 ->
  jump cfg (pre ++ tape) (k + p) offset = jump cfg tape p offset.
Proof.
  intros Ho. assert (Hk : 0 <= k) by (unfold k; lia).
  unfold jump, add_u64, as_u64, in_u64. rewrite Z.mod_small by lia.
  replace ((0 <=? k + p + offset) && (k + p + offset <? 2 ^ 64))%bool with true by lia.
  replace ((0 <=? p + offset) && (p + offset <? 2 ^ 64))%bool with true by lia.
  cbn [bind]. rewrite <- Z.add_assoc, rest_prepend by lia. reflexivity.
Qed.

Lemma jump_prepend_at top o offset : bounded top -> ~ negative_offset top o -> need_single top o = Ok offset ->
  jump cfg (pre ++ tape) (k + p) offset = jump cfg tape p offset.
Proof.
  intros B N O. apply need_single_iff in O. pose proof (bounded_single _ _ _ B O).
  apply jump_prepend. destruct (Z_lt_dec offset 0); [|lia]. exfalso. apply N. exists offset. auto.
Qed.

Lemma private_prepend top : bounded top -> ~ private_before checks tape p top ->
  read_private cfg (pre ++ tape) (k + p) top = read_private cfg tape p top.
Proof.
  intros B Q. unfold read_private. apply bind_same; auto. intros [size offset] O. apply need_double_iff in O.
  destruct (bounded_double _ _ _ _ B O) as [B1 B2].
  assert (C1 : 0 <= offset).
  { destruct (Z_lt_dec offset 0); [|lia]. exfalso. apply Q. exists size, offset. auto. }
  apply bind_same; [apply jump_prepend; lia|]. intros s J.
  apply bind_same; auto. intros [chunk s'] T.
  destruct (read_chunk cfg tape p Hp Ht _ _ _ _ _ B1 J T) as (N & Es & L).
  apply bind_same; auto. intros ops R. apply read_operations_iff in R.
  apply bind_same; auto. intros another An. apply try_single_iff in An.
  destruct another as [another|]; [|reflexivity].
  assert (C3 : 0 <= offset + another < 2 ^ 31).
  { assert (Hk : 0 <= k) by (unfold k; lia).
    destruct (Z_le_dec 0 (offset + another)); [destruct (Z_lt_dec (offset + another) (2 ^ 31)); [lia|]|];
    exfalso; apply Q; exists size, offset; (split; [exact O|]); right; exists chunk, ops, another;
    (split; [eapply jump_found; eauto; lia|]); repeat split; auto; lia. }
  apply bind_same; auto. intros sum S'. apply add_i32_iff in S'. apply summed_forward in S'; [|lia].
  apply bind_same; auto. apply jump_prepend. lia.
Qed.

Lemma privates_prepend tops : Forall bounded tops ->
  Forall (fun top => ~ private_before checks tape p top) tops ->
  read_privates cfg (pre ++ tape) (k + p) tops = read_privates cfg tape p tops.
Proof.
  induction 1 as [|top tops B Bs IH]; intros Q; cbn [read_privates]; [reflexivity|]. inversion Q; subst.
  apply bind_same; [apply private_prepend; auto|]. intros r _. apply bind_same; auto.
Qed.

Lemma cid_prepend top cs : bounded top -> ~ part_before checks tape p top ->
  read_cid cfg (pre ++ tape) (k + p) top cs = read_cid cfg tape p top cs.
Proof.
  intros B Q. assert (Hk : 0 <= k) by (unfold k; lia). unfold read_cid.
  destruct (operations_get top Op_ROS) as [[|n0 [|n1 [|n2 [|n3 ns]]]]|]; try reflexivity.
  apply bind_same; auto. intros select S'.
  apply bind_same. { apply (jump_prepend_at top Op_FDSelect); auto. unfold part_before in Q. tauto. }
  intros s J. apply bind_same; auto. intros [enc s'] _.
  apply bind_same; auto. intros array A'.
  apply bind_same. { apply (jump_prepend_at top Op_FDArray); auto. unfold part_before in Q. tauto. }
  intros s2 J2. apply bind_same; auto. intros [ds s3] R.
  apply read_index_sound in R as (ea & Ea & Xa).
  apply bind_same; auto. intros opss D. apply tables_iff in D.
  apply bind_same; auto.
  apply privates_prepend; [eapply dictionaries_bounded; eauto|].
  apply Forall_forall. intros ops Io Ho. destruct (dictionary_chunk _ _ _ D Io) as (chunk & Ic & Rc).
  apply Q. unfold part_before. do 6 right. exists array, ea, ds, chunk, ops.
  apply need_single_iff in A'. repeat split; auto. eapply jump_found; eauto. lia.
Qed.

Lemma record_prepend top cs : bounded top -> ~ part_before checks tape p top ->
  read_record cfg (pre ++ tape) (k + p) top cs = read_record cfg tape p top cs.
Proof.
  intros B Q. unfold read_record. destruct (map_contains top Op_ROS).
  - apply bind_same; auto. apply cid_prepend; auto.
  - apply bind_same; auto. apply private_prepend; auto. unfold part_before in Q. tauto.
Qed.

Lemma font_prepend i ops g : bounded ops -> ~ part_before checks tape p ops ->
  read_font cfg (pre ++ tape) (k + p) i ops g = read_font cfg tape p i ops g.
Proof.
  intros B Q. unfold read_font. apply bind_same; auto. intros strings O1.
  apply bind_same. { apply (jump_prepend_at ops Op_CharStrings); auto. unfold part_before in Q. tauto. }
  intros s _. apply bind_same; auto. intros format _. apply bind_same; auto. intros [cs s'] _.
  apply bind_same; auto. intros set O2. apply bind_same.
  { destruct (set =? 0), (set =? 1), (set =? 2); auto. apply bind_same; auto.
    apply (jump_prepend_at ops Op_CharSet); auto. unfold part_before in Q. tauto. }
  intros st _. apply bind_same; auto. intros code O3. apply bind_same.
  { destruct (code =? 0), (code =? 1); auto. apply bind_same; auto.
    apply (jump_prepend_at ops Op_Encoding); auto. unfold part_before in Q. tauto. }
  intros enc _. destruct (nth_error _ i); auto. apply bind_same; auto. apply record_prepend; auto.
Qed.

Lemma fonts_prepend opss : Forall bounded opss -> Forall (fun top => ~ part_before checks tape p top) opss ->
  forall i g, read_fonts cfg (pre ++ tape) (k + p) i opss g = read_fonts cfg tape p i opss g.
Proof.
  induction 1 as [|ops opss B Bs IH]; intros Q i g; cbn [read_fonts]; [reflexivity|]. inversion Q; subst.
  apply bind_same; [apply font_prepend; auto|]. intros g' _. apply IH. auto.
Qed.

Lemma header_jump h s : read_header (rest_at tape p) = Ok (h, s) -> 0 <= header_size h < 2 ^ 31.
Proof. intros R. apply read_header_sound in R as (e & _ & X). apply header_size_range in X. lia. Qed.

Lemma font_set_prepend :
  (forall top, top_dictionary checks tape p top -> ~ part_before checks tape p top) ->
  read_font_set cfg (pre ++ tape) (k + p) = read_font_set cfg tape p.
Proof.
  intros Q. assert (Hk : 0 <= k) by (unfold k; lia). unfold read_font_set. rewrite rest_prepend by lia.
  apply bind_same; auto. intros [h s0] Rh. pose proof (header_jump _ _ Rh) as Bh.
  apply bind_same; [apply jump_prepend; lia|]. intros s J.
  apply bind_same; auto. intros [names s1] R1. apply bind_same; auto. intros [ds s2] R2.
  apply bind_same; auto. intros opss D. apply tables_iff in D.
  apply bind_same; auto. intros [strings s3] _. apply bind_same; auto. intros [subs s4] _.
  apply bind_same; auto. apply fonts_prepend; [eapply dictionaries_bounded; eauto|].
  apply Forall_forall. intros top It. apply Q.
  apply read_header_sound in Rh as (eh & Eh & Xh). apply read_index_sound in R1 as (e1 & E1 & X1).
  apply read_index_sound in R2 as (e2 & E2 & X2). destruct (dictionary_chunk _ _ _ D It) as (chunk & Ic & Rc).
  exists eh, h, e1, names, e2, ds, chunk. split; [exact Xh|]. split.
  { split; [lia|]. exists s0. rewrite <- rest_at_skipn by lia. exact Eh. }
  split; [|repeat split; auto]. eapply jump_found; eauto; [lia|]. rewrite <- app_assoc, <- E2. exact E1.
Qed.

Lemma count_prepend : font_set_count cfg (pre ++ tape) (k + p) = font_set_count cfg tape p.
Proof.
  assert (Hk : 0 <= k) by (unfold k; lia). unfold font_set_count. rewrite rest_prepend by lia.
  apply bind_same; auto. intros [h s0] Rh. pose proof (header_jump _ _ Rh) as Bh.
  apply bind_same; auto. apply jump_prepend; lia.
Qed.
End Prepend.

Lemma font_set_prepend_closed cfg pre tape p : 0 <= p -> Z.of_nat (length pre) + p < 2 ^ 63 ->
  Z.of_nat (length tape) < 2 ^ 63 ->
  (forall top, top_dictionary (overflow_checks cfg) tape p top -> ~ part_before (overflow_checks cfg) tape p top) ->
  read_font_set cfg (pre ++ tape) (Z.of_nat (length pre) + p) = read_font_set cfg tape p.
Proof. intros. apply font_set_prepend; auto. Qed.

Lemma count_prepend_closed cfg pre tape p : 0 <= p -> Z.of_nat (length pre) + p < 2 ^ 63 ->
  font_set_count cfg (pre ++ tape) (Z.of_nat (length pre) + p) = font_set_count cfg tape p.
Proof. intros. apply count_prepend; auto. Qed.

(** A private dictionary before the position. *)
Definition before_tape : list byte :=
  [x01; x00; x04; x01; x00; x01; x01; x01; x02; x41; x00; x01; x01; x01; x06; xa1; x11; x8d; x89; x12;
   x00; x00; x00; x00].

Lemma borrowed_refuted cfg : overflow_checks cfg = false ->
  exists tape pre f, read_font_set cfg tape 0 = Err UnexpectedEof /\
    read_font_set cfg (pre ++ tape) (Z.of_nat (length pre) + 0) = Ok f.
Proof.
  intros C. exists before_tape, [x92; x14]. eexists.
  destruct cfg as [o [] []]; cbn in C; subst o; split; vm_compute; reflexivity.
Qed.

Lemma before_hostile checks tape p top : part_before checks tape p top -> hostile checks tape p top.
Proof.
  assert (P : forall ops, private_before checks tape p ops -> hostile_private checks tape p ops).
  { intros ops (size & offset & O & [H|H]); exists size, offset; split; auto. }
  intros [H|[H|[H|[H|[H|[H|H]]]]]]; unfold hostile; try tauto.
  - do 6 right. left. auto.
  - do 7 right. destruct H as (array & e & ds & chunk & ops & H1 & H2 & H3 & H4 & H5 & H6).
    exists array, e, ds, chunk, ops. auto 10.
Qed.

Lemma name_keyed_within checks top : top_dictionary checks name_keyed 0 top -> ~ part_before checks name_keyed 0 top.
Proof. intros T H. apply before_hostile in H. exact (name_keyed_not_hostile checks top T H). Qed.

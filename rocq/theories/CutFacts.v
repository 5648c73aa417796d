(** CutFacts: when the parts of a font set are cut short. *)
From Coq Require Import Sorting.Sorted.
From Verif Require Import Base Float C1Number C1Operation C1Index C1Glyphs C1FontSet BaseFacts
  SpecNumber NumberFacts SpecOperation OperationFacts SpecIndex IndexFacts StringFacts SpecGlyphs GlyphFacts
  SpecFontSet FontSetFacts LayoutFacts SpecPanic PanicFacts SpecCut.
Local Open Scope Z_scope.

Lemma bind_eof {A B} (m : outcome A) (k : A -> outcome B) :
  bind m k = Err UnexpectedEof <-> m = Err UnexpectedEof \/ exists a, m = Ok a /\ k a = Err UnexpectedEof.
Proof. split; [apply bind_err|]. intros [->|(a & -> & H)]; auto. Qed.

Lemma bind_eof_sure {A B} (m : outcome A) (k : A -> outcome B) : m <> Err UnexpectedEof ->
  bind m k = Err UnexpectedEof <-> exists a, m = Ok a /\ k a = Err UnexpectedEof.
Proof. intros N. rewrite bind_eof. tauto. Qed.

(** ** Values that take a fixed number of bytes *)

Definition fixed {A} (rd : reader A) (w : nat) : Prop := forall s,
  ((length s < w)%nat -> rd s = Err UnexpectedEof) /\
  ((w <= length s)%nat -> exists x, rd s = Ok (x, skipn w s)).

Lemma fixed_iff {A} (rd : reader A) w : fixed rd w ->
  forall s, rd s = Err UnexpectedEof <-> (length s < w)%nat.
Proof.
  intros F s. destruct (F s) as [F1 F2]. split; [|exact F1]. intros H.
  destruct (le_lt_dec w (length s)) as [L|L]; auto. destruct (F2 L) as [x X]. congruence.
Qed.

Lemma skipn_more {A} n m (s : list A) : skipn m (skipn n s) = skipn (n + m) s.
Proof. revert s. induction n as [|n IH]; intros [|x s]; cbn [Nat.add skipn]; auto using skipn_nil. Qed.

Lemma fixed_n {A} (rd : reader A) w n : fixed rd w -> fixed (take_n rd n) (n * w).
Proof.
  intros F. induction n as [|n IH]; intros s; cbn [take_n Nat.mul].
  - split; [lia|]. intros _. exists []. reflexivity.
  - destruct (F s) as [F1 F2]. split; intros L.
    + destruct (le_lt_dec w (length s)) as [L1|L1]; [|rewrite F1; auto].
      destruct (F2 L1) as [x ->]. cbn [bind]. destruct (IH (skipn w s)) as [I1 _].
      rewrite I1; [reflexivity|]. rewrite skipn_length. lia.
    + destruct F2 as [x ->]; [lia|]. cbn [bind]. destruct (IH (skipn w s)) as [_ I2].
      destruct I2 as [xs ->]; [rewrite skipn_length; lia|]. cbn [bind]. exists (x :: xs). rewrite skipn_more. reflexivity.
Qed.

Lemma fixed_vec {A} cfg size (rd : reader A) w n : fixed rd w -> (0 < w)%nat -> 0 <= n -> n * size <= isize_max ->
  fixed (take_vec cfg size rd n) (Z.to_nat n * w).
Proof.
  intros F W N B s. unfold take_vec. destruct (Z.ltb_spec isize_max (n * size)); [lia|]. rewrite andb_false_r.
  destruct (Z.le_gt_cases n (Z.of_nat (length s) + 1)) as [L|L].
  - rewrite Z.min_l by lia. apply fixed_n, F.
  - rewrite Z.min_r by lia. split; intros L'.
    + apply (fixed_n _ _ _ F). nia.
    + exfalso. nia.
Qed.

Lemma fixed_u8 : fixed take_u8 1.
Proof. intros [|a s]; cbn; split; try lia; eauto. Qed.
Lemma fixed_u16 : fixed take_u16 2.
Proof. intros [|a [|b s]]; cbn; split; try lia; eauto. Qed.
Lemma fixed_range1 : fixed read_range1 3.
Proof. intros [|a [|b [|c s]]]; cbn; split; try lia; eauto. Qed.
Lemma fixed_range2 : fixed read_range2 4.
Proof. intros [|a [|b [|c [|d s]]]]; cbn; split; try lia; eauto. Qed.
Lemma fixed_code_range : fixed read_code_range 2.
Proof. intros [|a [|b s]]; cbn; split; try lia; eauto. Qed.
Lemma fixed_supplement : fixed read_supplement 3.
Proof. intros [|a [|b [|c s]]]; cbn; split; try lia; eauto. Qed.
Lemma fixed_range3 : fixed read_range3 3.
Proof. intros [|a [|b [|c s]]]; cbn; split; try lia; eauto. Qed.
Lemma fixed_header : fixed read_header 4.
Proof. intros [|a [|b [|c [|d s]]]]; cbn; split; try lia; eauto. Qed.

Lemma fixed_offset size : 1 <= size <= 4 -> fixed (read_offset size) (Z.to_nat size).
Proof.
  intros B. assert (size = 1 \/ size = 2 \/ size = 3 \/ size = 4) as [->|[->|[->| ->]]] by lia;
    intros [|a [|b [|c [|d s]]]]; cbn; split; try lia; eauto.
Qed.

Lemma offset_other size s : ~ (1 <= size <= 4) -> read_offset size s = Err Other.
Proof.
  intros N. unfold read_offset. destruct (Z.eqb_spec size 1), (Z.eqb_spec size 2), (Z.eqb_spec size 3), (Z.eqb_spec size 4);
    lia || reflexivity.
Qed.

Lemma header_cut_iff s : read_header s = Err UnexpectedEof <-> header_cut s.
Proof. apply (fixed_iff _ _ fixed_header). Qed.

Lemma offset_cut_iff size s : read_offset size s = Err UnexpectedEof <-> 1 <= size <= 4 /\ Z.of_nat (length s) < size.
Proof.
  destruct (Z_le_dec 1 size) as [B1|B1]; [destruct (Z_le_dec size 4) as [B2|B2]|].
  - rewrite (fixed_iff _ _ (fixed_offset size (conj B1 B2))). lia.
  - rewrite offset_other by lia. split; [discriminate|lia].
  - rewrite offset_other by lia. split; [discriminate|lia].
Qed.

Lemma number_cut_iff s : read_number s = Err UnexpectedEof <-> number_cut s.
Proof.
  unfold number_cut. destruct s as [|b s]; [split; auto|].
  rewrite read_number_eof_iff by discriminate. split; auto. intros [H|H]; [discriminate|auto].
Qed.

(** ** Indices *)

Lemma elements_eof cfg offs : Forall (fun o => 0 <= o < 2 ^ 32) offs -> forall o1 s, 0 <= o1 ->
  read_elements cfg (o1 :: offs) s = Err UnexpectedEof <->
  exists before o after, offs = before ++ o :: after /\ Sorted Z.le (o1 :: before ++ [o]) /\
    o1 + Z.of_nat (length s) < o.
Proof.
  induction 1 as [|o2 offs B F IH]; intros o1 s B1.
  - split; [discriminate|]. intros ([|? ?] & o & after & E & _); discriminate.
  - rewrite read_elements_cons. destruct (Z.ltb_spec o2 o1) as [L|L].
    + split; [discriminate|]. intros (before & o & after & E & So & _). exfalso.
      apply Sorted_inv in So as [_ So]. destruct before as [|x before]; injection E as <- ->; inversion So; lia.
    + rewrite take_chunk by lia. destruct (Z.leb_spec (o2 - o1) (Z.of_nat (length s))) as [M|M]; cbn [bind].
      * rewrite bind_eof, IH by lia. rewrite skipn_length. split.
        -- intros [(before & o & after & -> & So & Lo)|([cs r] & _ & H)]; [|discriminate].
           exists (o2 :: before), o, after. repeat split; auto; [|lia].
           cbn [app]. constructor; auto.
        -- intros (before & o & after & E & So & Lo). left. destruct before as [|x before]; injection E as <- ->; [lia|].
           apply Sorted_inv in So as [So _]. exists before, o, after. repeat split; auto. lia.
      * split; [|reflexivity]. intros _. exists [], o2, offs. repeat split; auto; [|lia].
        cbn [app]. constructor; auto.
Qed.

Lemma big_endian_2 b1 b2 : big_endian [b1; b2] = bz b1 * 2 ^ 8 + bz b2.
Proof. unfold big_endian. cbn [fold_left]. lia. Qed.

Lemma each_offsets_range size e vs : 1 <= size <= 4 -> each (offset_encoding size) e vs -> Forall (fun o => 0 <= o < 2 ^ 32) vs.
Proof.
  intros B H. apply each_offsets in H as [H _]; auto. eapply Forall_impl; [|exact H]. cbv beta. intros v V. split; [lia|].
  apply Z.lt_le_trans with (256 ^ size); [lia|]. change (2 ^ 32) with (256 ^ 4). apply Z.pow_le_mono_r; lia.
Qed.

Lemma each_impl {A} (f g : list byte -> A -> Prop) e xs : (forall e x, f e x -> g e x) -> each f e xs -> each g e xs.
Proof. intros I. induction 1; constructor; auto. Qed.

Lemma index_cut_iff cfg s : read_index cfg s = Err UnexpectedEof <-> index_cut s.
Proof.
  destruct s as [|b1 [|b2 s]].
  { split; [|reflexivity]. intros _. apply cut_in_count. cbn. lia. }
  { split; [|reflexivity]. intros _. apply cut_in_count. cbn. lia. }
  unfold read_index. cbn [take_u16 bind]. rewrite <- big_endian_2.
  pose proof (big_endian_range [b1; b2]) as R. set (n := big_endian [b1; b2]) in *.
  destruct (Z.eqb_spec n 0) as [E0|E0].
  { split; [discriminate|]. intros H. inversion H; subst; cbn [length] in *; subst n; try lia. }
  assert (Hn : 0 < n) by lia. clear R E0.
  destruct s as [|size s].
  { split; [|reflexivity]. intros _. apply cut_before_size. exact Hn. }
  cbn [take_u8 bind].
  destruct (Z_le_dec 1 (bz size)) as [B1|B1]; [destruct (Z_le_dec (bz size) 4) as [B2|B2]|].
  2,3: replace (Z.to_nat (n + 1)) with (S (Z.to_nat n)) by lia; cbn [take_n]; rewrite offset_other by lia;
    split; [discriminate|]; intros H; inversion H; subst; cbn [length] in *; lia.
  pose proof (fixed_n _ _ (Z.to_nat (n + 1)) (fixed_offset _ (conj B1 B2)) s) as [F1 F2].
  destruct (le_lt_dec (Z.to_nat (n + 1) * Z.to_nat (bz size)) (length s)) as [L|L].
  2: { rewrite F1 by auto. split; [|reflexivity]. intros _. apply (cut_in_offsets b1 b2 size s); auto; fold n; nia. }
  destruct (F2 L) as [offs T]. rewrite T. cbn [bind].
  apply (take_n_sound _ _ (read_offset_sound _)) in T as T'. destruct T' as (Ln & e & Es & X).
  set (s3 := skipn _ s) in *. pose proof (each_offsets_range _ _ _ (conj B1 B2) X) as Fo.
  assert (U : index_cut (b1 :: b2 :: size :: s) <-> exists before o after, offs = 1 :: before ++ o :: after /\
    Sorted Z.le (1 :: before ++ [o]) /\ 1 + Z.of_nat (length s3) < o).
  { split.
    - intros H. remember (b1 :: b2 :: size :: s) as whole eqn:E.
      destruct H as [? L2|? ? Hn'|b1' b2' size' s' Hn' Bs Ls|b1' b2' size' es before o after s' Hn' Bs Lo Xo So Lt].
      + rewrite E in L2. cbn [length] in L2. lia.
      + discriminate.
      + exfalso. injection E as -> -> -> ->. fold n in Ls. nia.
      + injection E as -> -> -> E. exists before, o, after.
        assert (Q : take_n (read_offset (bz size)) (length (1 :: before ++ o :: after)) (es ++ s') = Ok (1 :: before ++ o :: after, s')).
        { apply (take_n_complete _ _ (read_offset_complete _)). eapply each_impl; [|exact Xo]. intros ? ? [? ?]. split; auto. }
        fold n in Lo. replace (length (1 :: before ++ o :: after)) with (Z.to_nat (n + 1)) in Q by lia.
        rewrite E, T in Q. injection Q as -> <-. auto.
    - intros (before & o & after & -> & So & Lt). rewrite Es.
      apply (cut_in_elements b1 b2 size e before o after s3); auto.
      + fold n. lia.
      + eapply each_impl; [|exact X]. intros ? ? (_ & ? & ?). auto. }
  rewrite U. destruct offs as [|o1 offs]; [cbn [length] in Ln; lia|]. clear X; apply Forall_inv in Fo as Fo1; apply Forall_inv_tail in Fo as Fo2.
  destruct (Z.eq_dec o1 1) as [->|N].
  - rewrite bind_eof, elements_eof by (auto; lia). split.
    + intros [(before & o & after & -> & So & Lt)|([cs r] & _ & H)]; [|discriminate]. exists before, o, after. auto.
    + intros (before & o & after & E & So & Lt). injection E as ->. left. exists before, o, after. auto.
  - split; [|intros (? & ? & ? & E & _); congruence]. destruct o1 as [|[?|?|]|?]; discriminate || congruence.
Qed.

(** ** Encodings *)

Lemma encoding_cut_iff cfg s : read_encoding cfg s = Err UnexpectedEof <-> encoding_cut s.
Proof.
  destruct s as [|f s]; [split; [constructor|reflexivity]|].
  unfold read_encoding, peek_u8. cbn [take_u8 bind]. rewrite high_bit.
  pose proof (bz_range f) as Rf.
  destruct (Z.eqb_spec (bz f) 0) as [E0|E0]; [|destruct (Z.eqb_spec (bz f) 1) as [E1|E1]; [|destruct (Z.leb_spec 128 (bz f)) as [E2|E2]]].
  - assert (f = x00) as -> by (apply bz_inj; exact E0). unfold read_encoding0. cbn [take_u8 bind]. cbn [negb Z.eqb].
    destruct s as [|n s]; [split; [intros _; apply encoding_cut_count; left; cbn; lia|reflexivity]|].
    cbn [take_u8 bind]. change (negb (bz x00 =? 0)) with false. cbv iota. cbn [bind]. pose proof (bz_range n).
    rewrite bind_eof, (fixed_iff _ _ (fixed_vec cfg 1 take_u8 1 (bz n) fixed_u8 ltac:(lia) ltac:(lia) ltac:(unfold isize_max; lia))).
    split.
    + intros [L|([? ?] & _ & Q)]; [|discriminate]. apply (encoding_cut_codes n s). lia.
    + intros Q. left. inversion Q; subst; cbn [length app] in *; change (bz x00) with 0 in *; change (bz x01) with 1 in *; lia.
  - assert (f = x01) as -> by (apply bz_inj; exact E1). unfold read_encoding1. cbn [take_u8 bind].
    change (negb (bz x01 =? 1)) with false. cbv iota.
    destruct s as [|n s]; [split; [intros _; apply encoding_cut_count; left; cbn; lia|reflexivity]|].
    cbn [take_u8 bind]. pose proof (bz_range n).
    rewrite bind_eof, (fixed_iff _ _ (fixed_vec cfg 2 read_code_range 2 (bz n) fixed_code_range ltac:(lia) ltac:(lia) ltac:(unfold isize_max; lia))).
    split.
    + intros [L|([? ?] & _ & Q)]; [|discriminate]. apply (encoding_cut_ranges n s). lia.
    + intros Q. left. inversion Q; subst; cbn [length app] in *; change (bz x00) with 0 in *; change (bz x01) with 1 in *; lia.
  - unfold read_encoding_supplemental. cbn [take_u8 bind].
    destruct s as [|n s]; [split; [intros _; apply encoding_cut_count; auto|reflexivity]|].
    cbn [take_u8 bind]. pose proof (bz_range n).
    rewrite bind_eof, (fixed_iff _ _ (fixed_vec cfg 4 read_supplement 3 (bz n) fixed_supplement ltac:(lia) ltac:(lia) ltac:(unfold isize_max; lia))).
    split.
    + intros [L|([? ?] & _ & Q)]; [|discriminate]. apply (encoding_cut_supplements f n s); lia.
    + intros Q. left. inversion Q; subst; cbn [length app] in *; change (bz x00) with 0 in *; change (bz x01) with 1 in *; lia.
  - split; [discriminate|]. intros Q. inversion Q; subst; try lia; cbn in *; lia.
Qed.

(** ** Glyph-to-dictionary encodings *)

Lemma select_cut_iff cfg glyphs s : 0 <= glyphs < 2 ^ 62 ->
  read_dictionary_encoding cfg glyphs s = Err UnexpectedEof <-> select_cut glyphs s.
Proof.
  intros G. destruct s as [|f s]; [split; [constructor|reflexivity]|].
  unfold read_dictionary_encoding, peek_u8. cbn [take_u8 bind].
  destruct (Z.eqb_spec (bz f) 0) as [E0|E0]; [|destruct (Z.eqb_spec (bz f) 3) as [E1|E1]].
  - assert (f = x00) as -> by (apply bz_inj; exact E0). unfold read_dictionary_encoding0. cbn [take_u8 bind].
    change (negb (bz x00 =? 0)) with false. rewrite andb_false_r.
    rewrite bind_eof, (fixed_iff _ _ (fixed_vec cfg 1 take_u8 1 glyphs fixed_u8 ltac:(lia) ltac:(lia) ltac:(unfold isize_max; lia))).
    split.
    + intros [L|([? ?] & _ & Q)]; [|discriminate]. apply select_cut_format0. lia.
    + intros Q. left. inversion Q; subst; lia.
  - assert (f = x03) as -> by (apply bz_inj; exact E1). unfold read_dictionary_encoding3. cbn [take_u8 bind].
    change (negb (bz x03 =? 3)) with false. cbv iota.
    destruct s as [|b1 [|b2 s]];
      [split; [intros _; apply select_cut_count; cbn; lia|reflexivity]|split; [intros _; apply select_cut_count; cbn; lia|reflexivity]|].
    cbn [take_u16 bind]. rewrite <- big_endian_2. pose proof (big_endian_range [b1; b2]) as R. cbn [length] in R.
    change (256 ^ Z.of_nat 2) with (2 ^ 16) in R. set (n := big_endian [b1; b2]) in *.
    assert (W : select_cut glyphs (x03 :: b1 :: b2 :: s) <-> Z.of_nat (length s) < 3 * n + 2).
    { split; [|apply (select_cut_ranges glyphs b1 b2 s)]. intros Q. inversion Q; subst; auto. cbn in *. lia. }
    rewrite W. pose proof (fixed_vec cfg 4 read_range3 3 n fixed_range3 ltac:(lia) ltac:(lia) ltac:(unfold isize_max; lia) s) as [F1 F2].
    destruct (le_lt_dec (Z.to_nat n * 3) (length s)) as [L|L].
    + destruct (F2 L) as [rs ->]. cbn [bind]. rewrite bind_eof, (fixed_iff _ _ fixed_u16), skipn_length. split.
      * intros [Q|([? ?] & _ & Q)]; [lia|discriminate].
      * intros Q. left. lia.
    + rewrite F1 by auto. cbn [bind]. split; [lia|reflexivity].
  - split; [discriminate|]. intros Q. inversion Q; subst; try (destruct E0; reflexivity); destruct E1; reflexivity.
Qed.

(** ** Character sets *)

Lemma ranges_cut width rd w : range_reader width rd -> fixed rd w -> (w = 2 + width)%nat ->
  forall fuel n found s, (length s < fuel)%nat ->
  read_ranges rd fuel n found s = Err UnexpectedEof <->
  exists e ranges r, s = e ++ r /\ each (range_encoding width) e ranges /\ found + covered ranges < n /\
    (length r < w)%nat.
Proof.
  intros (Hs & Hc & _) F W. induction fuel as [|fuel IH]; intros n found s L; [lia|]. cbn [read_ranges].
  destruct (Z.ltb_spec found n) as [Lf|Lf].
  - destruct (F s) as [F1 F2]. destruct (le_lt_dec w (length s)) as [Lw|Lw].
    + destruct (F2 Lw) as [x X]. rewrite X. cbn [bind]. rewrite bind_eof, IH by (rewrite skipn_length; lia).
      apply Hs in X as (e & Es & Xe). split.
      * intros [(es & xs & r & E & Xs & C & Lr)|([[? ?] ?] & _ & H)]; [|discriminate].
        exists (e ++ es), (x :: xs), r. rewrite Es, E, <- app_assoc. repeat split; auto.
        { constructor; auto. } cbn [covered fold_right]. fold (covered xs). lia.
      * intros (es & xs & r & E & Xs & C & Lr). left. destruct Xs as [|e1 x1 es xs X1 Xs].
        { exfalso. cbn [app] in E. subst. lia. }
        rewrite <- app_assoc in E.
        assert (Q : rd s = Ok (x1, es ++ r)) by (rewrite E; apply Hc, X1).
        rewrite Es in Q. rewrite (Hc _ _ _ Xe) in Q. injection Q as <- Q. exists es, xs, r. rewrite Q. repeat split; auto.
        cbn [covered fold_right] in C. fold (covered xs) in C. lia.
    + rewrite F1 by auto. split; [|reflexivity]. intros _. exists [], [], s. repeat split; auto; [constructor|].
      cbn. lia.
  - split; [discriminate|]. intros (e & ranges & r & _ & X & C & _). apply covered_nonneg in X. lia.
Qed.

Lemma character_set_cut_iff cfg n s : 0 <= n < 2 ^ 62 -> Z.of_nat (length s) < 2 ^ 63 ->
  read_character_set cfg n s = Err UnexpectedEof <-> character_set_cut (overflow_checks cfg) (preallocates cfg) n s.
Proof.
  intros G Ls. destruct s as [|f s]; [split; [constructor|reflexivity]|].
  unfold read_character_set, peek_u8. cbn [take_u8 bind].
  destruct (Z.eqb_spec (bz f) 0) as [E0|E0]; [|destruct (Z.eqb_spec (bz f) 1) as [E1|E1]; [|destruct (Z.eqb_spec (bz f) 2) as [E2|E2]]].
  - assert (f = x00) as -> by (apply bz_inj; exact E0). unfold read_character_set0. cbn [take_u8 bind].
    change (negb (bz x00 =? 0)) with false. cbv iota. destruct (Z.eq_dec n 0) as [->|N].
    + unfold sub_usize. change (in_u64 (0 - 1)) with false. destruct (overflow_checks cfg) eqn:C; cbn [bind].
      { split; [discriminate|]. intros Q. inversion Q; lia || discriminate. }
      rewrite bind_eof. unfold take_vec. change (isize_max <? as_u64 (0 - 1) * 2) with true.
      destruct (preallocates cfg) eqn:A; cbn [andb].
      { split; [intros [H|([? ?] & H & _)]; discriminate|]. intros Q. inversion Q; lia || discriminate. }
      split; [intros _; apply set_cut_no_glyphs; auto|]. intros _. left.
      rewrite (fixed_iff _ _ (fixed_n _ _ _ fixed_u16)). change (as_usize (0 - 1)) with (2 ^ 64 - 1). cbn [length] in Ls. rewrite Z.min_r by lia. lia.
    + rewrite sub_one by (unfold sane_count; lia). cbn [bind].
      rewrite bind_eof, (fixed_iff _ _ (fixed_vec cfg 2 take_u16 2 (n - 1) fixed_u16 ltac:(lia) ltac:(lia) ltac:(unfold isize_max; lia))).
      split.
      * intros [L|([? ?] & _ & Q)]; [|discriminate]. apply set_cut_format0; lia.
      * intros Q. left. inversion Q; subst; lia.
  - assert (f = x01) as -> by (apply bz_inj; exact E1). unfold read_character_set1. cbn [take_u8 bind].
    change (negb (bz x01 =? 1)) with false. cbv iota.
    rewrite bind_eof, (ranges_cut _ _ _ range1_reader fixed_range1) by lia. split.
    + intros [(e & rs & r & -> & X & C & L)|([[? ?] ?] & _ & Q)]; [eapply set_cut_format1; eauto|].
      destruct (negb _); discriminate.
    + intros Q. left. inversion Q; subst. eauto 10.
  - assert (f = x02) as -> by (apply bz_inj; exact E2). unfold read_character_set2. cbn [take_u8 bind].
    change (negb (bz x02 =? 2)) with false. cbv iota.
    rewrite bind_eof, (ranges_cut _ _ _ range2_reader fixed_range2) by lia. split.
    + intros [(e & rs & r & -> & X & C & L)|([[? ?] ?] & _ & Q)]; [eapply set_cut_format2; eauto|].
      destruct (negb _); discriminate.
    + intros Q. left. inversion Q; subst. eauto 10.
  - split; [discriminate|]. intros Q. inversion Q; subst.
    1,2: destruct E0; reflexivity. { destruct E1; reflexivity. } destruct E2; reflexivity.
Qed.

(** ** Everything else is malformed *)

Lemma other_iff {A} (rd : reader A) enc (cut : list byte -> Prop) s :
  sound rd enc -> complete rd enc -> settled (rd s) -> (rd s = Err UnexpectedEof <-> cut s) ->
  rd s = Err Other <-> ~ begins enc s /\ ~ cut s.
Proof.
  intros Hs Hc St C. rewrite <- C. split.
  - intros H. split; [|congruence]. intros (e & x & r & -> & X). rewrite (Hc _ _ _ X) in H. discriminate.
  - intros [N1 N2]. destruct (rd s) as [[x r]|[|]|k|] eqn:E; try contradiction.
    + destruct N1. apply Hs in E as (e & -> & X). exists e, x, r. auto.
    + reflexivity.
Qed.

Lemma number_other s : read_number s = Err Other <-> ~ begins operand_encoding s /\ ~ number_cut s.
Proof. apply other_iff; auto using read_operand_sound, read_operand_complete, read_number_settled, number_cut_iff. Qed.

Lemma operation_other s : read_operation s = Err Other <-> ~ begins operation_encoding s /\ ~ cut_operation s.
Proof.
  apply other_iff; auto using read_operation_sound, read_operation_complete, read_operation_eof_iff.
  apply read_operation_settled.
Qed.

Lemma index_other cfg s : read_index cfg s = Err Other <-> ~ begins index_encoding s /\ ~ index_cut s.
Proof. apply other_iff; auto using read_index_sound, read_index_complete, read_index_settled, index_cut_iff. apply read_index_settled. Qed.

Lemma encoding_other cfg s : read_encoding cfg s = Err Other <-> ~ begins any_encoding s /\ ~ encoding_cut s.
Proof. apply other_iff; auto using read_encoding_sound, read_encoding_complete, encoding_cut_iff. apply read_encoding_total. Qed.

Lemma select_other_iff cfg glyphs s : 0 <= glyphs < 2 ^ 62 ->
  read_dictionary_encoding cfg glyphs s = Err Other <-> ~ begins (select_encoding glyphs) s /\ ~ select_cut glyphs s.
Proof.
  intros G. apply other_iff; auto using select_cut_iff.
  - apply (read_select_sound cfg []); lia.
  - apply (read_select_complete cfg []); lia.
  - apply select_settled. lia.
Qed.

Lemma character_set_other cfg n s : 0 <= n < 2 ^ 62 -> Z.of_nat (length s) < 2 ^ 63 ->
  read_character_set cfg n s = Err Other <->
  ~ begins (character_set_encoding n) s /\ ~ set_panic (overflow_checks cfg) (preallocates cfg) n s /\
  ~ character_set_cut (overflow_checks cfg) (preallocates cfg) n s.
Proof.
  intros G L. pose proof (character_set_cut_iff cfg n s G L) as C. destruct (Z.eq_dec n 0) as [->|N].
  - assert (P : (exists k, read_character_set cfg 0 s = Panic k) <-> set_panic (overflow_checks cfg) (preallocates cfg) 0 s).
    { unfold set_panic. split.
      - intros (k & K). apply zero_set_panic in K as (R & K); auto. split; auto. split; auto.
        destruct K as [[-> _]|(_ & -> & _)]; auto.
      - intros (_ & K & R). destruct (overflow_checks cfg) eqn:Ck.
        + exists ArithmeticOverflow. apply zero_set_panic; auto.
        + exists CapacityOverflow. apply zero_set_panic; auto. split; auto. right. destruct K as [K|K]; [discriminate|auto]. }
    rewrite <- P, <- C. split.
    + intros H. repeat split; try congruence.
      * intros (e & x & r & _ & X). exact (no_zero_set [] _ _ X).
      * intros (k & K). congruence.
    + intros (_ & N2 & N3). destruct (read_character_set cfg 0 s) as [[c r]|[|]|k|] eqn:E; auto.
      * exfalso; eapply read_character_set_zero; eauto.
      * destruct N3. reflexivity.
      * destruct N2. eauto.
      * destruct (character_set_ends cfg 0 s G E).
  - assert (Sn : sane_count n) by (unfold sane_count; lia).
    rewrite (other_iff _ (character_set_encoding n) (character_set_cut (overflow_checks cfg) (preallocates cfg) n));
      auto using read_character_set_sound, read_character_set_complete; [|apply read_character_set_total, Sn].
    unfold set_panic. split; [intros [? ?]; repeat split; auto; lia|tauto].
Qed.

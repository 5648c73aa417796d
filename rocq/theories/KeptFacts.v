(** KeptFacts: tables can be told from what is read from them. *)
From Verif Require Import Base Float C1Number C1Operation C1Index C1Glyphs C1FontSet BaseFacts
  SpecOperation OperationFacts SpecIndex IndexFacts SpecGlyphs GlyphFacts SpecFontSet FontSetFacts LayoutFacts
  SpecFile FileFacts SpecTape TapeFacts SpecParts PartsFacts SpecEdit EditFacts SpecKept FontSetSamples.
Local Open Scope list_scope.
Local Open Scope Z_scope.

(** A value has one encoding at most. *)
Definition faithful {A} (enc : list byte -> A -> Prop) : Prop := forall e e' x, enc e x -> enc e' x -> e = e'.

Lemma each_faithful {A} (enc : list byte -> A -> Prop) : faithful enc -> faithful (each enc).
Proof.
  intros F e e' xs X. revert e'. induction X as [|e x es xs X Xs IH]; intros e' X'; inversion X'; subst; auto.
  f_equal; [eapply F; eauto|auto].
Qed.

Lemma map_bz_inj l : forall l', map bz l = map bz l' -> l = l'.
Proof.
  induction l as [|b l IH]; intros [|b' l'] E; try discriminate; auto. injection E as E1 E2.
  apply bz_inj in E1 as ->. f_equal. auto.
Qed.

Lemma big_endian_inj e e' : length e = length e' -> big_endian e = big_endian e' -> e = e'.
Proof. intros L E. rewrite <- (be_bytes_big_endian e), <- (be_bytes_big_endian e'), L, E. reflexivity. Qed.

Lemma index_faithful : faithful index_encoding.
Proof.
  intros e e' x (size & chunks & _ & -> & ->) (size' & chunks' & _ & -> & E).
  destruct chunks as [|c chunks], chunks' as [|c' chunks']; try discriminate E; [reflexivity|].
  cbn [index_value] in E. injection E as _ -> _ -> ->. reflexivity.
Qed.

Lemma range_faithful width : faithful (range_encoding width).
Proof. intros e e' x (_ & _ & ->) (_ & _ & ->). reflexivity. Qed.

Lemma character_set_faithful n n' e e' c :
  character_set_encoding n e c -> character_set_encoding n' e' c -> e = e'.
Proof.
  intros X X'. inversion X; subst; inversion X'; subst; f_equal;
    eapply (each_faithful _ (range_faithful _)); eassumption.
Qed.

Lemma code_range_faithful : faithful code_range_encoding.
Proof.
  intros e e' x (b1 & b2 & -> & ->) (c1 & c2 & -> & E). injection E as E1 E2.
  apply bz_inj in E1 as ->. apply bz_inj in E2 as ->. reflexivity.
Qed.

Lemma supplement_faithful : faithful supplement_encoding.
Proof.
  intros e e' x (b1 & b2 & b3 & -> & ->) (c1 & c2 & c3 & -> & E). injection E as E1 E2.
  apply bz_inj in E1 as ->. apply (big_endian_inj [b2; b3] [c2; c3] eq_refl) in E2 as [= -> ->]. reflexivity.
Qed.

Ltac same_values := repeat match goal with
  | H : bz _ = bz _ |- _ => apply bz_inj in H; subst
  | H : map bz _ = map bz _ |- _ => apply map_bz_inj in H; subst
  end.

Lemma encoding_faithful : faithful any_encoding.
Proof.
  intros e e' x X X'.
  destruct X as [e x [n codes N|n e0 ranges N Er]|f n e0 supplements F N Es];
    inversion X' as [e1 x1 P E1 E2|f' n' e1 s' F' N' Es' E1 E2]; subst; try (inversion P; fail).
  - inversion P; subst. same_values. reflexivity.
  - inversion P; subst. same_values. f_equal. eapply (each_faithful _ code_range_faithful); eassumption.
  - same_values. f_equal. eapply (each_faithful _ supplement_faithful); eassumption.
Qed.

Lemma dictionary_range_faithful : faithful dictionary_range_encoding.
Proof.
  intros e e' x (b1 & b2 & b3 & -> & ->) (c1 & c2 & c3 & -> & E). injection E as E1 E2.
  apply bz_inj in E2 as ->. apply (big_endian_inj [b1; b2] [c1; c2] eq_refl) in E1 as [= -> ->]. reflexivity.
Qed.

Lemma select_faithful n n' e e' x : select_encoding n e x -> select_encoding n' e' x -> e = e'.
Proof.
  intros X X'. inversion X; subst; inversion X'; subst; same_values; [reflexivity|].
  do 3 f_equal. eapply (each_faithful _ dictionary_range_faithful); eassumption.
Qed.

Lemma header_faithful : faithful header_encoding.
Proof.
  intros e e' x (b1 & b2 & b3 & b4 & -> & ->) (c1 & c2 & c3 & c4 & -> & E). injection E as E1 E2 E3 E4.
  same_values. reflexivity.
Qed.

(** ** Readers *)

Lemma kept_by {A} (rd rd' : reader A) enc enc' : sound rd enc -> sound rd' enc' ->
  (forall e e' x, enc e x -> enc' e' x -> e = e') -> kept rd rd'.
Proof.
  intros S1 S2 F s s' x r r' R R'. apply S1 in R as (e & -> & X). apply S2 in R' as (e' & -> & X').
  exists e. rewrite (F _ _ _ X X'). auto.
Qed.

(** ** Font sets *)

Lemma stands_byte tape place e q : stands tape place e -> place <= q < place + Z.of_nat (length e) ->
  exists b, nth_error e (Z.to_nat (q - place)) = Some b /\ stands tape q [b].
Proof.
  intros (N & H)%stands_nth Hq. destruct (nth_error e (Z.to_nat (q - place))) as [b|] eqn:E.
  - exists b. split; [reflexivity|]. apply stands_nth. split; [lia|]. intros [|[|]] b' Eb; try discriminate.
    injection Eb as <-. rewrite Nat.add_0_r. apply H in E.
    replace (Z.to_nat place + Z.to_nat (q - place))%nat with (Z.to_nat q) in E by lia. exact E.
  - apply nth_error_None in E. lia.
Qed.

Lemma stands_shared tape tape' place e q : stands tape place e -> stands tape' place e ->
  place <= q < place + Z.of_nat (length e) -> shared tape tape' q.
Proof.
  intros H H' Hq. destruct (stands_byte _ _ _ _ H Hq) as (b & E & S). destruct (stands_byte _ _ _ _ H' Hq) as (b' & E' & S').
  rewrite E in E'. injection E' as <-. exists b. auto.
Qed.

Section Kept.
  Context (checks : bool) (tape tape' : list byte) (p : Z).

  Lemma inside_shared offset e q : inside checks tape p offset e q -> found checks tape' p offset e -> shared tape tape' q.
  Proof.
    intros (start & L & St & Hq) (start' & L' & St'). rewrite <- (located_unique _ _ _ _ _ L L') in St'.
    eapply stands_shared; eauto.
  Qed.

  Lemma private_shared top r q : private_kept checks tape p top r q -> private_layout checks tape' p top r -> shared tape tape' q.
  Proof.
    intros (size & offset & another & sum & e & D & O & Sm & X & I) (size' & offset' & chunk & D' & _ & _ & _ & Su).
    destruct (operands_unique _ _ _ _ _ _ D D') as [<- <-].
    destruct Su as [[No _]|(another' & sum' & e' & O' & Sm' & Fe & X')]; [destruct (operand_some _ _ _ O No)|].
    rewrite <- (operand_unique _ _ _ _ O O') in Sm'.
    assert (sum' = sum) as -> by (destruct Sm as (-> & _), Sm' as (-> & _); reflexivity).
    rewrite <- (index_faithful _ _ _ X X') in Fe. eapply inside_shared; eauto.
  Qed.

  Lemma record_shared top glyphs r q : record_kept checks tape p top glyphs r q ->
    record_layout checks tape' p top glyphs r -> shared tape tape' q.
  Proof.
    destruct r as [r|r]; cbn [record_kept record_layout].
    - intros K (_ & a & b & select & array & e & dictionaries & ea & _ & _ & _ & _ & _ & Os & Fs & X & _ & _ & _ & _ & Ps).
      destruct K as [(select' & e' & O & X' & I)|(ops & inner & I & K)].
      + rewrite (operand_unique _ _ _ _ O Os) in I. rewrite (select_faithful _ _ _ _ _ X' X) in I.
        eapply inside_shared; eauto.
      + assert (Ly : private_layout checks tape' p ops inner).
        { clear - Ps I. induction Ps as [|o i os is H Ps IH]; [destruct I|]. cbn in I. destruct I as [E|I]; auto.
          injection E as <- <-. exact H. }
        eapply private_shared; eauto.
    - intros K (_ & Ly). eapply private_shared; eauto.
  Qed.

  Lemma font_shared x q : font_kept checks tape p x q -> font_layout checks tape' p x -> shared tape tape' q.
  Proof.
    intros K (strings & set & code & e & Os & _ & Fe & X & Oc & Sl & Oe & El & Rl).
    destruct K as [(o & e' & O & X' & I)|[(o & e' & O & N & X' & I)|[(o & e' & O & N & X' & I)|K]]].
    - rewrite (operand_unique _ _ _ _ O Os) in I. rewrite (index_faithful _ _ _ X' X) in I. eapply inside_shared; eauto.
    - rewrite (operand_unique _ _ _ _ O Oc) in *. destruct Sl as [[? _]|[[? _]|[[? _]|(_ & e2 & F2 & X2)]]]; try lia.
      rewrite (character_set_faithful _ _ _ _ _ X' X2) in I. eapply inside_shared; eauto.
    - rewrite (operand_unique _ _ _ _ O Oe) in *. destruct El as [[? _]|[[? _]|(_ & e2 & F2 & X2)]]; try lia.
      rewrite (encoding_faithful _ _ _ X' X2) in I. eapply inside_shared; eauto.
    - eapply record_shared; eauto.
  Qed.

  Lemma font_set_shared f : font_set_layout checks tape p f -> font_set_layout checks tape' p f ->
    (forall q, font_set_kept checks tape p f q -> shared tape tape' q) /\
    exists i1 i2 i3 i4 j2 j3 j4 e,
      four_indices checks tape p f i1 i2 i3 i4 /\ four_indices checks tape' p f i1 j2 j3 j4 /\
      i2 = j2 /\ j4 - j3 = i4 - i3 /\ stands tape i3 e /\ stands tape' j3 e /\
      exists e3 e4, e = e3 ++ e4 /\ index_encoding e3 (fs_strings f) /\ index_encoding e4 (fs_subroutines f).
  Proof.
    intros (eh & e1 & e2 & e3 & e4 & ds & fonts & H & Sh & Fi & X1 & X2 & X3 & X4 & _)
      (eh' & e1' & e2' & e3' & e4' & ds' & fonts' & H' & Sh' & Fi' & Y1 & Y2 & Y3 & Y4 & _ & E1 & E2 & E3 & E4 & E5 & Fs).
    rewrite <- (header_faithful _ _ _ H H') in *. rewrite <- (index_faithful _ _ _ X1 Y1) in *.
    rewrite <- (index_faithful _ _ _ X3 Y3) in *. rewrite <- (index_faithful _ _ _ X4 Y4) in *.
    destruct Fi as (i1 & L & St), Fi' as (i1' & L' & St'). rewrite <- (located_unique _ _ _ _ _ L L') in *. clear i1' L'.
    split.
    - intros q [Q|[Q|Q]].
      + destruct H as (b1 & b2 & b3 & b4 & -> & _). eapply stands_shared; [exact Sh|exact Sh'|cbn; lia].
      + destruct Q as (k1 & k2 & k3 & k4 & (d1 & d2 & d3 & d4 & ds2 & Z1 & _ & _ & _ & Lk & _ & Ek & _) & Q).
        rewrite (index_faithful _ _ _ Z1 X1) in *. rewrite (located_unique _ _ _ _ _ Lk L) in *. subst k2.
        apply stands_app_iff in St as [S1 _]. apply stands_app_iff in St' as [S1' _].
        eapply stands_shared; eauto.
      + destruct Q as (i & ops & enc & set & strings & r & N1 & N2 & N3 & N4 & N5 & K).
        rewrite E1, nth_error_map in N1. destruct (nth_error fonts' i) as [x|] eqn:Ex; [|discriminate].
        cbn in N1. injection N1 as <-.
        rewrite E2, nth_error_map, Ex in N2. injection N2 as <-. rewrite E3, nth_error_map, Ex in N3. injection N3 as <-.
        rewrite E4, nth_error_map, Ex in N4. injection N4 as <-. rewrite E5, nth_error_map, Ex in N5. injection N5 as <-.
        assert (Lx : font_layout checks tape' p x) by (rewrite Forall_forall in Fs; apply Fs; eapply nth_error_In; eauto).
        destruct x. eapply font_shared; eauto.
    - exists i1, (i1 + Z.of_nat (length e1)), (i1 + Z.of_nat (length e1) + Z.of_nat (length e2)),
        (i1 + Z.of_nat (length e1) + Z.of_nat (length e2) + Z.of_nat (length e3)), (i1 + Z.of_nat (length e1)),
        (i1 + Z.of_nat (length e1) + Z.of_nat (length e2')),
        (i1 + Z.of_nat (length e1) + Z.of_nat (length e2') + Z.of_nat (length e3)), (e3 ++ e4).
      split; [exists e1, e2, e3, e4, ds; auto 10|]. split; [exists e1, e2', e3, e4, ds'; auto 10|].
      split; [reflexivity|]. split; [lia|].
      apply stands_app_iff in St as [_ St]. apply stands_app_iff in St as [_ St].
      apply stands_app_iff in St' as [_ St']. apply stands_app_iff in St' as [_ St'].
      split; [exact St|]. split; [exact St'|]. exists e3, e4. auto.
  Qed.
End Kept.

Theorem font_set_same_tables cfg tape tape' p f :
  0 <= p -> Z.of_nat (length tape) < 2 ^ 63 -> Z.of_nat (length tape') < 2 ^ 63 ->
  read_font_set cfg tape p = Ok f -> read_font_set cfg tape' p = Ok f ->
  (forall q, font_set_kept (overflow_checks cfg) tape p f q -> shared tape tape' q) /\
  exists i1 i2 i3 i4 j3 j4 e,
    four_indices (overflow_checks cfg) tape p f i1 i2 i3 i4 /\ four_indices (overflow_checks cfg) tape' p f i1 i2 j3 j4 /\
    j4 - j3 = i4 - i3 /\ stands tape i3 e /\ stands tape' j3 e /\
    exists e3 e4, e = e3 ++ e4 /\ index_encoding e3 (fs_strings f) /\ index_encoding e4 (fs_subroutines f).
Proof.
  intros Hp Ht Ht' R R'. apply font_set_iff_closed in R; auto. apply font_set_iff_closed in R'; auto.
  destruct (font_set_shared _ _ _ _ _ R R') as [H (i1 & i2 & i3 & i4 & j2 & j3 & j4 & e & A & B & <- & C & D)].
  split; [exact H|]. exists i1, i2, i3, i4, j3, j4, e. auto.
Qed.

Theorem readers_keep cfg cfg' n n' : 1 <= n < 2 ^ 16 -> 1 <= n' < 2 ^ 16 ->
  kept (read_index cfg) (read_index cfg') /\
  kept (read_character_set cfg n) (read_character_set cfg' n') /\
  kept (read_encoding cfg) (read_encoding cfg') /\
  kept (read_dictionary_encoding cfg n) (read_dictionary_encoding cfg' n') /\
  kept read_header read_header.
Proof.
  intros B B'. split; [|split; [|split; [|split]]].
  - eapply kept_by; [apply read_index_sound..|exact index_faithful].
  - eapply kept_by; [apply read_character_set_sound; unfold sane_count; lia..|apply character_set_faithful].
  - eapply kept_by; [apply read_encoding_sound..|exact encoding_faithful].
  - eapply kept_by; [apply (read_select_sound _ []); lia..|apply select_faithful].
  - eapply kept_by; [apply read_header_sound..|exact header_faithful].
Qed.

(** ** Dictionaries *)

(** A font set whose private dictionary gives Subrs twice. *)
Definition twice (b : byte) : list byte :=
  firstn 21 name_keyed ++ [x8f; xbe] ++ skipn 23 name_keyed ++ [b; x13; x85; x13].

Definition twice_value : font_set :=
  match read_font_set dev_profile (twice x8d) 0 with Ok f => f | _ => name_keyed_value end.

Lemma twice_read b : b = x8d \/ b = x8c -> read_font_set dev_profile (twice b) 0 = Ok twice_value.
Proof. intros [-> | ->]; vm_compute; reflexivity. Qed.

Theorem dictionaries_lost : exists (tape tape' : list byte) (f : font_set) (size offset : Z) (top : operations) (q : Z),
  read_font_set dev_profile tape 0 = Ok f /\ read_font_set dev_profile tape' 0 = Ok f /\
  nth_error (fs_operations f) 0 = Some top /\ operands top Op_Private size offset /\ offset <= q < offset + size /\
  ~ shared tape tape' q.
Proof.
  exists (twice x8d), (twice x8c), twice_value, 4, 51,
    [(Op_Private, [Integer 4; Integer 51]); (Op_Encoding, [Integer 40]); (Op_CharSet, [Integer 36]);
     (Op_CharStrings, [Integer 28])], 51.
  split; [apply twice_read; auto|]. split; [apply twice_read; auto|]. split; [vm_compute; reflexivity|].
  split; [apply need_double_iff; vm_compute; reflexivity|]. split; [lia|].
  intros (b & (_ & r & E) & (_ & r' & E')). vm_compute in E, E'. congruence.
Qed.

(** PartsFacts: the bytes that are asked for are those of the parts of a font set. *)
From Verif Require Import Base Float C1Number C1Operation C1Index C1Glyphs C1FontSet C1Tape C1Plan BaseFacts
  SpecNumber NumberFacts SpecOperation OperationFacts SpecIndex IndexFacts StringFacts SpecGlyphs GlyphFacts
  SpecFontSet FontSetFacts LayoutFacts SpecFile FileFacts SpecTape TapeFacts PlanFacts SpecParts AskFacts.
Local Open Scope list_scope.
Local Open Scope Z_scope.

Lemma stands_length {A} (rd : reader A) enc tape place e e' x x' : complete rd enc ->
  stands tape place e -> stands tape place e' -> enc e x -> enc e' x' -> length e = length e'.
Proof.
  intros Hc (_ & r & E) (_ & r' & E') X X'. apply (Hc _ _ r) in X. apply (Hc _ _ r') in X'.
  rewrite <- E in X. rewrite <- E' in X'. rewrite X in X'. injection X' as _ <-.
  rewrite E in E'. apply app_inv_tail in E'. congruence.
Qed.

Lemma asked_pure {A B} tape (o : outcome A) (k : A -> plan B) a : o = Ok a ->
  asked tape (thereafter (Done o) k) = asked tape (k a).
Proof. intros ->. reflexivity. Qed.

Lemma asked_then {A B} tape (m : plan A) (k : A -> plan B) a : result tape m = Ok a ->
  asked tape (thereafter m k) = asked tape m ++ asked tape (k a).
Proof. intros E. rewrite asked_thereafter, E. reflexivity. Qed.

Lemma result_then {A B} tape (m : plan A) (k : A -> plan B) b : result tape (thereafter m k) = Ok b ->
  exists a, result tape m = Ok a /\ result tape (k a) = Ok b.
Proof. rewrite result_thereafter. apply bind_iff. Qed.

Section At.
  Context (cfg : config) (tape : list byte) (p : Z).
  Context (Hp : 0 <= p) (Ht : Z.of_nat (length tape) < 2 ^ 63).
  Let checks := overflow_checks cfg.

  Lemma span_iff {A} l x (pl : planner A) rd enc here a there :
    linear l x pl -> agrees pl rd -> sound rd enc -> complete rd enc -> 0 <= here ->
    result tape (pl here) = Ok (a, there) ->
    exists e, enc e a /\ stands tape here e /\ there = here + Z.of_nat (length e) /\
      forall q, In q (asked tape (pl here)) <-> here <= q < here + Z.of_nat (length e).
  Proof.
    intros Hl Ha Hs Hc N R. destruct (Hl tape here N) as (n & _ & Q & H). rewrite R in H. destruct H as (_ & E & _).
    rewrite (proj2 Ha) in R by assumption. apply (taken_iff _ enc) in R as (e & S & X & E'); auto.
    exists e. repeat (split; [assumption|]). intros q. rewrite Q. lia.
  Qed.

  Lemma part_iff {A} l x (pl : planner A) rd enc offset here a there :
    linear l x pl -> agrees pl rd -> sound rd enc -> complete rd enc ->
    jumped cfg p offset = Ok here -> result tape (pl here) = Ok (a, there) ->
    forall q, (In q (asked tape (pl here)) <-> exists e, enc e a /\ inside checks tape p offset e q) /\
      (In q (asked tape (pl here)) <-> exists a' e, enc e a' /\ inside checks tape p offset e q).
  Proof.
    intros Hl Ha Hs Hc J R q. apply (jumped_iff _ _ _ _ Hp) in J. pose proof (located_nonneg _ _ _ _ J) as N.
    destruct (span_iff l x pl rd enc here a there Hl Ha Hs Hc N R) as (e & X & St & _ & Q). rewrite Q.
    assert (F : here <= q < here + Z.of_nat (length e) -> inside checks tape p offset e q) by (intros H; exists here; auto).
    assert (B : forall e' a', enc e' a' -> inside checks tape p offset e' q -> here <= q < here + Z.of_nat (length e)).
    { intros e' a' X' (start & L & S' & H). rewrite <- (located_unique _ _ _ _ _ J L) in *.
      rewrite (stands_length rd enc tape here e e' a a'); auto. }
    split; split.
    - intros H. eauto.
    - intros (e' & X' & I). eauto.
    - intros H. eauto.
    - intros (a' & e' & X' & I). eauto.
  Qed.

  Lemma private_parts top r there : bounded top -> result tape (private_plan cfg p top) = Ok (r, there) ->
    forall q, In q (asked tape (private_plan cfg p top)) <-> private_part checks tape p top r q.
  Proof.
    intros Bt H q. unfold private_plan in *.
    apply result_then in H as ([size offset] & D & H). rewrite (asked_pure _ _ _ _ D). cbn [fst carried_out] in D.
    apply need_double_iff in D. destruct (bounded_double _ _ _ _ Bt D) as [B1 B2].
    apply result_then in H as (here & J & H). rewrite (asked_pure _ _ _ _ J). cbn [fst carried_out] in J.
    apply result_then in H as ([chunk h1] & C & H). rewrite (asked_then _ _ _ _ C).
    pose proof (jumped_nonneg _ _ _ _ Hp J) as N.
    assert (V : linear 0 0 (vec_plan cfg 1 byte_plan (as_usize size))).
    { apply linear_vec. eapply linear_weaken; [| |apply linear_byte]; lia. }
    destruct (V tape here N) as (n & _ & Q & E). rewrite C in E. destruct E as (_ & E & _).
    rewrite (proj2 (vec_agrees cfg 1 byte_plan take_byte _ (as_usize size) byte_agrees take_byte_sound
      ltac:(intros ? ? ->; discriminate))) in C by assumption.
    unfold taken in C. apply bind_iff in C as ([chunk' r'] & T & E'). injection E' as -> E'.
    assert (J' : jump cfg tape p offset = Ok (rest_at tape here)) by (rewrite jump_jumped, J; reflexivity).
    destruct (read_chunk cfg tape p Hp Ht _ _ _ _ _ B1 J' T) as (_ & Es & L). rewrite Es, app_length in E'.
    apply jumped_iff in J; auto.
    assert (St : stands tape here chunk).
    { split; auto. exists r'. rewrite <- rest_at_skipn by assumption. auto. }
    assert (P1 : In q (asked tape (vec_plan cfg 1 byte_plan (as_usize size) here)) <->
                 exists chunk, Z.of_nat (length chunk) = size /\ inside checks tape p offset chunk q).
    { rewrite Q. split.
      - intros I. exists chunk. split; auto. exists here. repeat (split; [assumption|]). lia.
      - intros (c & Lc & start & Ls & _ & I). rewrite <- (located_unique _ _ _ _ _ J Ls) in I. lia. }
    apply result_then in H as (ops & O & H). rewrite (asked_pure _ _ _ _ O).
    apply result_then in H as (another & An & H). rewrite (asked_pure _ _ _ _ An). cbn [fst carried_out] in An.
    apply try_single_iff in An. rewrite in_app_iff, P1. destruct another as [another|].
    - apply result_then in H as (sum & S & H). rewrite (asked_pure _ _ _ _ S). cbn [fst carried_out] in S.
      apply add_i32_iff in S.
      apply result_then in H as (here' & J2 & H). rewrite (asked_pure _ _ _ _ J2). cbn [fst carried_out] in J2.
      apply result_then in H as ([x h2] & X & H). rewrite (asked_then _ _ _ _ X). cbn [carried_out snd]. rewrite app_nil_r.
      cbn [carried_out fst] in H. injection H as <- <-.
      rewrite (proj1 (part_iff 1 0 _ _ _ _ _ _ _ (linear_index cfg) (index_agrees cfg) (read_index_sound cfg)
                 (read_index_complete cfg) J2 X q)).
      unfold private_part. cbn [private_operations private_subroutines]. split.
      + intros [I|(e & X1 & I)]; exists size, offset; (split; [assumption|]); [left; exact I|right].
        exists another, sum, e. auto.
      + intros (size' & offset' & D' & I). destruct (operands_unique _ _ _ _ _ _ D D') as [<- <-].
        destruct I as [I|(another' & sum' & e & O' & S' & X1 & I)]; [left; exact I|right].
        exists e. split; auto. rewrite <- (operand_unique _ _ _ _ An O') in S'.
        destruct S as (-> & _), S' as (-> & _). exact I.
    - cbn [carried_out fst] in H. injection H as <- <-. cbn [carried_out snd In].
      unfold private_part. cbn [private_operations private_subroutines]. split.
      + intros [I|[]]. exists size, offset. auto.
      + intros (size' & offset' & D' & I). destruct (operands_unique _ _ _ _ _ _ D D') as [<- <-].
        destruct I as [I|(another' & sum' & e & O' & _)]; [left; exact I|].
        exfalso. exact (operand_some _ _ _ O' An).
  Qed.

  Lemma privates_parts tops : Forall bounded tops -> forall here rs there,
    result tape (privates_plan cfg p here tops) = Ok (rs, there) ->
    forall q, In q (asked tape (privates_plan cfg p here tops)) <->
      exists top r, In (top, r) (combine tops rs) /\ private_part checks tape p top r q.
  Proof.
    induction 1 as [|top tops B _ IH]; intros here rs there H q; cbn [privates_plan] in *.
    - cbn in H. injection H as <- <-. cbn. split; [tauto|]. intros (? & ? & [] & _).
    - apply result_then in H as ([r h1] & R & H). rewrite (asked_then _ _ _ _ R).
      apply result_then in H as ([rs' h2] & Rs & H). rewrite (asked_then _ _ _ _ Rs). cbn [carried_out fst snd] in *.
      injection H as <- <-. rewrite !in_app_iff, (private_parts _ _ _ B R), (IH _ _ _ Rs). cbn [In combine]. split.
      + intros [I|[(o & x & I & P)|[]]]; [exists top, r; auto|exists o, x; auto].
      + intros (o & x & [E|I] & P); [injection E as <- <-; auto|]. right. left. eauto.
  Qed.

  Lemma record_parts top cs r there : bounded top -> 0 <= count cs < 2 ^ 62 ->
    result tape (record_plan cfg p top cs) = Ok (r, there) ->
    forall q, In q (asked tape (record_plan cfg p top cs)) <-> record_part checks tape p top (count cs) r q.
  Proof.
    intros Bt G H q. unfold record_plan in *. destruct (map_contains top Op_ROS).
    - apply result_then in H as ([c h1] & C & H). rewrite (asked_then _ _ _ _ C). cbn [carried_out fst snd] in *.
      injection H as <- <-. rewrite app_nil_r. cbn [record_part]. unfold cid_plan in *.
      destruct (operations_get top Op_ROS) as [[|a [|b [|d [|]]]]|]; try discriminate. rename C into H.
      apply result_then in H as (select & S & H). rewrite (asked_pure _ _ _ _ S). cbn [fst carried_out] in S.
      apply need_single_iff in S.
      apply result_then in H as (here & J & H). rewrite (asked_pure _ _ _ _ J). cbn [fst carried_out] in J.
      apply result_then in H as ([enc h2] & E & H). rewrite (asked_then _ _ _ _ E).
      apply result_then in H as (array & A & H). rewrite (asked_pure _ _ _ _ A). cbn [fst carried_out] in A.
      apply need_single_iff in A.
      apply result_then in H as (here2 & J2 & H). rewrite (asked_pure _ _ _ _ J2). cbn [fst carried_out] in J2.
      apply result_then in H as ([ds h3] & D & H). rewrite (asked_then _ _ _ _ D).
      apply result_then in H as (opss & O & H). rewrite (asked_pure _ _ _ _ O). cbn [fst carried_out] in O.
      apply tables_iff in O.
      apply result_then in H as ([rs h4] & R & H). rewrite (asked_then _ _ _ _ R).
      apply result_then in H as (i1 & I1 & H). rewrite (asked_pure _ _ _ _ I1).
      apply result_then in H as (i2 & I2 & H). rewrite (asked_pure _ _ _ _ I2).
      cbn [carried_out fst snd] in H |- *. injection H as <- <-. cbn [cid_encoding cid_operations cid_records].
      rewrite app_nil_r, !in_app_iff.
      rewrite (proj1 (part_iff 1 1 _ _ _ _ _ _ _ (linear_dictionary_encoding cfg _) (dictionary_encoding_agrees cfg _)
        (read_select_sound cfg tape _ (proj1 G)) (read_select_complete cfg tape _ G) J E q)).
      rewrite (proj2 (part_iff 1 0 _ _ _ _ _ _ _ (linear_index cfg) (index_agrees cfg)
        (read_index_sound cfg) (read_index_complete cfg) J2 D q)).
      rewrite (privates_parts opss (dictionaries_bounded _ _ O) _ _ _ R). split.
      + intros [(e & X & I)|[(ds' & e & X & I)|I]]; [left; exists select, e; auto|right; left; exists array, e, ds'; auto|right; right; exact I].
      + intros [(select' & e & S' & X & I)|[(array' & e & ds' & A' & X & I)|I]]; [left|right; left|right; right; exact I].
        * rewrite <- (operand_unique _ _ _ _ S S') in I. eauto.
        * rewrite <- (operand_unique _ _ _ _ A A') in I. eauto.
    - apply result_then in H as ([r' h1] & R & H). rewrite (asked_then _ _ _ _ R). cbn [carried_out fst snd] in *.
      injection H as <- <-. rewrite app_nil_r. exact (private_parts _ _ _ Bt R q).
  Qed.

  Lemma font_parts i ops g g' there : bounded ops -> length (character_strings g) = i ->
    result tape (font_plan cfg p i ops g) = Ok (g', there) ->
    exists x, font_operations x = ops /\ g' = push g x /\
      forall q, In q (asked tape (font_plan cfg p i ops g)) <-> font_part checks tape p x q.
  Proof.
    intros B Li H. unfold font_plan in *.
    apply result_then in H as (strings & S & H). rewrite (asked_pure _ _ _ _ S). cbn [fst carried_out] in S.
    apply need_single_iff in S.
    apply result_then in H as (here & J & H). rewrite (asked_pure _ _ _ _ J). cbn [fst carried_out] in J.
    apply result_then in H as (format & F & H). rewrite (asked_pure _ _ _ _ F). cbn [fst carried_out] in F.
    apply result_then in H as ([cs h1] & C & H). rewrite (asked_then _ _ _ _ C).
    unfold character_strings_plan in *. destruct (Z.eqb_spec format 2) as [->|]; [|discriminate].
    pose proof (part_iff 1 0 _ _ _ _ _ _ _ (linear_index cfg) (index_agrees cfg)
      (read_index_sound cfg) (read_index_complete cfg) J C) as P1.
    assert (G : 0 <= count cs < 2 ^ 62).
    { pose proof (jumped_nonneg _ _ _ _ Hp J) as N.
      destruct (span_iff 1 0 _ _ _ _ _ _ (linear_index cfg) (index_agrees cfg) (read_index_sound cfg)
        (read_index_complete cfg) N C) as (e & X & _). destruct (index_count _ _ X). lia. }
    assert (Ni : nth_error (character_strings g ++ [cs]) i = Some cs).
    { rewrite nth_error_app2 by lia. replace (i - _)%nat with 0%nat by lia. reflexivity. }
    apply result_then in H as (so & So & H). rewrite (asked_pure _ _ _ _ So). cbn [fst carried_out] in So.
    apply need_single_iff in So. rewrite Ni in H |- *.
    apply result_then in H as ([set h2] & Se & H). rewrite (asked_then _ _ _ _ Se).
    apply result_then in H as (eo & Eo & H). rewrite (asked_pure _ _ _ _ Eo). cbn [fst carried_out] in Eo.
    apply need_single_iff in Eo.
    apply result_then in H as ([enc h3] & En & H). rewrite (asked_then _ _ _ _ En).
    apply result_then in H as ([r h4] & R & H). rewrite (asked_then _ _ _ _ R).
    cbn [carried_out fst snd] in H |- *. injection H as <- <-.
    exists {| font_operations := ops; font_encoding := enc; font_character_set := set;
              font_character_strings := cs; font_record := r |}.
    split; [reflexivity|]. split; [reflexivity|]. intros q.
    rewrite app_nil_r, !in_app_iff, (proj1 (P1 q)), (record_parts _ _ _ _ B G R).
    unfold font_part. cbn [font_operations font_encoding font_character_set font_character_strings font_record].
    match goal with |- _ \/ ?a \/ ?b \/ ?c <-> _ \/ ?a' \/ ?b' \/ ?c' => assert (K1 : a <-> a'); [|assert (K2 : b <-> b')] end.
    { destruct (Z.eqb_spec so 0) as [->|N0]; [cbn; split; [tauto|]; intros (so' & e & O & N & _);
        rewrite <- (operand_unique _ _ _ _ So O) in N; lia|].
      destruct (Z.eqb_spec so 1) as [->|N1]; [cbn; split; [tauto|]; intros (so' & e & O & N & _);
        rewrite <- (operand_unique _ _ _ _ So O) in N; lia|].
      destruct (Z.eqb_spec so 2) as [->|N2]; [cbn; split; [tauto|]; intros (so' & e & O & N & _);
        rewrite <- (operand_unique _ _ _ _ So O) in N; lia|].
      apply result_then in Se as (here2 & J2 & Se). rewrite (asked_pure _ _ _ _ J2). cbn [fst carried_out] in J2.
      destruct (Z.eq_dec (count cs) 0) as [Z0|NZ].
      { exfalso. rewrite (proj2 (character_set_agrees cfg _)) in Se by (eapply jumped_nonneg; eauto).
        unfold taken in Se. apply bind_iff in Se as ([c rest] & Rd & _). rewrite Z0 in Rd.
        eapply (read_character_set_zero cfg tape); [|exact Rd].
        pose proof (WeightFacts.rest_at_length tape here2). lia. }
      assert (Sn : sane_count (count cs)) by (unfold sane_count; lia).
      rewrite (proj1 (part_iff 1 1 _ _ _ _ _ _ _ (linear_character_set cfg _) (character_set_agrees cfg _)
        (read_character_set_sound cfg _ Sn) (read_character_set_complete cfg _ Sn) J2 Se q)). split.
      - intros (e & X & I). exists so, e. repeat split; auto. lia.
      - intros (so' & e & O & _ & X & I). rewrite <- (operand_unique _ _ _ _ So O) in I. eauto. }
    { destruct (Z.eqb_spec eo 0) as [->|N0]; [cbn; split; [tauto|]; intros (eo' & e & O & N & _);
        rewrite <- (operand_unique _ _ _ _ Eo O) in N; lia|].
      destruct (Z.eqb_spec eo 1) as [->|N1]; [cbn; split; [tauto|]; intros (eo' & e & O & N & _);
        rewrite <- (operand_unique _ _ _ _ Eo O) in N; lia|].
      apply result_then in En as (here2 & J2 & En). rewrite (asked_pure _ _ _ _ J2). cbn [fst carried_out] in J2.
      rewrite (proj1 (part_iff 1 1 _ _ _ _ _ _ _ (linear_encoding cfg) (encoding_agrees cfg)
        (read_encoding_sound cfg) (read_encoding_complete cfg) J2 En q)). split.
      - intros (e & X & I). exists eo, e. repeat split; auto. lia.
      - intros (eo' & e & O & _ & X & I). rewrite <- (operand_unique _ _ _ _ Eo O) in I. eauto. }
    rewrite K1, K2. split; (intros [I|I]; [left|right; exact I]).
    - destruct I as (e & X & I). eauto.
    - destruct I as (o & e & O & X & I). rewrite <- (operand_unique _ _ _ _ S O) in I. eauto.
  Qed.

  Lemma fonts_parts opss : Forall bounded opss -> forall here i g g' there, length (character_strings g) = i ->
    result tape (fonts_plan cfg p here i opss g) = Ok (g', there) ->
    exists xs, map font_operations xs = opss /\ g' = fold_left push xs g /\
      forall q, In q (asked tape (fonts_plan cfg p here i opss g)) <-> exists x, In x xs /\ font_part checks tape p x q.
  Proof.
    induction 1 as [|ops opss B _ IH]; intros here i g g' there L H; cbn [fonts_plan] in *.
    - cbn in H. injection H as <- <-. exists []. split; [reflexivity|]. split; [reflexivity|].
      intros q. cbn. split; [tauto|]. intros (x & [] & _).
    - apply result_then in H as ([g1 h1] & F & H). destruct (font_parts _ _ _ _ _ B L F) as (x & <- & -> & P).
      assert (L' : length (character_strings (push g x)) = S i) by (cbn [push character_strings]; rewrite app_length; cbn; lia).
      destruct (IH _ _ _ _ _ L' H) as (xs & <- & -> & Q). exists (x :: xs). split; [reflexivity|]. split; [reflexivity|].
      intros q. rewrite (asked_then _ _ _ _ F), in_app_iff, P, Q. cbn [In]. split.
      + intros [I|(y & I & Y)]; eauto.
      + intros (y & [->|I] & Y); eauto.
  Qed.

  Lemma stands_app place e e' : stands tape place e -> stands tape (place + Z.of_nat (length e)) e' -> stands tape place (e ++ e').
  Proof.
    clear. intros (N & r & E) (_ & r' & E'). split; auto. exists r'.
    replace (Z.to_nat (place + Z.of_nat (length e))) with (length e + Z.to_nat place)%nat in E' by lia.
    rewrite skipn_add, E, skipn_app, skipn_all, Nat.sub_diag in E'. cbn in E'. rewrite E, E', app_assoc. reflexivity.
  Qed.

  Lemma font_set_parts f there : result tape (font_set_plan cfg p) = Ok (f, there) ->
    forall q, In q (asked tape (font_set_plan cfg p)) <-> font_set_part checks tape p f q.
  Proof.
    intros H q. unfold font_set_plan in *.
    apply result_then in H as ([h h0] & Hd & H). rewrite (asked_then _ _ _ _ Hd).
    destruct (span_iff 1 0 _ _ _ _ _ _ linear_header header_agrees read_header_sound read_header_complete Hp Hd)
      as (eh & Xh & _ & _ & Qh).
    assert (Lh : length eh = 4%nat) by (destruct Xh as (? & ? & ? & ? & -> & _); reflexivity).
    apply result_then in H as (here & J & H). rewrite (asked_pure _ _ _ _ J). cbn [fst carried_out] in J.
    pose proof (jumped_nonneg _ _ _ _ Hp J) as N. apply (jumped_iff _ _ _ _ Hp) in J.
    pose proof (fun here x there => span_iff 1 0 _ _ _ here x there (linear_index cfg) (index_agrees cfg)
      (read_index_sound cfg) (read_index_complete cfg)) as Sp.
    apply result_then in H as ([names h1] & T1 & H). rewrite (asked_then _ _ _ _ T1).
    destruct (Sp _ _ _ N T1) as (e1 & X1 & S1 & -> & Q1).
    apply result_then in H as ([ds h2] & T2 & H). rewrite (asked_then _ _ _ _ T2).
    destruct (Sp (here + Z.of_nat (length e1)) _ _ ltac:(lia) T2) as (e2 & X2 & S2 & -> & Q2).
    apply result_then in H as (opss & D & H). rewrite (asked_pure _ _ _ _ D). cbn [fst carried_out] in D.
    apply tables_iff in D.
    apply result_then in H as ([strings h3] & T3 & H). rewrite (asked_then _ _ _ _ T3).
    destruct (Sp (here + Z.of_nat (length e1) + Z.of_nat (length e2)) _ _ ltac:(lia) T3) as (e3 & X3 & S3 & -> & Q3).
    apply result_then in H as ([subrs h4] & T4 & H). rewrite (asked_then _ _ _ _ T4).
    destruct (Sp (here + Z.of_nat (length e1) + Z.of_nat (length e2) + Z.of_nat (length e3)) _ _ ltac:(lia) T4) as (e4 & X4 & S4 & -> & Q4).
    apply result_then in H as ([g h5] & Fo & H). rewrite (asked_then _ _ _ _ Fo).
    cbn [carried_out fst snd] in H |- *. injection H as <- <-.
    destruct (fonts_parts opss (dictionaries_bounded _ _ D) _ 0
      {| encodings := []; character_sets := []; character_strings := []; records := [] |} _ _ eq_refl Fo) as (xs & <- & -> & Qf).
    destruct (pushed xs {| encodings := []; character_sets := []; character_strings := []; records := [] |})
      as (P1 & P2 & P3 & P4). rewrite P1, P2, P3, P4. cbn [encodings character_sets character_strings records app].
    unfold font_set_part. cbn [fs_header fs_names fs_operations fs_strings fs_subroutines fs_encodings
      fs_character_strings fs_character_sets fs_records].
    rewrite app_nil_r, !in_app_iff, Qh, Q1, Q2, Q3, Q4, Qf, Lh.
    assert (St : stands tape here (e1 ++ e2 ++ e3 ++ e4)) by (repeat (apply stands_app; auto)).
    assert (K : (exists e1 e2 e3 e4 dictionaries,
     index_encoding e1 names /\ index_encoding e2 dictionaries /\
     index_encoding e3 strings /\ index_encoding e4 subrs /\
     inside checks tape p (header_size h) (e1 ++ e2 ++ e3 ++ e4) q) <->
      here <= q < here + Z.of_nat (length (e1 ++ e2 ++ e3 ++ e4))).
    { split.
      - intros (e1' & e2' & e3' & e4' & ds' & X1' & X2' & X3' & X4' & s & Ls & S' & I).
        rewrite <- (located_unique _ _ _ _ _ J Ls) in *.
        destruct St as (_ & t & St), S' as (_ & t' & S'). rewrite St in S'. rewrite <- !app_assoc in S'.
        assert (K : forall e x t e' x' t', index_encoding e x -> index_encoding e' x' -> e ++ t = e' ++ t' ->
                    length e = length e' /\ t = t').
        { clear. intros e x t e' x' t' X X' E. apply (read_index_complete dev_profile _ _ t) in X.
          apply (read_index_complete dev_profile _ _ t') in X'. rewrite E, X' in X. injection X as _ ->.
          apply app_inv_tail in E. subst. auto. }
        destruct (K _ _ _ _ _ _ X1 X1' S') as [L1 S1']. destruct (K _ _ _ _ _ _ X2 X2' S1') as [L2 S2'].
        destruct (K _ _ _ _ _ _ X3 X3' S2') as [L3 S3']. destruct (K _ _ _ _ _ _ X4 X4' S3') as [L4 _].
        rewrite !app_length in *. lia.
      - intros I. exists e1, e2, e3, e4, ds. repeat (split; [assumption|]). exists here. auto. }
    rewrite K, !app_length.
    assert (Fs : (exists x, In x xs /\ font_part checks tape p x q) <->
      exists i ops enc set cs r,
        nth_error (map font_operations xs) i = Some ops /\ nth_error (map font_encoding xs) i = Some enc /\
        nth_error (map font_character_set xs) i = Some set /\
        nth_error (map font_character_strings xs) i = Some cs /\ nth_error (map font_record xs) i = Some r /\
        font_part checks tape p {| font_operations := ops; font_encoding := enc; font_character_set := set;
          font_character_strings := cs; font_record := r |} q).
    { split.
      - intros (x & I & F). apply In_nth_error in I as (i & I).
        exists i, (font_operations x), (font_encoding x), (font_character_set x), (font_character_strings x), (font_record x).
        rewrite !nth_error_map, I. repeat (split; [reflexivity|]). destruct x. exact F.
      - intros (i & o & en & se & cs & r & E1 & E2 & E3 & E4 & E5 & F). rewrite nth_error_map in *.
        destruct (nth_error xs i) as [x|] eqn:I; [|discriminate]. cbn in *.
        injection E1 as <-. injection E2 as <-. injection E3 as <-. injection E4 as <-. injection E5 as <-.
        exists x. split; [eapply nth_error_In; eauto|]. destruct x. exact F. }
    rewrite <- Fs. cbn [Z.of_nat]. change (Z.of_nat 4) with 4.
    split.
    - intros [I|[I|[I|[I|[I|I]]]]]; [left; lia|right; left; lia|right; left; lia|right; left; lia|right; left; lia|right; right; exact I].
    - intros [I|[I|I]]; [left; lia| |do 5 right; exact I].
      destruct (Z_lt_ge_dec q (here + Z.of_nat (length e1))); [right; left; lia|].
      destruct (Z_lt_ge_dec q (here + Z.of_nat (length e1) + Z.of_nat (length e2))); [do 2 right; left; lia|].
      destruct (Z_lt_ge_dec q (here + Z.of_nat (length e1) + Z.of_nat (length e2) + Z.of_nat (length e3)));
        [do 3 right; left; lia|do 4 right; left; lia].
  Qed.
End At.

(** Bytes on two tapes. *)
Lemma byte_at_stands tape q b : 0 <= q -> byte_at tape q = Some b <-> stands tape q [b].
Proof.
  intros Hq. unfold byte_at, stands. rewrite rest_at_skipn by assumption. split.
  - intros H. split; auto. destruct (skipn (Z.to_nat q) tape) as [|c s]; [discriminate|].
    injection H as ->. exists s. reflexivity.
  - intros (_ & rest & ->). reflexivity.
Qed.

Lemma same_byte_at tape tape' q : 0 <= q -> same_byte tape tape' q -> byte_at tape' q = byte_at tape q.
Proof.
  intros Hq H. destruct (byte_at tape q) as [b|] eqn:E.
  - apply byte_at_stands, H, byte_at_stands; assumption.
  - destruct (byte_at tape' q) as [b|] eqn:E'; auto.
    apply (byte_at_stands _ _ _ Hq), H, (byte_at_stands _ _ _ Hq) in E'. congruence.
Qed.

(** ** Only places of a tape are asked for *)

Definition sensible {A} tape (m : plan A) : Prop := forall q, In q (asked tape m) -> 0 <= q.

Lemma sensible_bind {A B} tape (m : plan A) (k : A -> plan B) : sensible tape m ->
  (forall a, result tape m = Ok a -> sensible tape (k a)) -> sensible tape (thereafter m k).
Proof.
  intros H1 H2 q. rewrite asked_thereafter, in_app_iff. intros [I|I]; [exact (H1 _ I)|].
  destruct (result tape m) as [a| | |]; [|destruct I..]. exact (H2 a eq_refl _ I).
Qed.

Lemma sensible_done {A} tape (o : outcome A) : sensible tape (Done o).
Proof. intros q []. Qed.

Lemma sensible_linear {A} tape l x (pl : planner A) here : linear l x pl -> 0 <= here -> sensible tape (pl here).
Proof. intros H N q I. destruct (H tape here N) as (n & _ & Q & _). apply Q in I. lia. Qed.

Section Sensible.
  Context (cfg : config) (tape : list byte) (p : Z) (Hp : 0 <= p).

  Ltac pure := apply sensible_bind; [apply sensible_done|]; cbn [carried_out fst].
  Ltac here := eapply jumped_nonneg; [exact Hp|eassumption].

  Lemma private_sensible top : sensible tape (private_plan cfg p top).
  Proof.
    unfold private_plan. pure. intros (size & offset) _. pure. intros here J. apply sensible_bind.
    { apply (sensible_linear tape 0 0); [|here]. apply linear_vec. eapply linear_weaken; [| |apply linear_byte]; lia. }
    intros (chunk & h1) _. pure. intros ops _. pure. intros [another|] _; [|apply sensible_done].
    pure. intros sum _. pure. intros here2 J2. apply sensible_bind; [|intros (x & h2) _; apply sensible_done].
    apply (sensible_linear tape 1 0); [apply linear_index|here].
  Qed.

  Lemma privates_sensible tops : forall here, sensible tape (privates_plan cfg p here tops).
  Proof.
    induction tops as [|top tops IH]; intros here; cbn [privates_plan]; [apply sensible_done|].
    apply sensible_bind; [apply private_sensible|]. intros (r & h1) _.
    apply sensible_bind; [apply IH|]. intros (rs & h2) _. apply sensible_done.
  Qed.

  Lemma record_sensible top cs : sensible tape (record_plan cfg p top cs).
  Proof.
    unfold record_plan. destruct (map_contains top Op_ROS);
      (apply sensible_bind; [|intros (r & h) _; apply sensible_done]); [|apply private_sensible].
    unfold cid_plan. destruct (operations_get top Op_ROS) as [[|a [|b [|d [|]]]]|]; try apply sensible_done.
    pure. intros o1 _. pure. intros here J.
    apply sensible_bind; [apply (sensible_linear tape 1 1); [apply linear_dictionary_encoding|here]|].
    intros (e & h1) _. pure. intros o2 _. pure. intros here2 J2.
    apply sensible_bind; [apply (sensible_linear tape 1 0); [apply linear_index|here]|].
    intros (ds & h2) _. pure. intros opss _. apply sensible_bind; [apply privates_sensible|].
    intros (rs & h3) _. pure. intros r _. pure. intros o _. apply sensible_done.
  Qed.

  Lemma font_sensible i ops g : sensible tape (font_plan cfg p i ops g).
  Proof.
    unfold font_plan. pure. intros o1 _. pure. intros here J. pure. intros format _.
    apply sensible_bind; [apply (sensible_linear tape 1 0); [apply linear_character_strings|here]|].
    intros (cs & h1) _. pure. intros o2 _. apply sensible_bind.
    { destruct (Z.eqb o2 0); [apply sensible_done|]. destruct (Z.eqb o2 1); [apply sensible_done|].
      destruct (Z.eqb o2 2); [apply sensible_done|].
      pure. intros here2 J2. destruct (nth_error _ i); [|apply sensible_done].
      apply (sensible_linear tape 1 1); [apply linear_character_set|here]. }
    intros (set & h2) _. pure. intros o3 _. apply sensible_bind.
    { destruct (Z.eqb o3 0); [apply sensible_done|]. destruct (Z.eqb o3 1); [apply sensible_done|].
      pure. intros here2 J2. apply (sensible_linear tape 1 1); [apply linear_encoding|here]. }
    intros (enc & h3) _. destruct (nth_error _ i); [|apply sensible_done]. apply sensible_bind; [apply record_sensible|].
    intros (r & h4) _. apply sensible_done.
  Qed.

  Lemma fonts_sensible opss : forall here i g, sensible tape (fonts_plan cfg p here i opss g).
  Proof.
    induction opss as [|ops opss IH]; intros here i g; cbn [fonts_plan]; [apply sensible_done|].
    apply sensible_bind; [apply font_sensible|]. intros (g' & h) _. apply IH.
  Qed.

  Lemma index_sensible here : 0 <= here -> sensible tape (index_plan cfg here) /\
    forall x there, result tape (index_plan cfg here) = Ok (x, there) -> 0 <= there.
  Proof.
    intros N. split; [apply (sensible_linear tape 1 0); auto using linear_index|]. intros x there E.
    destruct (linear_index cfg tape here N) as (n & _ & _ & R). rewrite E in R. lia.
  Qed.

  Lemma font_set_sensible : sensible tape (font_set_plan cfg p).
  Proof.
    unfold font_set_plan. apply sensible_bind; [apply (sensible_linear tape 1 0); auto using linear_header|]. intros (h & h0) _.
    pure. intros here J. pose proof (jumped_nonneg _ _ _ _ Hp J) as N.
    destruct (index_sensible _ N) as [I1 E1]. apply sensible_bind; [exact I1|]. intros (names & h1) R1. apply E1 in R1.
    destruct (index_sensible _ R1) as [I2 E2]. apply sensible_bind; [exact I2|]. intros (ds & h2) R2. apply E2 in R2.
    pure. intros opss _.
    destruct (index_sensible _ R2) as [I3 E3]. apply sensible_bind; [exact I3|]. intros (strings & h3) R3. apply E3 in R3.
    destruct (index_sensible _ R3) as [I4 E4]. apply sensible_bind; [exact I4|]. intros (subrs & h4) _.
    apply sensible_bind; [apply fonts_sensible|]. intros (g & h5) _. apply sensible_done.
  Qed.

  Lemma count_sensible : sensible tape (count_plan cfg p).
  Proof.
    unfold count_plan. apply sensible_bind; [apply (sensible_linear tape 1 0); auto using linear_header|]. intros (h & h0) _.
    pure. intros here J. apply (sensible_linear tape 1 0); [apply linear_u16|here].
  Qed.
End Sensible.

Lemma same_same {A} tape tape' (m : plan A) : sensible tape m -> (forall q, In q (asked tape m) -> same_byte tape tape' q) ->
  carried_out tape' m = carried_out tape m.
Proof. intros S H. apply carried_same. intros q I. apply same_byte_at; [exact (S q I)|exact (H q I)]. Qed.

Lemma font_set_same cfg tape tape' p : 0 <= p ->
  (forall q, In q (asked tape (font_set_plan cfg p)) -> same_byte tape tape' q) ->
  carried_out tape' (font_set_plan cfg p) = carried_out tape (font_set_plan cfg p).
Proof. intros Hp. apply same_same, font_set_sensible, Hp. Qed.

Lemma count_same cfg tape tape' p : 0 <= p ->
  (forall q, In q (asked tape (count_plan cfg p)) -> same_byte tape tape' q) ->
  carried_out tape' (count_plan cfg p) = carried_out tape (count_plan cfg p).
Proof. intros Hp. apply same_same, count_sensible, Hp. Qed.

Lemma font_set_elsewhere cfg tape tape' p f : 0 <= p -> Z.of_nat (length tape) < 2 ^ 63 ->
  read_font_set cfg tape p = Ok f ->
  (forall q, font_set_part (overflow_checks cfg) tape p f q -> same_byte tape tape' q) ->
  read_font_set cfg tape' p = Ok f.
Proof.
  intros Hp Ht R H. rewrite <- font_set_agrees in R |- * by assumption.
  rewrite <- font_set_plan_agrees in R |- * by assumption.
  destruct (result tape (font_set_plan cfg p)) as [[f' there]| | |] eqn:E; try discriminate. injection R as ->.
  rewrite (font_set_same cfg tape); [rewrite E; reflexivity|assumption|].
  intros q I. apply H. apply (font_set_parts cfg tape p Hp Ht _ _ E). exact I.
Qed.

Lemma count_places cfg tape p n place : 0 <= p -> result tape (count_plan cfg p) = Ok (n, place) ->
  exists b start, stands tape (p + 2) [b] /\ located (overflow_checks cfg) p (bz b) start /\
    forall q, In q (asked tape (count_plan cfg p)) <-> p <= q < p + 4 \/ start <= q < start + 2.
Proof.
  intros Hp H. unfold count_plan in *.
  apply result_then in H as ([h h0] & Hd & H). rewrite (asked_then _ _ _ _ Hd).
  destruct (span_iff tape 1 0 _ _ _ _ _ _ linear_header header_agrees read_header_sound read_header_complete Hp Hd)
    as (eh & Xh & Sh & _ & Qh).
  apply result_then in H as (here & J & H). rewrite (asked_pure _ _ _ _ J). cbn [fst carried_out] in J.
  pose proof (jumped_nonneg _ _ _ _ Hp J) as N. apply (jumped_iff _ _ _ _ Hp) in J.
  destruct (linear_u16 tape here N) as (k & _ & Q & R). rewrite H in R. destruct R as (_ & E & _).
  rewrite (proj2 u16_agrees) in H by assumption. unfold taken in H. apply bind_iff in H as ([v r] & T & E').
  injection E' as -> E'. destruct (rest_at tape here) as [|c1 [|c2 s]]; try discriminate. injection T as _ <-.
  cbn [length] in E'. destruct Xh as (b1 & b2 & b3 & b4 & -> & ->). cbn [header_size] in J.
  exists b3, here. split; [|split; [exact J|]].
  - destruct Sh as (_ & rest & Sh). split; [lia|]. exists (b4 :: rest).
    replace (Z.to_nat (p + 2)) with (2 + Z.to_nat p)%nat by lia. rewrite skipn_add, Sh. reflexivity.
  - intros q. rewrite in_app_iff, Qh, Q. cbn [length]. lia.
Qed.

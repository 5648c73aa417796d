(** OrderFacts: in which order the bytes are asked for. *)
From Verif Require Import Base Float C1Number C1Operation C1Index C1Glyphs C1FontSet C1Tape C1Plan BaseFacts
  SpecNumber NumberFacts SpecOperation OperationFacts SpecIndex IndexFacts StringFacts SpecGlyphs GlyphFacts
  SpecFontSet FontSetFacts LayoutFacts SpecFile FileFacts SpecTape TapeFacts PlanFacts SpecParts AskFacts PartsFacts.
Local Open Scope list_scope.
Local Open Scope Z_scope.

Lemma span_add here n m : span here (n + m) = span here n ++ span (here + Z.of_nat n) m.
Proof.
  unfold span. rewrite seq_app, map_app. f_equal. rewrite <- (Nat.add_0_r (0 + n)).
  change (0 + n)%nat with n. generalize 0%nat as k. induction m as [|m IH]; intros k; [reflexivity|]. cbn [seq map].
  f_equal; [lia|]. specialize (IH (S k)). rewrite Nat.add_succ_r in IH. exact IH.
Qed.

Lemma span_length here n : length (span here n) = n.
Proof. unfold span. rewrite map_length, seq_length. reflexivity. Qed.

Lemma span_In here n q : In q (span here n) <-> here <= q < here + Z.of_nat n.
Proof.
  unfold span. rewrite in_map_iff. split.
  - intros (i & <- & I). apply in_seq in I. lia.
  - intros H. exists (Z.to_nat (q - here)). rewrite in_seq. lia.
Qed.

(** ** Readers that do not jump *)

Definition straight {A} (pl : planner A) : Prop := forall tape here, exists n,
  asked tape (pl here) = span here n /\
  match result tape (pl here) with Ok (_, there) => there = here + Z.of_nat n | _ => True end.

Lemma straight_done {A} (a : A) : straight (fun here => Done (Ok (a, here))).
Proof. intros tape here. exists O. cbn. split; [reflexivity|lia]. Qed.

Lemma straight_fail {A} (o : outcome (A * Z)) : match o with Ok _ => False | _ => True end -> straight (fun _ => Done o).
Proof. intros H tape here. exists O. cbn. split; [reflexivity|]. destruct o; tauto. Qed.

Lemma straight_byte : straight byte_plan.
Proof.
  intros tape here. exists 1%nat. unfold byte_plan, span. cbn [carried_out seq map].
  destruct (byte_at tape here); cbn [carried_out fst snd]; (split; [f_equal; lia|]); auto.
Qed.

Lemma straight_bind {A B} (pl : planner A) (pk : A -> planner B) : straight pl -> (forall a, straight (pk a)) ->
  straight (fun here => let! (a, here) := pl here in pk a here).
Proof.
  intros H1 H2 tape here. destruct (H1 tape here) as (n & L & R). rewrite asked_thereafter, result_thereafter, L.
  destruct (result tape (pl here)) as [[a h1]| | |]; cbn [bind].
  2,3,4: exists n; rewrite app_nil_r; auto.
  subst h1. destruct (H2 a tape (here + Z.of_nat n)) as (m & L' & R'). exists (n + m)%nat. rewrite span_add, L'.
  split; [reflexivity|]. destruct (result tape (pk a (here + Z.of_nat n))) as [[b h2]| | |]; auto. lia.
Qed.

Lemma straight_pure {A B} (o : outcome A) (pk : A -> planner B) : (forall a, straight (pk a)) ->
  straight (fun here => let! a := Done o in pk a here).
Proof. intros H. destruct o as [a|e|w|]; cbn [thereafter]; [apply H|..]; apply straight_fail; exact I. Qed.

Lemma straight_if {A} (c : bool) (p1 p2 : planner A) : straight p1 -> straight p2 ->
  straight (fun here => if c then p1 here else p2 here).
Proof. destruct c; auto. Qed.

(** A byte is looked at before. *)
Definition formatted {A} (pl : planner A) : Prop := forall tape here,
  (asked tape (pl here) = [here] /\ result tape (pl here) = Err UnexpectedEof) \/
  exists n, asked tape (pl here) = here :: span here n /\
  match result tape (pl here) with Ok (_, there) => there = here + Z.of_nat n | _ => True end.

Lemma formatted_peek {A} (pk : Z -> planner A) : (forall b, straight (pk b)) ->
  formatted (fun here => let! b := peek_plan here in pk b here).
Proof.
  intros H tape here. rewrite asked_thereafter, result_thereafter.
  unfold peek_plan, u8_plan, byte_plan. cbn [thereafter carried_out].
  destruct (byte_at tape here) as [b|]; cbn [fst snd bind app carried_out].
  - right. destruct (H (bz b) tape here) as (n & L & R). exists n. rewrite L. auto.
  - left. auto.
Qed.

Ltac line := first
  [ apply straight_done | apply straight_fail; exact I | assumption
  | apply straight_if | apply straight_pure; intros ? | apply straight_bind; [|intros ?] ].

Lemma straight_u8 : straight u8_plan.
Proof. unfold u8_plan. line; [exact straight_byte|line]. Qed.
Ltac byte := first [exact straight_byte | exact straight_u8].
Lemma straight_u16 : straight u16_plan.
Proof. unfold u16_plan. line; [byte|]. line; [byte|]. line. Qed.
Lemma straight_u8x3 : straight u8x3_plan.
Proof. unfold u8x3_plan. line; [byte|]. do 2 (line; [byte|]). line. Qed.
Lemma straight_u32 : straight u32_plan.
Proof. unfold u32_plan. line; [byte|]. do 3 (line; [byte|]). line. Qed.
Lemma straight_n {A} (pl : planner A) n : straight pl -> straight (n_plan pl n).
Proof. intros H. induction n as [|n IH]; cbn [n_plan]; [line|]. line; [exact H|]. line; [exact IH|]. line. Qed.
Lemma straight_vec {A} cfg size (pl : planner A) n : straight pl -> straight (vec_plan cfg size pl n).
Proof. intros H. unfold vec_plan. line; [line|]. apply straight_n, H. Qed.

Lemma straight_offset size : straight (offset_plan size).
Proof.
  unfold offset_plan. line; [exact straight_u8|]. line; [exact straight_u16|]. line.
  - apply straight_bind; [exact straight_u8x3|]. intros ((a & b) & c). line.
  - line; [exact straight_u32|line].
Qed.

Lemma straight_elements cfg offs : straight (elements_plan cfg offs).
Proof.
  induction offs as [|o1 [|o2 offs] IH]; [apply (straight_done [])|apply (straight_done [])|].
  cbn [elements_plan]. line; [line|]. line; [apply straight_vec; byte|]. line; [exact IH|]. line.
Qed.

Lemma straight_index cfg : straight (index_plan cfg).
Proof.
  unfold index_plan. line; [exact straight_u16|]. line; [line|]. line; [byte|]. line; [apply straight_n, straight_offset|].
  destruct a1 as [|[|[| |]|] offs]; try (line; fail). line; [apply straight_elements|]. line.
Qed.

Lemma straight_character_strings cfg format : straight (character_strings_plan cfg format).
Proof. unfold character_strings_plan. line; [apply straight_index|line]. Qed.

Lemma straight_header : straight header_plan.
Proof. unfold header_plan. line; [byte|]. do 3 (line; [byte|]). line. Qed.

Lemma straight_range1 : straight range1_plan.
Proof. unfold range1_plan. line; [exact straight_u16|]. line; [byte|]. line. Qed.
Lemma straight_range2 : straight range2_plan.
Proof. unfold range2_plan. line; [exact straight_u16|]. line; [exact straight_u16|]. line. Qed.
Lemma straight_ranges pl n : straight pl -> forall fuel found, straight (ranges_plan pl fuel n found).
Proof.
  intros H. induction fuel as [|fuel IH]; intros found; cbn [ranges_plan]; line; [line|line|..|line].
  apply straight_bind; [exact H|]. intros range. apply straight_bind; [apply IH|]. intros (rs & k). line.
Qed.

Lemma formatted_character_set cfg n : formatted (character_set_plan cfg n).
Proof.
  unfold character_set_plan. apply formatted_peek. intros b. line; [|line; [|line; [|line]]].
  - unfold character_set0_plan. line; [byte|]. line; [line|]. line. line; [apply straight_vec, straight_u16|]. line.
  - unfold character_set1_plan. line; [byte|]. line; [line|].
    apply straight_bind; [apply straight_ranges, straight_range1|]. intros (rs & k). line; line.
  - unfold character_set2_plan. line; [byte|]. line; [line|].
    apply straight_bind; [apply straight_ranges, straight_range2|]. intros (rs & k). line; line.
Qed.

Lemma straight_code_range : straight code_range_plan.
Proof. unfold code_range_plan. line; [byte|]. line; [byte|]. line. Qed.
Lemma straight_supplement : straight supplement_plan.
Proof. unfold supplement_plan. line; [byte|]. line; [exact straight_u16|]. line. Qed.

Lemma formatted_encoding cfg : formatted (encoding_plan cfg).
Proof.
  unfold encoding_plan. apply formatted_peek. intros b. line; [|line; [|line; [|line]]].
  - unfold encoding0_plan. line; [byte|]. line; [line|]. line; [byte|]. line; [apply straight_vec; byte|]. line.
  - unfold encoding1_plan. line; [byte|]. line; [line|]. line; [byte|]. line; [apply straight_vec, straight_code_range|]. line.
  - unfold encoding_supplemental_plan. line; [byte|]. line; [byte|]. line; [apply straight_vec, straight_supplement|]. line.
Qed.

Lemma straight_range3 : straight range3_plan.
Proof. unfold range3_plan. line; [exact straight_u16|]. line; [byte|]. line. Qed.

Lemma formatted_dictionary_encoding cfg n : formatted (dictionary_encoding_plan cfg n).
Proof.
  unfold dictionary_encoding_plan. apply formatted_peek. intros b. line; [|line; [|line]].
  - unfold dictionary_encoding0_plan. line; [byte|]. line; [line|]. line; [apply straight_vec; byte|]. line.
  - unfold dictionary_encoding3_plan. line; [byte|]. line; [line|]. line; [exact straight_u16|].
    line; [apply straight_vec, straight_range3|]. line; [exact straight_u16|]. line.
Qed.

(** ** Font sets *)

Section At.
  Context (cfg : config) (tape : list byte) (p : Z).
  Context (Hp : 0 <= p) (Ht : Z.of_nat (length tape) < 2 ^ 63).
  Let checks := overflow_checks cfg.

  Lemma straight_ok {A} (pl : planner A) rd enc here a there :
    straight pl -> agrees pl rd -> sound rd enc -> complete rd enc -> 0 <= here ->
    result tape (pl here) = Ok (a, there) ->
    exists e, enc e a /\ stands tape here e /\ there = here + Z.of_nat (length e) /\
      asked tape (pl here) = span here (length e).
  Proof.
    intros Hl Ha Hs Hc N R. destruct (Hl tape here) as (n & Q & H). rewrite R in H.
    rewrite (proj2 Ha) in R by assumption. apply (taken_iff _ enc) in R as (e & S & X & E'); auto.
    exists e. repeat (split; [assumption|]). rewrite Q. f_equal. lia.
  Qed.

  Lemma straight_pass {A} (pl : planner A) rd enc offset here a there :
    straight pl -> agrees pl rd -> sound rd enc -> complete rd enc ->
    jumped cfg p offset = Ok here -> result tape (pl here) = Ok (a, there) ->
    exists e, enc e a /\ pass checks tape p offset e (asked tape (pl here)).
  Proof.
    intros Hl Ha Hs Hc J R. pose proof (jumped_nonneg _ _ _ _ Hp J) as N. apply (jumped_iff _ _ _ _ Hp) in J.
    destruct (straight_ok pl rd enc here a there Hl Ha Hs Hc N R) as (e & X & St & _ & Q).
    exists e. split; [exact X|]. exists here. auto.
  Qed.

  Lemma formatted_pass {A} (pl : planner A) rd enc offset here a there :
    formatted pl -> agrees pl rd -> sound rd enc -> complete rd enc ->
    jumped cfg p offset = Ok here -> result tape (pl here) = Ok (a, there) ->
    exists e, enc e a /\ pass_by_format checks tape p offset e (asked tape (pl here)).
  Proof.
    intros Hl Ha Hs Hc J R. pose proof (jumped_nonneg _ _ _ _ Hp J) as N. apply (jumped_iff _ _ _ _ Hp) in J.
    destruct (Hl tape here) as [[_ E]|(n & Q & H)]; [congruence|]. rewrite R in H.
    rewrite (proj2 Ha) in R by assumption. apply (taken_iff _ enc) in R as (e & S & X & E'); auto.
    exists e. split; [exact X|]. exists here. repeat (split; [assumption|]). rewrite Q. f_equal. f_equal. lia.
  Qed.

  Lemma private_ordered top r there : bounded top -> result tape (private_plan cfg p top) = Ok (r, there) ->
    private_order checks tape p top r (asked tape (private_plan cfg p top)).
  Proof.
    intros Bt H. unfold private_plan in *.
    apply result_then in H as ([size offset] & D & H). rewrite (asked_pure _ _ _ _ D). cbn [fst carried_out] in D.
    apply need_double_iff in D. destruct (bounded_double _ _ _ _ Bt D) as [B1 B2].
    apply result_then in H as (here & J & H). rewrite (asked_pure _ _ _ _ J). cbn [fst carried_out] in J.
    apply result_then in H as ([chunk h1] & C & H). rewrite (asked_then _ _ _ _ C).
    pose proof (jumped_nonneg _ _ _ _ Hp J) as N.
    destruct (straight_vec cfg 1 byte_plan (as_usize size) straight_byte tape here) as (n & Q & E). rewrite C in E. rewrite Q.
    rewrite (proj2 (vec_agrees cfg 1 byte_plan take_byte _ (as_usize size) byte_agrees take_byte_sound
      ltac:(intros ? ? ->; discriminate))) in C by assumption.
    unfold taken in C. apply bind_iff in C as ([chunk' r'] & T & E'). injection E' as -> E'.
    assert (J' : jump cfg tape p offset = Ok (rest_at tape here)) by (rewrite jump_jumped, J; reflexivity).
    destruct (read_chunk cfg tape p Hp Ht _ _ _ _ _ B1 J' T) as (_ & Es & L). rewrite Es, app_length in E'.
    apply jumped_iff in J; auto.
    assert (St : stands tape here chunk).
    { split; auto. exists r'. rewrite <- rest_at_skipn by assumption. auto. }
    apply result_then in H as (ops & O & H). rewrite (asked_pure _ _ _ _ O).
    apply result_then in H as (another & An & H). rewrite (asked_pure _ _ _ _ An). cbn [fst carried_out] in An.
    apply try_single_iff in An. exists size, offset, chunk.
    replace n with (length chunk) by lia.
    assert (P1 : pass checks tape p offset chunk (span here (length chunk))) by (exists here; auto).
    destruct another as [another|].
    - apply result_then in H as (sum & S & H). rewrite (asked_pure _ _ _ _ S). cbn [fst carried_out] in S.
      apply add_i32_iff in S.
      apply result_then in H as (here' & J2 & H). rewrite (asked_pure _ _ _ _ J2). cbn [fst carried_out] in J2.
      apply result_then in H as ([x h2] & X & H). rewrite (asked_then _ _ _ _ X). cbn [carried_out snd]. rewrite app_nil_r.
      cbn [carried_out fst] in H. injection H as <- <-.
      destruct (straight_pass _ _ _ _ _ _ _ (straight_index cfg) (index_agrees cfg) (read_index_sound cfg)
                 (read_index_complete cfg) J2 X) as (e & X1 & P2).
      eexists _, _. split; [exact D|]. split; [exact L|]. split; [exact P1|]. split; [|reflexivity].
      right. exists another, sum, e. cbn [private_operations private_subroutines]. auto.
    - cbn [carried_out fst] in H. injection H as <- <-. cbn [carried_out snd].
      eexists _, _. split; [exact D|]. split; [exact L|]. split; [exact P1|]. split; [|reflexivity].
      left. auto.
  Qed.

  Lemma privates_ordered tops : Forall bounded tops -> forall here rs there,
    result tape (privates_plan cfg p here tops) = Ok (rs, there) ->
    privates_order checks tape p tops rs (asked tape (privates_plan cfg p here tops)).
  Proof.
    induction 1 as [|top tops B _ IH]; intros here rs there H; cbn [privates_plan] in *.
    - cbn in *. injection H as <- <-. constructor.
    - apply result_then in H as ([r h1] & R & H). rewrite (asked_then _ _ _ _ R).
      apply result_then in H as ([rs' h2] & Rs & H). rewrite (asked_then _ _ _ _ Rs).
      cbn [carried_out fst snd] in *. injection H as <- <-. rewrite app_nil_r.
      constructor; [eapply private_ordered; eauto|eapply IH; eauto].
  Qed.

  Lemma record_ordered top cs r there : bounded top -> 0 <= count cs < 2 ^ 62 ->
    result tape (record_plan cfg p top cs) = Ok (r, there) ->
    record_order checks tape p top (count cs) r (asked tape (record_plan cfg p top cs)).
  Proof.
    intros Bt G H. unfold record_plan in *. destruct (map_contains top Op_ROS).
    - apply result_then in H as ([c h1] & C & H). rewrite (asked_then _ _ _ _ C). cbn [carried_out fst snd] in *.
      injection H as <- <-. rewrite app_nil_r. cbn [record_order]. unfold cid_plan in *.
      destruct (operations_get top Op_ROS) as [[|a [|b [|d [|]]]]|]; try discriminate. rename C into H.
      apply result_then in H as (select & S & H). rewrite (asked_pure _ _ _ _ S). cbn [fst carried_out] in S.
      apply need_single_iff in S.
      apply result_then in H as (here & J & H). rewrite (asked_pure _ _ _ _ J). cbn [fst carried_out] in J.
      apply result_then in H as ([enc h2] & E & H). rewrite (asked_then _ _ _ _ E).
      apply result_then in H as (array & A & H). rewrite (asked_pure _ _ _ _ A). cbn [fst carried_out] in A.
      apply need_single_iff in A.
      apply result_then in H as (here2 & J2 & H). rewrite (asked_pure _ _ _ _ J2). cbn [fst carried_out] in J2.
      apply result_then in H as ([ds h3] & D & H). rewrite (asked_then _ _ _ _ D).
      apply result_then in H as (opss & O & H). rewrite (asked_pure _ _ _ _ O). cbn [fst carried_out] in O.
      apply tables_iff in O.
      apply result_then in H as ([rs h4] & R & H). rewrite (asked_then _ _ _ _ R).
      apply result_then in H as (i1 & I1 & H). rewrite (asked_pure _ _ _ _ I1).
      apply result_then in H as (i2 & I2 & H). rewrite (asked_pure _ _ _ _ I2).
      cbn [carried_out fst snd] in H |- *. injection H as <- <-. cbn [cid_encoding cid_operations cid_records].
      rewrite app_nil_r.
      destruct (formatted_pass _ _ _ _ _ _ _ (formatted_dictionary_encoding cfg _) (dictionary_encoding_agrees cfg _)
        (read_select_sound cfg tape _ (proj1 G)) (read_select_complete cfg tape _ G) J E) as (e1 & X1 & P1).
      destruct (straight_pass _ _ _ _ _ _ _ (straight_index cfg) (index_agrees cfg)
        (read_index_sound cfg) (read_index_complete cfg) J2 D) as (e2 & X2 & P2).
      pose proof (privates_ordered opss (dictionaries_bounded _ _ O) _ _ _ R) as P3.
      eexists select, e1, _, array, e2, ds, _, _. repeat (split; [eassumption|]). reflexivity.
    - apply result_then in H as ([r' h1] & R & H). rewrite (asked_then _ _ _ _ R). cbn [carried_out fst snd] in *.
      injection H as <- <-. rewrite app_nil_r. exact (private_ordered _ _ _ Bt R).
  Qed.

  Lemma font_ordered i ops g g' there : bounded ops -> length (character_strings g) = i ->
    result tape (font_plan cfg p i ops g) = Ok (g', there) ->
    exists x, font_operations x = ops /\ g' = push g x /\
      font_order checks tape p x (asked tape (font_plan cfg p i ops g)).
  Proof.
    intros B Li H. unfold font_plan in *.
    apply result_then in H as (strings & S & H). rewrite (asked_pure _ _ _ _ S). cbn [fst carried_out] in S.
    apply need_single_iff in S.
    apply result_then in H as (here & J & H). rewrite (asked_pure _ _ _ _ J). cbn [fst carried_out] in J.
    apply result_then in H as (format & F & H). rewrite (asked_pure _ _ _ _ F). cbn [fst carried_out] in F.
    apply result_then in H as ([cs h1] & C & H). rewrite (asked_then _ _ _ _ C).
    unfold character_strings_plan in *. destruct (Z.eqb_spec format 2) as [->|]; [|discriminate].
    destruct (straight_pass _ _ _ _ _ _ _ (straight_index cfg) (index_agrees cfg)
      (read_index_sound cfg) (read_index_complete cfg) J C) as (e1 & X1 & P1).
    assert (G : 0 <= count cs < 2 ^ 62) by (destruct (index_count _ _ X1); lia).
    assert (Ni : nth_error (character_strings g ++ [cs]) i = Some cs).
    { rewrite nth_error_app2 by lia. replace (i - _)%nat with 0%nat by lia. reflexivity. }
    apply result_then in H as (so & So & H). rewrite (asked_pure _ _ _ _ So). cbn [fst carried_out] in So.
    apply need_single_iff in So. rewrite Ni in H |- *.
    apply result_then in H as ([set h2] & Se & H). rewrite (asked_then _ _ _ _ Se).
    apply result_then in H as (eo & Eo & H). rewrite (asked_pure _ _ _ _ Eo). cbn [fst carried_out] in Eo.
    apply need_single_iff in Eo.
    apply result_then in H as ([enc h3] & En & H). rewrite (asked_then _ _ _ _ En).
    apply result_then in H as ([r h4] & R & H). rewrite (asked_then _ _ _ _ R).
    cbn [carried_out fst snd] in H |- *. injection H as <- <-. rewrite app_nil_r.
    exists {| font_operations := ops; font_encoding := enc; font_character_set := set;
              font_character_strings := cs; font_record := r |}.
    split; [reflexivity|]. split; [reflexivity|].
    pose proof (record_ordered _ _ _ _ B G R) as P4.
    unfold font_order. cbn [font_operations font_encoding font_character_set font_character_strings font_record].
    eexists strings, e1, _, so, _, eo, _, _.
    split; [exact S|]. split; [exact X1|]. split; [exact P1|]. split; [exact So|].
    split; [|split; [exact Eo|split; [|split; [exact P4|reflexivity]]]].
    { destruct (Z.eqb_spec so 0) as [->|N0]; [left; split; [lia|reflexivity]|].
      destruct (Z.eqb_spec so 1) as [->|N1]; [left; split; [lia|reflexivity]|].
      destruct (Z.eqb_spec so 2) as [->|N2]; [left; split; [lia|reflexivity]|].
      right. split; [lia|].
      apply result_then in Se as (here2 & J2 & Se). rewrite (asked_pure _ _ _ _ J2). cbn [fst carried_out] in J2.
      destruct (Z.eq_dec (count cs) 0) as [Z0|NZ].
      { exfalso. rewrite (proj2 (character_set_agrees cfg _)) in Se by (eapply jumped_nonneg; eauto).
        unfold taken in Se. apply bind_iff in Se as ([c rest] & Rd & _). rewrite Z0 in Rd.
        eapply (read_character_set_zero cfg tape); [|exact Rd].
        pose proof (WeightFacts.rest_at_length tape here2). lia. }
      assert (Sn : sane_count (count cs)) by (unfold sane_count; lia).
      exact (formatted_pass _ _ _ _ _ _ _ (formatted_character_set cfg _) (character_set_agrees cfg _)
        (read_character_set_sound cfg _ Sn) (read_character_set_complete cfg _ Sn) J2 Se). }
    { destruct (Z.eqb_spec eo 0) as [->|N0]; [left; split; [lia|reflexivity]|].
      destruct (Z.eqb_spec eo 1) as [->|N1]; [left; split; [lia|reflexivity]|].
      right. split; [lia|].
      apply result_then in En as (here2 & J2 & En). rewrite (asked_pure _ _ _ _ J2). cbn [fst carried_out] in J2.
      exact (formatted_pass _ _ _ _ _ _ _ (formatted_encoding cfg) (encoding_agrees cfg)
        (read_encoding_sound cfg) (read_encoding_complete cfg) J2 En). }
  Qed.

  Lemma fonts_ordered opss : Forall bounded opss -> forall here i g g' there, length (character_strings g) = i ->
    result tape (fonts_plan cfg p here i opss g) = Ok (g', there) ->
    exists xs, map font_operations xs = opss /\ g' = fold_left push xs g /\
      fonts_order checks tape p xs (asked tape (fonts_plan cfg p here i opss g)).
  Proof.
    induction 1 as [|ops opss B _ IH]; intros here i g g' there L H; cbn [fonts_plan] in *.
    - cbn in H. injection H as <- <-. exists []. repeat split; constructor.
    - apply result_then in H as ([g1 h1] & F & H). destruct (font_ordered _ _ _ _ _ B L F) as (x & <- & -> & P).
      assert (L' : length (character_strings (push g x)) = S i) by (cbn [push character_strings]; rewrite app_length; cbn; lia).
      destruct (IH _ _ _ _ _ L' H) as (xs & <- & -> & Q). exists (x :: xs). split; [reflexivity|]. split; [reflexivity|].
      rewrite (asked_then _ _ _ _ F). constructor; assumption.
  Qed.

  Lemma font_set_ordered f there : result tape (font_set_plan cfg p) = Ok (f, there) ->
    font_set_order checks tape p f (asked tape (font_set_plan cfg p)).
  Proof.
    intros H. unfold font_set_plan in *.
    apply result_then in H as ([h h0] & Hd & H). rewrite (asked_then _ _ _ _ Hd).
    destruct (straight_ok _ _ _ _ _ _ straight_header header_agrees read_header_sound read_header_complete Hp Hd)
      as (eh & Xh & _ & _ & Qh).
    assert (Lh : length eh = 4%nat) by (destruct Xh as (? & ? & ? & ? & -> & _); reflexivity).
    apply result_then in H as (here & J & H). rewrite (asked_pure _ _ _ _ J). cbn [fst carried_out] in J.
    pose proof (jumped_nonneg _ _ _ _ Hp J) as N. apply (jumped_iff _ _ _ _ Hp) in J.
    pose proof (fun here x there => straight_ok _ _ _ here x there (straight_index cfg) (index_agrees cfg)
      (read_index_sound cfg) (read_index_complete cfg)) as Sp.
    apply result_then in H as ([names h1] & T1 & H). rewrite (asked_then _ _ _ _ T1).
    destruct (Sp _ _ _ N T1) as (e1 & X1 & S1 & E1 & Q1). assert (N1 : 0 <= h1) by lia.
    apply result_then in H as ([ds h2] & T2 & H). rewrite (asked_then _ _ _ _ T2).
    destruct (Sp _ _ _ N1 T2) as (e2 & X2 & S2 & E2 & Q2). assert (N2 : 0 <= h2) by lia.
    apply result_then in H as (opss & D & H). rewrite (asked_pure _ _ _ _ D). cbn [fst carried_out] in D.
    apply tables_iff in D.
    apply result_then in H as ([strings h3] & T3 & H). rewrite (asked_then _ _ _ _ T3).
    destruct (Sp _ _ _ N2 T3) as (e3 & X3 & S3 & E3 & Q3). assert (N3 : 0 <= h3) by lia.
    apply result_then in H as ([subrs h4] & T4 & H). rewrite (asked_then _ _ _ _ T4).
    destruct (Sp _ _ _ N3 T4) as (e4 & X4 & S4 & E4 & Q4).
    apply result_then in H as ([g h5] & Fo & H). rewrite (asked_then _ _ _ _ Fo).
    cbn [carried_out fst snd] in H |- *. injection H as <- <-.
    destruct (fonts_ordered opss (dictionaries_bounded _ _ D) _ 0
      {| encodings := []; character_sets := []; character_strings := []; records := [] |} _ _ eq_refl Fo) as (xs & <- & -> & Qf).
    destruct (pushed xs {| encodings := []; character_sets := []; character_strings := []; records := [] |})
      as (P1 & P2 & P3 & P4). rewrite P1, P2, P3, P4. cbn [encodings character_sets character_strings records app].
    rewrite app_nil_r, Qh, Q1, Q2, Q3, Q4, Lh. subst h1 h2 h3.
    exists e1, e2, e3, e4, ds, (span here (length (e1 ++ e2 ++ e3 ++ e4))), xs.
    eexists. cbn [fs_header fs_names fs_operations fs_strings fs_subroutines fs_encodings
      fs_character_strings fs_character_sets fs_records].
    repeat (split; [eassumption|]). split.
    { exists here. split; [exact J|]. split; [|reflexivity]. repeat (apply stands_app; auto). }
    repeat (split; [reflexivity|]). split; [exact Qf|].
    rewrite !app_length, !span_add, <- !app_assoc. reflexivity.
  Qed.
End At.

(** ** There is one order *)

Section Unique.
  Context (cfg : config) (tape : list byte) (p : Z).
  Let checks := overflow_checks cfg.

  Lemma pass_unique {A} (rd : reader A) enc offset e e' x x' l l' : complete rd enc -> enc e x -> enc e' x' ->
    pass checks tape p offset e l -> pass checks tape p offset e' l' -> l = l'.
  Proof.
    intros C X X' (s & L & S & ->) (s' & L' & S' & ->). rewrite <- (located_unique _ _ _ _ _ L L') in *.
    rewrite (stands_length rd enc tape s e e' x x'); auto.
  Qed.

  Lemma pass_by_format_unique {A} (rd : reader A) enc offset e e' x x' l l' : complete rd enc -> enc e x -> enc e' x' ->
    pass_by_format checks tape p offset e l -> pass_by_format checks tape p offset e' l' -> l = l'.
  Proof.
    intros C X X' (s & L & S & ->) (s' & L' & S' & ->). rewrite <- (located_unique _ _ _ _ _ L L') in *.
    rewrite (stands_length rd enc tape s e e' x x'); auto.
  Qed.

  Lemma private_order_unique top r l l' : private_order checks tape p top r l -> private_order checks tape p top r l' -> l = l'.
  Proof.
    intros (size & offset & chunk & l1 & l2 & O & Lc & P1 & P2 & ->) (size' & offset' & chunk' & l1' & l2' & O' & Lc' & P1' & P2' & ->).
    destruct (operands_unique _ _ _ _ _ _ O O') as [<- <-]. f_equal.
    - destruct P1 as (s & L & _ & ->), P1' as (s' & L' & _ & ->). rewrite (located_unique _ _ _ _ _ L L'). f_equal. lia.
    - destruct P2 as [[N ->]|(an & sum & e & A & S & X & P)], P2' as [[N' ->]|(an' & sum' & e' & A' & S' & X' & P')]; auto.
      + exfalso. exact (operand_some _ _ _ A' N).
      + exfalso. exact (operand_some _ _ _ A N').
      + rewrite (operand_unique _ _ _ _ A A') in S. destruct S as (-> & _), S' as (-> & _).
        exact (pass_unique (read_index dev_profile) _ _ _ _ _ _ _ _ (read_index_complete dev_profile) X X' P P').
  Qed.

  Lemma privates_order_unique tops rs l : privates_order checks tape p tops rs l ->
    forall l', privates_order checks tape p tops rs l' -> l = l'.
  Proof.
    induction 1 as [|top tops r rs l1 l2 H _ IH]; intros l' H'; inversion H'; subst; [reflexivity|]. f_equal; auto.
    eapply private_order_unique; eauto.
  Qed.

  Lemma record_order_unique top glyphs r l l' : 0 <= glyphs < 2 ^ 62 ->
    record_order checks tape p top glyphs r l -> record_order checks tape p top glyphs r l' -> l = l'.
  Proof.
    intros G. destruct r as [r|r]; cbn [record_order]; [|apply private_order_unique].
    intros (s & e1 & l1 & a & e2 & ds & l2 & l3 & S & X1 & P1 & A & X2 & P2 & P3 & ->)
      (s' & e1' & l1' & a' & e2' & ds' & l2' & l3' & S' & X1' & P1' & A' & X2' & P2' & P3' & ->).
    rewrite (operand_unique _ _ _ _ S S') in P1. rewrite (operand_unique _ _ _ _ A A') in P2. f_equal; [|f_equal].
    - exact (pass_by_format_unique (read_dictionary_encoding dev_profile glyphs) _ _ _ _ _ _ _ _
        (read_select_complete dev_profile tape _ G) X1 X1' P1 P1').
    - exact (pass_unique (read_index dev_profile) _ _ _ _ _ _ _ _ (read_index_complete dev_profile) X2 X2' P2 P2').
    - eapply privates_order_unique; eauto.
  Qed.

  Lemma font_order_unique x l l' : font_order checks tape p x l -> font_order checks tape p x l' -> l = l'.
  Proof.
    intros (s & e1 & l1 & set & l2 & code & l3 & l4 & S & X1 & P1 & Se & P2 & C & P3 & P4 & ->)
      (s' & e1' & l1' & set' & l2' & code' & l3' & l4' & S' & X1' & P1' & Se' & P2' & C' & P3' & P4' & ->).
    rewrite (operand_unique _ _ _ _ S S') in P1. rewrite <- (operand_unique _ _ _ _ Se Se') in P2'.
    rewrite <- (operand_unique _ _ _ _ C C') in P3'. destruct (index_count _ _ X1) as [G1 G2].
    f_equal; [|f_equal; [|f_equal]].
    - exact (pass_unique (read_index dev_profile) _ _ _ _ _ _ _ _ (read_index_complete dev_profile) X1 X1' P1 P1').
    - destruct P2 as [[R ->]|(R & e2 & X2 & P2)], P2' as [[R' ->]|(R' & e2' & X2' & P2')]; try tauto.
      assert (Sn : sane_count (count (font_character_strings x))).
      { destruct (Z.eq_dec (count (font_character_strings x)) 0) as [E|]; [|unfold sane_count; lia].
        exfalso. rewrite E in X2. eapply no_zero_set; [exact tape|exact X2]. }
      exact (pass_by_format_unique (read_character_set dev_profile _) _ _ _ _ _ _ _ _
        (read_character_set_complete dev_profile _ Sn) X2 X2' P2 P2').
    - destruct P3 as [[R ->]|(R & e3 & X3 & P3)], P3' as [[R' ->]|(R' & e3' & X3' & P3')]; try tauto.
      exact (pass_by_format_unique (read_encoding dev_profile) _ _ _ _ _ _ _ _
        (read_encoding_complete dev_profile) X3 X3' P3 P3').
    - eapply record_order_unique; [|eassumption..]. lia.
  Qed.

  Lemma fonts_order_unique xs l : fonts_order checks tape p xs l -> forall l', fonts_order checks tape p xs l' -> l = l'.
  Proof.
    induction 1 as [|x xs l1 l2 H _ IH]; intros l' H'; inversion H'; subst; [reflexivity|]. f_equal; auto.
    eapply font_order_unique; eauto.
  Qed.

  Lemma fonts_unique xs : forall ys, map font_operations xs = map font_operations ys ->
    map font_encoding xs = map font_encoding ys -> map font_character_set xs = map font_character_set ys ->
    map font_character_strings xs = map font_character_strings ys -> map font_record xs = map font_record ys -> xs = ys.
  Proof.
    induction xs as [|x xs IH]; intros [|y ys] E1 E2 E3 E4 E5; try discriminate; [reflexivity|].
    cbn [map] in *. injection E1 as A1 E1. injection E2 as A2 E2. injection E3 as A3 E3. injection E4 as A4 E4. injection E5 as A5 E5.
    f_equal; [destruct x, y; cbn in *; congruence|auto].
  Qed.

  Lemma font_set_order_unique f l l' : font_set_order checks tape p f l -> font_set_order checks tape p f l' -> l = l'.
  Proof.
    intros (e1 & e2 & e3 & e4 & ds & l1 & xs & l2 & X1 & X2 & X3 & X4 & P & E1 & E2 & E3 & E4 & E5 & F & ->)
      (e1' & e2' & e3' & e4' & ds' & l1' & xs' & l2' & X1' & X2' & X3' & X4' & P' & E1' & E2' & E3' & E4' & E5' & F' & ->).
    assert (xs = xs') as <- by (apply fonts_unique; congruence). f_equal. f_equal; [|eapply fonts_order_unique; eauto].
    destruct P as (s & L & (_ & t & S) & ->), P' as (s' & L' & (_ & t' & S') & ->).
    rewrite <- (located_unique _ _ _ _ _ L L') in *. rewrite S, <- !app_assoc in S'. f_equal.
    assert (K : forall e x t e' x' t', index_encoding e x -> index_encoding e' x' -> e ++ t = e' ++ t' ->
                length e = length e' /\ t = t').
    { clear. intros e x t e' x' t' X X' E. apply (read_index_complete dev_profile _ _ t) in X.
      apply (read_index_complete dev_profile _ _ t') in X'. rewrite E, X' in X. injection X as _ ->.
      apply app_inv_tail in E. subst. auto. }
    destruct (K _ _ _ _ _ _ X1 X1' S') as [L1 S1']. destruct (K _ _ _ _ _ _ X2 X2' S1') as [L2 S2'].
    destruct (K _ _ _ _ _ _ X3 X3' S2') as [L3 S3']. destruct (K _ _ _ _ _ _ X4 X4' S3') as [L4 _].
    rewrite !app_length. lia.
  Qed.
End Unique.

Lemma order_iff cfg tape p : 0 <= p -> Z.of_nat (length tape) < 2 ^ 63 -> forall f there,
  result tape (font_set_plan cfg p) = Ok (f, there) ->
  forall l, font_set_order (overflow_checks cfg) tape p f l <-> l = asked tape (font_set_plan cfg p).
Proof.
  intros Hp Ht f there H l. pose proof (font_set_ordered cfg tape p Hp Ht f there H) as O. split.
  - intros O'. exact (font_set_order_unique cfg tape p f _ _ O' O).
  - intros ->. exact O.
Qed.

Lemma readers_ordered cfg tape here n :
  (exists k, asked tape (index_plan cfg here) = span here k) /\
  (exists k, asked tape (character_set_plan cfg n here) = here :: span here k) /\
  (exists k, asked tape (encoding_plan cfg here) = here :: span here k) /\
  (exists k, asked tape (dictionary_encoding_plan cfg n here) = here :: span here k).
Proof.
  assert (K : forall {A} (pl : planner A), formatted pl -> exists k, asked tape (pl here) = here :: span here k).
  { intros A pl H. destruct (H tape here) as [[E _]|(k & E & _)]; [exists O; exact E|eauto]. }
  split; [|split; [|split]].
  - destruct (straight_index cfg tape here) as (k & E & _). eauto.
  - apply K, formatted_character_set.
  - apply K, formatted_encoding.
  - apply K, formatted_dictionary_encoding.
Qed.

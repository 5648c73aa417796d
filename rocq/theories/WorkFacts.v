(** WorkFacts: how many bytes are asked for. *)
From Verif Require Import Base Float C1Number C1Operation C1Index C1Glyphs C1FontSet C1Tape C1Plan BaseFacts
  SpecNumber NumberFacts SpecOperation OperationFacts SpecIndex IndexFacts StringFacts SpecGlyphs GlyphFacts
  SpecFontSet FontSetFacts LayoutFacts SpecFile FileFacts SpecTape TapeFacts PlanFacts SpecParts AskFacts PartsFacts
  SpecSize SizeFacts WeightFacts GrowthFacts.
Local Open Scope list_scope.
Local Open Scope nat_scope.

Section At.
  Context (cfg : config) (tape : list byte) (p : Z) (Hp : (0 <= p)%Z).
  Let L := length tape.

  (** ** Whatever becomes of it *)

  Lemma asked_le {A B} (m : plan A) (k : A -> plan B) n1 n2 : length (asked tape m) <= n1 ->
    (forall a, result tape m = Ok a -> length (asked tape (k a)) <= n2) -> length (asked tape (thereafter m k)) <= n1 + n2.
  Proof.
    intros H1 H2. rewrite asked_thereafter, app_length. destruct (result tape m); cbn [length]; try lia.
    specialize (H2 _ eq_refl). lia.
  Qed.

  Lemma asked_le_pure {A B} (o : outcome A) (k : A -> plan B) n :
    (forall a, o = Ok a -> length (asked tape (k a)) <= n) -> length (asked tape (thereafter (Done o) k)) <= n.
  Proof. intros H. apply (asked_le _ _ 0 n); [reflexivity|exact H]. Qed.

  Lemma linear_le {A} l x (pl : planner A) here : linear l x pl -> (0 <= here)%Z -> length (asked tape (pl here)) <= L + 1 + x.
  Proof.
    intros H N. destruct (H tape here N) as (n & Ln & _ & R). destruct (result tape (pl here)) as [[a there]| | |]; unfold L; lia.
  Qed.

  Lemma linear_there {A} l x (pl : planner A) here a there : linear l x pl -> (0 <= here)%Z ->
    result tape (pl here) = Ok (a, there) -> (0 <= there)%Z.
  Proof. intros H N E. destruct (H tape here N) as (n & Ln & _ & R). rewrite E in R. lia. Qed.

  Lemma linear_bytes n : linear 0 0 (vec_plan cfg 1 byte_plan n).
  Proof. apply linear_vec. eapply linear_weaken; [| |apply linear_byte]; lia. Qed.

  Lemma private_le top : length (asked tape (private_plan cfg p top)) <= 2 * (L + 1).
  Proof.
    unfold private_plan. apply asked_le_pure. intros [size offset] _. apply asked_le_pure. intros here J.
    pose proof (jumped_nonneg _ _ _ _ Hp J) as N. replace (2 * (L + 1)) with (L + 1 + 0 + (L + 1)) by lia. apply asked_le.
    { apply (linear_le 0 0); auto using linear_bytes. }
    intros (chunk & h1) _. apply asked_le_pure. intros ops _. apply asked_le_pure. intros [another|] _; [|cbn; lia].
    apply asked_le_pure. intros sum _. apply asked_le_pure. intros here2 J2. replace (L + 1) with (L + 1 + 0 + 0) by lia.
    apply asked_le; [|intros (x & h2) _; cbn; lia].
    apply (linear_le 1 0); [apply linear_index|]. eapply jumped_nonneg; [exact Hp|eassumption].
  Qed.

  Lemma privates_le tops : forall here, length (asked tape (privates_plan cfg p here tops)) <= length tops * (2 * (L + 1)).
  Proof.
    induction tops as [|top tops IH]; intros here; cbn [privates_plan length]; [cbn; lia|].
    cbn [Nat.mul]. apply asked_le; [apply private_le|]. intros (r & h1) _.
    rewrite <- (Nat.add_0_r (length tops * _)). apply asked_le; [apply IH|]. intros (rs & h2) _. cbn. lia.
  Qed.

  Lemma index_elements here ds there opss : (0 <= here)%Z -> result tape (index_plan cfg here) = Ok (ds, there) ->
    dictionaries_try_into cfg ds = Ok opss -> length opss <= L.
  Proof.
    intros N R D. apply dictionaries_length in D as [-> _]. rewrite (proj2 (index_agrees cfg)) in R by assumption.
    unfold taken in R. apply bind_iff in R as ([x r] & R & E). injection E as -> _.
    apply read_index_weight in R. pose proof (rest_at_length tape here). unfold L. lia.
  Qed.

  Lemma record_le top cs : length (asked tape (record_plan cfg p top cs)) <= 2 * L + 3 + L * (2 * (L + 1)).
  Proof.
    unfold record_plan. destruct (map_contains top Op_ROS).
    - rewrite <- (Nat.add_0_r (_ + _)). apply asked_le; [|intros (r & h) _; cbn; lia].
      unfold cid_plan. destruct (operations_get top Op_ROS) as [[|a [|b [|d [|]]]]|]; try (cbn; lia).
      apply asked_le_pure. intros o1 _. apply asked_le_pure. intros here J.
      replace (2 * L + 3 + L * (2 * (L + 1))) with (L + 1 + 1 + (L + 1 + 0 + (L * (2 * (L + 1)) + 0))) by lia.
      apply asked_le; [apply (linear_le 1 1); [apply linear_dictionary_encoding|eapply jumped_nonneg; [exact Hp|eassumption]]|].
      intros (e & h1) _. apply asked_le_pure. intros o2 _. apply asked_le_pure. intros here2 J2.
      pose proof (jumped_nonneg _ _ _ _ Hp J2) as N.
      apply asked_le; [apply (linear_le 1 0); [apply linear_index|exact N]|].
      intros (ds & h2) R. apply asked_le_pure. intros opss D. apply asked_le.
      + rewrite privates_le. apply Nat.mul_le_mono_r. eapply index_elements; eauto.
      + intros (rs & h3) _. apply asked_le_pure. intros r _. apply asked_le_pure. intros o _. cbn. lia.
    - rewrite <- (Nat.add_0_r (_ + _)). apply asked_le; [|intros (r & h) _; cbn; lia].
      rewrite private_le. lia.
  Qed.

  Lemma font_le i ops g : length (asked tape (font_plan cfg p i ops g)) <= 5 * L + 8 + L * (2 * (L + 1)).
  Proof.
    unfold font_plan. apply asked_le_pure. intros o1 _. apply asked_le_pure. intros here J. apply asked_le_pure. intros format _.
    replace (5 * L + 8 + L * (2 * (L + 1))) with
      (L + 1 + 0 + (L + 1 + 1 + (L + 1 + 1 + (2 * L + 3 + L * (2 * (L + 1)) + 0)))) by lia.
    apply asked_le; [apply (linear_le 1 0); [apply linear_character_strings|eapply jumped_nonneg; [exact Hp|eassumption]]|].
    intros (cs & h1) _. apply asked_le_pure. intros o2 _. apply asked_le.
    { destruct (Z.eqb o2 0); [cbn; lia|]. destruct (Z.eqb o2 1); [cbn; lia|]. destruct (Z.eqb o2 2); [cbn; lia|].
      apply asked_le_pure. intros here2 J2. destruct (nth_error _ i); [|cbn; lia].
      apply (linear_le 1 1); [apply linear_character_set|eapply jumped_nonneg; [exact Hp|eassumption]]. }
    intros (set & h2) _. apply asked_le_pure. intros o3 _. apply asked_le.
    { destruct (Z.eqb o3 0); [cbn; lia|]. destruct (Z.eqb o3 1); [cbn; lia|].
      apply asked_le_pure. intros here2 J2.
      apply (linear_le 1 1); [apply linear_encoding|eapply jumped_nonneg; [exact Hp|eassumption]]. }
    intros (enc & h3) _. destruct (nth_error _ i); [|cbn; lia]. apply asked_le; [apply record_le|].
    intros (r & h4) _. cbn. lia.
  Qed.

  Lemma fonts_le opss : forall here i g,
    length (asked tape (fonts_plan cfg p here i opss g)) <= length opss * (5 * L + 8 + L * (2 * (L + 1))).
  Proof.
    induction opss as [|ops opss IH]; intros here i g; cbn [fonts_plan length]; [cbn; lia|]. cbn [Nat.mul].
    apply asked_le; [apply font_le|]. intros (g' & h) _. apply IH.
  Qed.

  Lemma font_set_le : length (asked tape (font_set_plan cfg p)) <= 2 * (L + 2) ^ 3.
  Proof.
    apply (Nat.le_trans _ (L + 1 + 0 + (L + 1 + 0 + (L + 1 + 0 + (L + 1 + 0 + (L + 1 + 0 +
      (L * (5 * L + 8 + L * (2 * (L + 1))) + 0))))))).
    2: cbn [Nat.pow]; nia.
    unfold font_set_plan. apply asked_le; [apply (linear_le 1 0); auto using linear_header|]. intros (h & h0) _.
    apply asked_le_pure. intros here J. pose proof (jumped_nonneg _ _ _ _ Hp J) as N.
    apply asked_le; [apply (linear_le 1 0); auto using linear_index|]. intros (names & h1) R1.
    pose proof (linear_there _ _ _ _ _ _ (linear_index cfg) N R1) as N1.
    apply asked_le; [apply (linear_le 1 0); auto using linear_index|]. intros (ds & h2) R2.
    pose proof (linear_there _ _ _ _ _ _ (linear_index cfg) N1 R2) as N2.
    apply asked_le_pure. intros opss D.
    apply asked_le; [apply (linear_le 1 0); auto using linear_index|]. intros (strings & h3) R3.
    pose proof (linear_there _ _ _ _ _ _ (linear_index cfg) N2 R3) as N3.
    apply asked_le; [apply (linear_le 1 0); auto using linear_index|]. intros (subrs & h4) _.
    apply asked_le; [|intros (g & h5) _; cbn; lia].
    rewrite fonts_le. apply Nat.mul_le_mono_r. exact (index_elements _ _ _ _ N1 R2 D).
  Qed.

  (** ** Success *)

  Lemma linear_ok {A} l x (pl : planner A) rd here a there : linear l x pl -> agrees pl rd -> (0 <= here)%Z ->
    result tape (pl here) = Ok (a, there) ->
    exists n r, n <= length (asked tape (pl here)) <= n + x /\ there = (here + Z.of_nat n)%Z /\
      rd (rest_at tape here) = Ok (a, r) /\ length (rest_at tape here) = n + length r /\ n <= L.
  Proof.
    intros Hl Ha N E. destruct (Hl tape here N) as (n & Ln & _ & R). rewrite E in R. destruct R as (_ & T & B).
    rewrite (proj2 Ha) in E by assumption. unfold taken in E. apply bind_iff in E as ([a' r] & E & F).
    injection F as -> F. exists n, r. destruct (proj1 Ha _ _ _ E) as (e & Es). pose proof (rest_at_length tape here).
    rewrite Es, app_length in *. unfold L. repeat split; auto; lia.
  Qed.

  Lemma private_ok top r there : result tape (private_plan cfg p top) = Ok (r, there) ->
    length (asked tape (private_plan cfg p top)) <= 2 * L /\ private_weight r <= 2 * length (asked tape (private_plan cfg p top)).
  Proof.
    unfold private_plan. intros H.
    apply result_then in H as ([size offset] & D & H). rewrite (asked_pure _ _ _ _ D).
    apply result_then in H as (here & J & H). rewrite (asked_pure _ _ _ _ J). cbn [fst carried_out] in J.
    apply result_then in H as ([chunk h1] & C & H). rewrite (asked_then _ _ _ _ C).
    pose proof (jumped_nonneg _ _ _ _ Hp J) as N.
    apply (linear_ok 0 0 _ _ _ _ _ (linear_bytes _) (vec_agrees cfg 1 byte_plan take_byte _ (as_usize size) byte_agrees take_byte_sound
      ltac:(intros ? ? ->; discriminate)) N) in C as (n & r' & B & _ & T & E & BL).
    apply take_vec_length in T; [|exact shrinks_byte].
    apply result_then in H as (ops & O & H). rewrite (asked_pure _ _ _ _ O). cbn [fst carried_out] in O.
    apply dictionary_size in O.
    apply result_then in H as (another & An & H). rewrite (asked_pure _ _ _ _ An). rewrite app_length.
    destruct another as [another|].
    - apply result_then in H as (sum & S & H). rewrite (asked_pure _ _ _ _ S).
      apply result_then in H as (here2 & J2 & H). rewrite (asked_pure _ _ _ _ J2). cbn [fst carried_out] in J2.
      apply result_then in H as ([x h2] & X & H). rewrite (asked_then _ _ _ _ X). cbn [carried_out snd fst] in *. rewrite app_nil_r.
      injection H as <- <-.
      apply (linear_ok 1 0 _ _ _ _ _ (linear_index cfg) (index_agrees cfg) (jumped_nonneg _ _ _ _ Hp J2))
        in X as (n2 & r2 & B2 & _ & T2 & E2 & BL2).
      apply read_index_weight in T2. unfold private_weight. cbn [private_operations private_subroutines]. lia.
    - cbn [carried_out snd fst length] in *. injection H as <- <-. unfold private_weight.
      cbn [private_operations private_subroutines]. rewrite empty_index_weight. lia.
  Qed.

  Lemma privates_ok tops : forall here rs there, result tape (privates_plan cfg p here tops) = Ok (rs, there) ->
    length (asked tape (privates_plan cfg p here tops)) <= 2 * L * length rs /\
    list_sum (map private_weight rs) <= 2 * length (asked tape (privates_plan cfg p here tops)).
  Proof.
    induction tops as [|top tops IH]; intros here rs there H; cbn [privates_plan] in *.
    - cbn in *. injection H as <- <-. cbn. lia.
    - apply result_then in H as ([r h1] & R & H). rewrite (asked_then _ _ _ _ R).
      apply result_then in H as ([rs' h2] & Rs & H). rewrite (asked_then _ _ _ _ Rs).
      cbn [carried_out fst snd] in *. injection H as <- <-. apply private_ok in R. apply IH in Rs.
      rewrite app_nil_r, app_length. cbn [map length]. rewrite list_sum_cons. nia.
  Qed.

  Lemma record_ok top cs r there : result tape (record_plan cfg p top cs) = Ok (r, there) ->
    length (asked tape (record_plan cfg p top cs)) <= 2 * L + 1 + 2 * L * privates r /\
    record_weight r <= 2 * length (asked tape (record_plan cfg p top cs)).
  Proof.
    unfold record_plan. intros H. destruct (map_contains top Op_ROS).
    - apply result_then in H as ([c h1] & C & H). rewrite (asked_then _ _ _ _ C). cbn [carried_out fst snd] in *.
      injection H as <- <-. rewrite app_nil_r. unfold cid_plan in *.
      destruct (operations_get top Op_ROS) as [[|a [|b [|d [|]]]]|]; try discriminate. rename C into H.
      apply result_then in H as (select & S & H). rewrite (asked_pure _ _ _ _ S).
      apply result_then in H as (here & J & H). rewrite (asked_pure _ _ _ _ J). cbn [fst carried_out] in J.
      apply result_then in H as ([enc h2] & E & H). rewrite (asked_then _ _ _ _ E).
      apply result_then in H as (array & A & H). rewrite (asked_pure _ _ _ _ A).
      apply result_then in H as (here2 & J2 & H). rewrite (asked_pure _ _ _ _ J2). cbn [fst carried_out] in J2.
      apply result_then in H as ([ds h3] & D & H). rewrite (asked_then _ _ _ _ D).
      apply result_then in H as (opss & O & H). rewrite (asked_pure _ _ _ _ O). cbn [fst carried_out] in O.
      apply dictionaries_length in O as [_ O].
      apply result_then in H as ([rs h4] & R & H). rewrite (asked_then _ _ _ _ R).
      apply result_then in H as (i1 & I1 & H). rewrite (asked_pure _ _ _ _ I1).
      apply result_then in H as (i2 & I2 & H). rewrite (asked_pure _ _ _ _ I2).
      cbn [carried_out fst snd] in H |- *. injection H as <- <-. apply privates_ok in R as [R1 R2].
      apply (linear_ok 1 1 _ _ _ _ _ (linear_dictionary_encoding cfg _) (dictionary_encoding_agrees cfg _)
        (jumped_nonneg _ _ _ _ Hp J)) in E as (n1 & r1 & B1 & _ & T1 & E1 & BL1).
      apply selector_length in T1.
      apply (linear_ok 1 0 _ _ _ _ _ (linear_index cfg) (index_agrees cfg)
        (jumped_nonneg _ _ _ _ Hp J2)) in D as (n2 & r2 & B2 & _ & T2 & E2 & BL2).
      apply read_index_weight in T2. cbn [record_weight privates cid_encoding cid_operations cid_records].
      rewrite app_nil_r, !app_length. lia.
    - apply result_then in H as ([r' h1] & R & H). rewrite (asked_then _ _ _ _ R). cbn [carried_out fst snd] in *.
      injection H as <- <-. rewrite app_nil_r. cbn [record_weight privates]. apply private_ok in R. lia.
  Qed.

  Lemma font_ok i ops g g' there : length (character_strings g) = i -> result tape (font_plan cfg p i ops g) = Ok (g', there) ->
    exists r, records g' = records g ++ [r] /\ length (character_strings g') = S i /\
      length (asked tape (font_plan cfg p i ops g)) <= 5 * L + 3 + 2 * L * privates r /\
      gathered_weight g' <= gathered_weight g + 2 * length (asked tape (font_plan cfg p i ops g)).
  Proof.
    intros Li H. unfold font_plan in *.
    apply result_then in H as (strings & S & H). rewrite (asked_pure _ _ _ _ S).
    apply result_then in H as (here & J & H). rewrite (asked_pure _ _ _ _ J). cbn [fst carried_out] in J.
    apply result_then in H as (format & F & H). rewrite (asked_pure _ _ _ _ F).
    apply result_then in H as ([cs h1] & C & H). rewrite (asked_then _ _ _ _ C).
    unfold character_strings_plan in *. destruct (Z.eqb_spec format 2) as [->|]; [|discriminate].
    assert (Ni : nth_error (character_strings g ++ [cs]) i = Some cs).
    { rewrite nth_error_app2 by lia. replace (i - _)%nat with 0%nat by lia. reflexivity. }
    apply (linear_ok 1 0 _ _ _ _ _ (linear_index cfg) (index_agrees cfg) (jumped_nonneg _ _ _ _ Hp J))
      in C as (n1 & r1 & B1 & _ & T1 & E1 & BL1).
    apply read_index_weight in T1.
    apply result_then in H as (so & So & H). rewrite (asked_pure _ _ _ _ So). rewrite Ni in H |- *.
    apply result_then in H as ([set h2] & Se & H). rewrite (asked_then _ _ _ _ Se).
    match type of Se with fst (carried_out tape ?m) = _ => assert (Q1 : character_set_weight set <= length (asked tape m) <= L + 1) end.
    { destruct (Z.eqb so 0); [injection Se as <- _; cbn; lia|]. destruct (Z.eqb so 1); [injection Se as <- _; cbn; lia|].
      destruct (Z.eqb so 2); [injection Se as <- _; cbn; lia|].
      apply result_then in Se as (here2 & J2 & Se). rewrite (asked_pure _ _ _ _ J2). cbn [fst carried_out] in J2.
      apply (linear_ok 1 1 _ _ _ _ _ (linear_character_set cfg _) (character_set_agrees cfg _) (jumped_nonneg _ _ _ _ Hp J2))
        in Se as (n & r & B & _ & T & E & BL). apply character_set_length in T. lia. }
    apply result_then in H as (eo & Eo & H). rewrite (asked_pure _ _ _ _ Eo).
    apply result_then in H as ([enc h3] & En & H). rewrite (asked_then _ _ _ _ En).
    match type of En with fst (carried_out tape ?m) = _ => assert (Q2 : encoding_weight enc <= length (asked tape m) <= L + 1) end.
    { destruct (Z.eqb eo 0); [injection En as <- _; cbn; lia|]. destruct (Z.eqb eo 1); [injection En as <- _; cbn; lia|].
      apply result_then in En as (here2 & J2 & En). rewrite (asked_pure _ _ _ _ J2). cbn [fst carried_out] in J2.
      apply (linear_ok 1 1 _ _ _ _ _ (linear_encoding cfg) (encoding_agrees cfg) (jumped_nonneg _ _ _ _ Hp J2))
        in En as (n & r & B & _ & T & E & BL). apply encoding_length in T. lia. }
    apply result_then in H as ([r h4] & R & H). rewrite (asked_then _ _ _ _ R).
    cbn [carried_out fst snd] in H |- *. injection H as <- <-. apply record_ok in R.
    exists r. cbn [records character_strings]. split; [reflexivity|]. split; [rewrite app_length; cbn; lia|].
    rewrite app_nil_r, !app_length. unfold gathered_weight. cbn [encodings character_sets character_strings records].
    rewrite !map_app, !list_sum_app. cbn [map]. rewrite !list_sum_cons. change (list_sum []) with 0. lia.
  Qed.

  Lemma fonts_ok opss : forall here i g g' there, length (character_strings g) = i ->
    result tape (fonts_plan cfg p here i opss g) = Ok (g', there) ->
    exists rs, records g' = records g ++ rs /\ length rs = length opss /\
      length (asked tape (fonts_plan cfg p here i opss g)) <= (5 * L + 3) * length rs + 2 * L * list_sum (map privates rs) /\
      gathered_weight g' <= gathered_weight g + 2 * length (asked tape (fonts_plan cfg p here i opss g)).
  Proof.
    induction opss as [|ops opss IH]; intros here i g g' there Li H; cbn [fonts_plan] in *.
    - cbn in H. injection H as <- <-. exists []. rewrite app_nil_r. cbn. repeat split; lia.
    - apply result_then in H as ([g1 h1] & F & H). rewrite (asked_then _ _ _ _ F).
      apply (font_ok _ _ _ _ _ Li) in F as (r & R & Lr & A & W).
      apply (IH _ _ _ _ _ Lr) in H as (rs & Rs & Ls & As & Ws).
      exists (r :: rs). rewrite Rs, R, <- app_assoc. split; [reflexivity|]. cbn [length map]. rewrite list_sum_cons, app_length.
      split; [lia|]. split; [nia|lia].
  Qed.

  Lemma font_set_ok f there : result tape (font_set_plan cfg p) = Ok (f, there) ->
    length (asked tape (font_set_plan cfg p)) <=
      5 * L + (5 * L + 3) * length (fs_operations f) + 2 * L * list_sum (map privates (fs_records f)) /\
    font_set_weight f <= 2 * length (asked tape (font_set_plan cfg p)).
  Proof.
    unfold font_set_plan. intros H.
    apply result_then in H as ([h h0] & Hd & H). rewrite (asked_then _ _ _ _ Hd).
    apply (linear_ok 1 0 _ _ _ _ _ linear_header header_agrees Hp) in Hd as (n0 & r0 & B0 & _ & T0 & E0 & BL0).
    apply result_then in H as (here & J & H). rewrite (asked_pure _ _ _ _ J). cbn [fst carried_out] in J.
    pose proof (jumped_nonneg _ _ _ _ Hp J) as N.
    apply result_then in H as ([names h1] & R1 & H). rewrite (asked_then _ _ _ _ R1).
    pose proof (linear_there _ _ _ _ _ _ (linear_index cfg) N R1) as N1.
    apply (linear_ok 1 0 _ _ _ _ _ (linear_index cfg) (index_agrees cfg) N) in R1 as (n1 & r1 & B1 & _ & T1 & E1 & BL1).
    apply read_index_weight in T1.
    apply result_then in H as ([ds h2] & R2 & H). rewrite (asked_then _ _ _ _ R2).
    pose proof (linear_there _ _ _ _ _ _ (linear_index cfg) N1 R2) as N2.
    apply (linear_ok 1 0 _ _ _ _ _ (linear_index cfg) (index_agrees cfg) N1) in R2 as (n2 & r2 & B2 & _ & T2 & E2 & BL2).
    apply read_index_weight in T2.
    apply result_then in H as (opss & D & H). rewrite (asked_pure _ _ _ _ D). cbn [fst carried_out] in D.
    apply dictionaries_length in D as [_ D].
    apply result_then in H as ([strings h3] & R3 & H). rewrite (asked_then _ _ _ _ R3).
    pose proof (linear_there _ _ _ _ _ _ (linear_index cfg) N2 R3) as N3.
    apply (linear_ok 1 0 _ _ _ _ _ (linear_index cfg) (index_agrees cfg) N2) in R3 as (n3 & r3 & B3 & _ & T3 & E3 & BL3).
    apply read_index_weight in T3.
    apply result_then in H as ([subrs h4] & R4 & H). rewrite (asked_then _ _ _ _ R4).
    apply (linear_ok 1 0 _ _ _ _ _ (linear_index cfg) (index_agrees cfg) N3) in R4 as (n4 & r4 & B4 & _ & T4 & E4 & BL4).
    apply read_index_weight in T4.
    apply result_then in H as ([g h5] & Fo & H). rewrite (asked_then _ _ _ _ Fo).
    cbn [carried_out fst snd] in H |- *. injection H as <- <-.
    apply (fonts_ok opss _ 0 {| encodings := []; character_sets := []; character_strings := []; records := [] |} _ _ eq_refl)
      in Fo as (rs & Rs & Ls & As & Ws).
    cbn [records app] in Rs. unfold font_set_weight, gathered_weight in *.
    cbn [encodings character_sets character_strings records fs_names fs_operations fs_strings fs_subroutines fs_encodings
       fs_character_strings fs_character_sets fs_records map] in *.
    change (list_sum []) with 0 in Ws. rewrite Rs in *. rewrite app_nil_r, !app_length. rewrite Ls in *. lia.
  Qed.
End At.

Lemma work_grows cfg (n : nat) : 1 <= n -> (Z.of_nat n < 2 ^ 16)%Z ->
  exists tape f place, length tape = 25 + 57 * n /\ result tape (font_set_plan cfg 0) = Ok (f, place) /\
    n ^ 3 <= 2 * length (asked tape (font_set_plan cfg 0)).
Proof.
  intros H M. destruct (font_set_grows cfg n H M) as (tape & f & E & R & W).
  assert (K : exists place, result tape (font_set_plan cfg 0) = Ok (f, place)).
  { rewrite font_set_plan_agrees by lia. rewrite <- font_set_agrees in R by lia.
    destruct (font_set_taken cfg tape 0) as [[f' place]| | |]; try discriminate. injection R as ->. eauto. }
  destruct K as (place & K). exists tape, f, place. split; [exact E|]. split; [exact K|].
  apply font_set_ok in K as [_ K]; lia.
Qed.

(** ** Readers that do not jump *)

Lemma linear_places {A} l x (pl : planner A) tape here a there : linear l x pl -> (0 <= here)%Z ->
  result tape (pl here) = Ok (a, there) -> forall q, In q (asked tape (pl here)) <-> (here <= q < there)%Z.
Proof. intros H N E q. destruct (H tape here N) as (n & _ & Q & R). rewrite E in R. rewrite Q. lia. Qed.

Lemma places cfg tape here n : (0 <= here)%Z ->
  (forall a there, result tape (index_plan cfg here) = Ok (a, there) ->
    forall q, In q (asked tape (index_plan cfg here)) <-> (here <= q < there)%Z) /\
  (forall a there, result tape (character_set_plan cfg n here) = Ok (a, there) ->
    forall q, In q (asked tape (character_set_plan cfg n here)) <-> (here <= q < there)%Z) /\
  (forall a there, result tape (encoding_plan cfg here) = Ok (a, there) ->
    forall q, In q (asked tape (encoding_plan cfg here)) <-> (here <= q < there)%Z) /\
  (forall a there, result tape (dictionary_encoding_plan cfg n here) = Ok (a, there) ->
    forall q, In q (asked tape (dictionary_encoding_plan cfg n here)) <-> (here <= q < there)%Z).
Proof.
  intros N. split; [|split; [|split]]; intros a there E.
  - exact (linear_places 1 0 _ _ _ _ _ (linear_index cfg) N E).
  - exact (linear_places 1 1 _ _ _ _ _ (linear_character_set cfg n) N E).
  - exact (linear_places 1 1 _ _ _ _ _ (linear_encoding cfg) N E).
  - exact (linear_places 1 1 _ _ _ _ _ (linear_dictionary_encoding cfg n) N E).
Qed.

Lemma readers_le cfg tape here n : (0 <= here)%Z ->
  length (asked tape (index_plan cfg here)) <= length tape + 1 /\
  length (asked tape (character_set_plan cfg n here)) <= length tape + 2 /\
  length (asked tape (encoding_plan cfg here)) <= length tape + 2 /\
  length (asked tape (dictionary_encoding_plan cfg n here)) <= length tape + 2.
Proof.
  intros N. pose proof (linear_le tape 1 0 _ _ (linear_index cfg) N).
  pose proof (linear_le tape 1 1 _ _ (linear_character_set cfg n) N).
  pose proof (linear_le tape 1 1 _ _ (linear_encoding cfg) N).
  pose proof (linear_le tape 1 1 _ _ (linear_dictionary_encoding cfg n) N). lia.
Qed.

Lemma plans_agree cfg tape p : (0 <= p)%Z ->
  result tape (font_set_plan cfg p) = font_set_taken cfg tape p /\ result tape (count_plan cfg p) = count_taken cfg tape p.
Proof. intros Hp. split; [apply font_set_plan_agrees|apply count_plan_agrees]; assumption. Qed.

Lemma reader_plans_agree cfg tape here n : (0 <= here)%Z ->
  result tape (index_plan cfg here) = taken (read_index cfg) tape here /\
  result tape (character_set_plan cfg n here) = taken (read_character_set cfg n) tape here /\
  result tape (encoding_plan cfg here) = taken (read_encoding cfg) tape here /\
  result tape (dictionary_encoding_plan cfg n here) = taken (read_dictionary_encoding cfg n) tape here.
Proof.
  intros N. split; [|split; [|split]].
  - apply (proj2 (index_agrees cfg)); assumption.
  - apply (proj2 (character_set_agrees cfg n)); assumption.
  - apply (proj2 (encoding_agrees cfg)); assumption.
  - apply (proj2 (dictionary_encoding_agrees cfg n)); assumption.
Qed.

(** FontSetFacts: proofs about font sets. *)
From Verif Require Import Base Float C1Number C1Operation C1Index C1Glyphs C1FontSet BaseFacts
  SpecNumber NumberFacts SpecOperation OperationFacts SpecIndex IndexFacts StringFacts SpecGlyphs GlyphFacts
  SpecFontSet.

(** ** Places *)

Lemma jump_iff cfg tape p offset s : 0 <= p ->
  jump cfg tape p offset = Ok s <->
  exists place, located (overflow_checks cfg) p offset place /\ s = rest_at tape place.
Proof.
  intros Hp. unfold jump, add_u64, as_u64, located.
  assert (M : (p + offset mod 2 ^ 64) mod 2 ^ 64 = (p + offset) mod 2 ^ 64)
    by (rewrite Zplus_mod_idemp_r; reflexivity).
  pose proof (Z.mod_pos_bound offset (2 ^ 64) ltac:(lia)) as B.
  destruct (in_u64 (p + offset mod 2 ^ 64)) eqn:U.
  - unfold in_u64 in U. cbn [bind]. rewrite Z.mod_small in M by lia. rewrite M. split.
    + intros H. injection H as <-. eexists. split; [split; [reflexivity|]|reflexivity]. lia.
    + intros (place & (-> & _) & ->). reflexivity.
  - unfold in_u64 in U. destruct (overflow_checks cfg); cbn [bind].
    + split; [discriminate|]. intros (place & (_ & C) & _). specialize (C eq_refl). lia.
    + rewrite M. split.
      * intros H. injection H as <-. eexists. split; [split; [reflexivity|discriminate]|reflexivity].
      * intros (place & (-> & _) & ->). reflexivity.
Qed.

Lemma rest_at_skipn tape place : 0 <= place -> rest_at tape place = skipn (Z.to_nat place) tape.
Proof.
  intros H. unfold rest_at. destruct (Z.leb_spec (Z.of_nat (length tape)) place); auto.
  symmetry. apply skipn_all2. lia.
Qed.

Lemma located_nonneg checks p offset place : located checks p offset place -> 0 <= place.
Proof. intros (-> & _). apply Z.mod_pos_bound. lia. Qed.

(** Reading at a place. *)
Lemma jump_read {A} cfg tape p offset (rd : reader A) enc x : 0 <= p ->
  sound rd enc -> complete rd enc ->
  (exists s r, jump cfg tape p offset = Ok s /\ rd s = Ok (x, r)) <->
  exists e, found (overflow_checks cfg) tape p offset e /\ enc e x.
Proof.
  intros Hp Hs Hc. split.
  - intros (s & r & J & R). apply (jump_iff _ _ _ _ _ Hp) in J as (place & L & ->).
    pose proof (located_nonneg _ _ _ _ L). rewrite rest_at_skipn in R by assumption.
    apply Hs in R as (e & E & X). exists e. split; auto. exists place. split; auto.
    split; auto. eauto.
  - intros (e & (place & L & N & r & E) & X). exists (rest_at tape place), r. split.
    + apply jump_iff; eauto.
    + rewrite rest_at_skipn, E by assumption. apply Hc, X.
Qed.

Lemma bind_iff {A B} (m : outcome A) (k : A -> outcome B) b :
  bind m k = Ok b <-> exists a, m = Ok a /\ k a = Ok b.
Proof.
  split.
  - destruct m; cbn [bind]; intros H; try discriminate. eauto.
  - intros (a & -> & H). exact H.
Qed.

(** The same, in the form in which it occurs. *)
Lemma jump_bind {A B} cfg tape p offset (rd : reader A) enc (k : A -> outcome B) b : 0 <= p ->
  sound rd enc -> complete rd enc ->
  bind (jump cfg tape p offset) (fun s => bind (rd s) (fun xr => let '(x, _) := xr in k x)) = Ok b <->
  exists e x, found (overflow_checks cfg) tape p offset e /\ enc e x /\ k x = Ok b.
Proof.
  intros Hp Hs Hc. rewrite bind_iff. split.
  - intros (s & J & H). apply bind_iff in H as ([x r] & R & K).
    assert (X : exists s r, jump cfg tape p offset = Ok s /\ rd s = Ok (x, r)) by eauto.
    apply (jump_read _ _ _ _ _ _ _ Hp Hs Hc) in X as (e & F & X). eauto.
  - intros (e & x & F & X & K).
    assert (Y : exists s r, jump cfg tape p offset = Ok s /\ rd s = Ok (x, r))
      by (apply (jump_read _ _ _ _ _ _ _ Hp Hs Hc); eauto).
    destruct Y as (s & r & J & R). exists s. split; auto. rewrite R. exact K.
Qed.

(** ** Operands *)

Lemma single_iff ops o v : get_single ops o = Some v <-> exists more, operand_list ops o (v :: more).
Proof.
  unfold get_single. split.
  - destruct (operations_get ops o) as [[|w vs]|] eqn:E; try discriminate. intros H. injection H as ->.
    exists vs. apply operand_list_iff, E.
  - intros (more & H). apply operand_list_iff in H. rewrite H. reflexivity.
Qed.

Lemma single_none ops o : get_single ops o = None <-> no_operand ops o.
Proof.
  unfold get_single, no_operand. split.
  - intros H v L. apply operand_list_iff in L. rewrite L in H. destruct v; congruence.
  - intros H. destruct (operations_get ops o) as [vs|] eqn:E; auto.
    apply operand_list_iff in E. rewrite (H _ E). reflexivity.
Qed.

Lemma double_iff ops o a b :
  get_double ops o = Some (a, b) <-> exists more, operand_list ops o (a :: b :: more).
Proof.
  unfold get_double. split.
  - destruct (operations_get ops o) as [[|x [|y vs]]|] eqn:E; try discriminate.
    intros H. injection H as -> ->. exists vs. apply operand_list_iff, E.
  - intros (more & H). apply operand_list_iff in H. rewrite H. reflexivity.
Qed.

Lemma need_single_iff ops o v : need_single ops o = Ok v <-> operand ops o v.
Proof.
  unfold need_single, operand. rewrite <- single_iff.
  destruct (get_single ops o) as [[z|x]|]; split; intros H; congruence.
Qed.

Lemma need_double_iff ops o a b : need_double ops o = Ok (a, b) <-> operands ops o a b.
Proof.
  unfold need_double, operands. rewrite <- double_iff.
  destruct (get_double ops o) as [[[x|x] [y|y]]|]; split; intros H; congruence.
Qed.

Lemma try_single_iff ops o v :
  try_single ops o = Ok v <->
  match v with Some z => operand ops o z | None => no_operand ops o end.
Proof.
  unfold try_single, operand. destruct v as [w|]; [rewrite <- single_iff|rewrite <- single_none];
    destruct (get_single ops o) as [[z|x]|]; split; intros H; congruence.
Qed.

Lemma operand_unique ops o v w : operand ops o v -> operand ops o w -> v = w.
Proof. intros (m1 & A) (m2 & B). pose proof (operand_list_unique _ _ _ _ A B). congruence. Qed.
Lemma operands_unique ops o a b c d : operands ops o a b -> operands ops o c d -> a = c /\ b = d.
Proof. intros (m1 & A) (m2 & B). pose proof (operand_list_unique _ _ _ _ A B). split; congruence. Qed.
Lemma operand_some ops o v : operand ops o v -> ~ no_operand ops o.
Proof. intros (more & H) N. discriminate (N _ H). Qed.

(** The integers of a dictionary have 32 bits. *)
Definition bounded (ops : operations) : Prop :=
  forall o vs v, operand_list ops o vs -> In (Integer v) vs -> - 2 ^ 31 <= v < 2 ^ 31.

Lemma default_bounded o vs v : operator_default o = Some vs -> In (Integer v) vs -> - 2 ^ 31 <= v < 2 ^ 31.
Proof.
  intros H I. destruct o; try discriminate H; injection H as <-;
    repeat (destruct I as [I|I]; [first [discriminate I|injection I as <-; lia]|]); contradiction.
Qed.

Lemma each_in {A} (enc : list byte -> A -> Prop) e xs x :
  each enc e xs -> In x xs -> exists e', enc e' x.
Proof. induction 1 as [|e y es ys H E IH]; [intros []|]. intros [->|I]; eauto. Qed.

Lemma dictionary_bounded s ops : dictionary_data s ops -> bounded ops.
Proof.
  intros (e & l & t & -> & D & C & ->) o vs v [G|[_ G]] I.
  - apply table_entry in G as (before & after & -> & _).
    destruct (each_in _ _ _ (o, vs) D) as (e' & es & _ & E). { apply in_or_app. right. left. reflexivity. }
    cbn [snd] in E. destruct (each_in _ _ _ _ E I) as (e2 & X).
    eapply integer_encoding_range. exact X.
  - apply default_iff in G. eapply default_bounded; eauto.
Qed.

Lemma bounded_single ops o v : bounded ops -> operand ops o v -> - 2 ^ 31 <= v < 2 ^ 31.
Proof. intros B (more & H). apply (B _ _ _ H). left. reflexivity. Qed.

Lemma bounded_double ops o a b : bounded ops -> operands ops o a b ->
  - 2 ^ 31 <= a < 2 ^ 31 /\ - 2 ^ 31 <= b < 2 ^ 31.
Proof. intros B (more & H). split; apply (B _ _ _ H); [left|right; left]; reflexivity. Qed.

Lemma add_i32_iff cfg a b c : add_i32 cfg a b = Ok c <-> summed (overflow_checks cfg) a b c.
Proof.
  unfold add_i32, summed, in_i32, as_i32, signed.
  pose proof (Z.mod_pos_bound (a + b) (2 ^ 32) ltac:(lia)) as B1.
  pose proof (Z.mod_pos_bound (a + b + 2 ^ 31) (2 ^ 32) ltac:(lia)) as B2.
  assert (E : (a + b + 2 ^ 31) mod 2 ^ 32 - 2 ^ 31 =
    if (a + b) mod 2 ^ 32 <? 2 ^ (32 - 1) then (a + b) mod 2 ^ 32 else (a + b) mod 2 ^ 32 - 2 ^ 32).
  { pose proof (Z.div_mod (a + b) (2 ^ 32) ltac:(lia)) as D1.
    pose proof (Z.div_mod (a + b + 2 ^ 31) (2 ^ 32) ltac:(lia)) as D2.
    change (2 ^ (32 - 1)) with (2 ^ 31).
    destruct (Z.ltb_spec ((a + b) mod 2 ^ 32) (2 ^ 31)); lia. }
  rewrite <- E. destruct (Z.leb_spec (- 2 ^ 31) (a + b)), (Z.ltb_spec (a + b) (2 ^ 31)); cbn [andb];
    try (destruct (overflow_checks cfg); split;
         [discriminate|intros (_ & C); specialize (C eq_refl); lia
         |intros H1; injection H1 as <-; split; [reflexivity|discriminate]|intros (-> & _); reflexivity]).
  rewrite (Z.mod_small (a + b + 2 ^ 31)) by lia. split.
  - intros H1. injection H1 as <-. split; lia.
  - intros (-> & _). f_equal. lia.
Qed.

Lemma index_count e x : index_encoding e x -> count x = Z.of_nat (length (data x)) /\ 0 <= count x < 2 ^ 16.
Proof.
  intros (size & chunks & (F & _) & _ & ->). destruct chunks as [|c cs]; cbn [index_value count data length] in *.
  - split; auto. lia.
  - split; auto. lia.
Qed.

(** ** Private dictionaries *)

Section Tape.
Context (cfg : config) (tape : list byte) (p : Z).
Context (Hp : 0 <= p) (Ht : Z.of_nat (length tape) < 2 ^ 63).
Let checks := overflow_checks cfg.

Lemma stands_length place e : stands tape place e -> (length e <= length tape)%nat.
Proof.
  intros (_ & r & E). pose proof (skipn_length (Z.to_nat place) tape) as L. rewrite E, app_length in L. lia.
Qed.

Lemma read_chunk size offset s r chunk : - 2 ^ 31 <= size < 2 ^ 31 ->
  jump cfg tape p offset = Ok s ->
  take_vec cfg 1 take_byte (as_usize size) s = Ok (chunk, r) ->
  0 <= size /\ s = chunk ++ r /\ Z.of_nat (length chunk) = size.
Proof.
  intros B J T.
  assert (L : (length s <= length tape)%nat).
  { apply (jump_iff _ _ _ _ _ Hp) in J as (place & L & ->).
    rewrite rest_at_skipn by (eapply located_nonneg; eauto). rewrite skipn_length. lia. }
  apply (take_vec_sound _ _ _ (fun e b => e = [b])) in T as (T1 & e & -> & T2).
  - apply each_byte in T2 as ->. rewrite app_length in L. unfold as_usize, as_u64 in T1.
    destruct (Z_lt_dec size 0) as [N|N].
    + exfalso. replace (size mod 2 ^ 64) with (size + 2 ^ 64) in T1
        by (symmetry; rewrite <- (Z_mod_plus_full size 1), Z.mul_1_l; apply Z.mod_small; lia). lia.
    + rewrite Z.mod_small in T1 by lia. repeat split; lia || auto.
  - apply take_byte_sound.
  - intros e b ->. discriminate.
  - unfold as_usize, as_u64. apply Z.mod_pos_bound. lia.
Qed.

Lemma read_private_iff top r : bounded top ->
  read_private cfg tape p top = Ok r <-> private_layout checks tape p top r.
Proof.
  intros Bt. unfold read_private, private_layout. rewrite bind_iff. split.
  - intros ([size offset] & D & H). apply need_double_iff in D.
    destruct (bounded_double _ _ _ _ Bt D) as [B1 B2].
    apply bind_iff in H as (s & J & H). apply bind_iff in H as ([chunk s'] & T & H).
    pose proof (read_chunk _ _ _ _ _ B1 J T) as (N & Es & L).
    apply (jump_iff _ _ _ _ _ Hp) in J as (place & Lo & Er).
    pose proof (located_nonneg _ _ _ _ Lo). rewrite rest_at_skipn in Er by assumption.
    apply bind_iff in H as (ops & O & H). apply read_operations_iff in O.
    apply bind_iff in H as (another & An & H).
    exists size, offset, chunk. split; auto. split.
    { exists place. split; auto. split; auto. exists s'. congruence. }
    split; auto. apply try_single_iff in An. destruct another as [another|].
    + apply bind_iff in H as (sum & S & H). apply add_i32_iff in S.
      apply (jump_bind _ _ _ _ _ index_encoding) in H as (e & x & F & X & H);
        auto using read_index_sound, read_index_complete.
      injection H as <-. split; auto. right. exists another, sum, e. auto.
    + injection H as <-. split; auto.
  - intros (size & offset & chunk & D & F & L & O & S).
    exists (size, offset). split. { apply need_double_iff, D. }
    destruct (bounded_double _ _ _ _ Bt D) as [B1 B2].
    destruct F as (place & Lo & St). pose proof St as (N & rest & E).
    rewrite bind_iff. exists (rest_at tape place). split. { apply jump_iff; eauto. }
    rewrite bind_iff. exists (chunk, rest). split.
    { rewrite rest_at_skipn, E by assumption.
      apply (take_vec_complete _ _ _ (fun e b => e = [b])).
      - apply take_byte_sound.
      - apply take_byte_complete.
      - intros e b ->. discriminate.
      - unfold as_usize, as_u64, isize_max. rewrite Z.mod_small by lia. lia.
      - unfold as_usize, as_u64. rewrite Z.mod_small by lia. auto.
      - apply each_byte. reflexivity. }
    rewrite bind_iff. exists (private_operations r). split; [apply read_operations_iff, O|]. rewrite bind_iff.
    destruct r as [ops subroutines]. cbn [private_operations private_subroutines] in *.
    destruct S as [(S1 & S2)|(another & sum & e & S1 & S2 & S3 & S4)].
    + exists None. split. { apply try_single_iff, S1. } rewrite S2. reflexivity.
    + exists (Some another). split. { apply try_single_iff, S1. }
      rewrite bind_iff. exists sum. split. { apply add_i32_iff, S2. }
      apply (jump_bind _ _ _ _ _ index_encoding); auto using read_index_sound, read_index_complete.
      eauto.
Qed.

Lemma read_privates_iff tops : Forall bounded tops -> forall rs,
  read_privates cfg tape p tops = Ok rs <-> Forall2 (private_layout checks tape p) tops rs.
Proof.
  induction 1 as [|top tops B F IH]; intros rs; cbn [read_privates].
  - split; intros H; [injection H as <-; constructor|inversion H; reflexivity].
  - rewrite bind_iff. split.
    + intros (r & R & H). apply bind_iff in H as (rs' & Rs & H). injection H as <-.
      constructor; [apply read_private_iff; auto|apply IH; auto].
    + intros H. inversion H as [|a b c d P Q]; subst. exists b. split; [apply read_private_iff; auto|].
      rewrite bind_iff. exists d. split; auto. apply IH, Q.
Qed.

(** ** Glyph-to-dictionary encodings *)

Lemma read_range3_sound : sound read_range3 dictionary_range_encoding.
Proof.
  intros s x r H. destruct s as [|a [|b [|c s]]]; try discriminate.
  unfold read_range3 in H. cbn [take_u16 take_u8 bind] in H. rewrite <- be2 in H. injection H as <- <-.
  exists [a; b; c]. split; auto. exists a, b, c. auto.
Qed.
Lemma read_range3_complete : complete read_range3 dictionary_range_encoding.
Proof.
  intros e x r (b1 & b2 & b3 & -> & ->). unfold read_range3. cbn [app take_u16 take_u8 bind].
  rewrite <- be2. reflexivity.
Qed.
Lemma read_range3_total : total read_range3.
Proof. intros [|? [|? [|? ?]]]; exact I. Qed.
Lemma range3_consumes : consumes dictionary_range_encoding.
Proof. intros e x (b1 & b2 & b3 & -> & _). discriminate. Qed.

Lemma read_select_complete glyphs : 0 <= glyphs < 2 ^ 62 ->
  complete (read_dictionary_encoding cfg glyphs) (select_encoding glyphs).
Proof.
  intros G e x r H. destruct H as [ids L|e ranges sentinel L E S].
  - cbn [app]. unfold read_dictionary_encoding, peek_u8, read_dictionary_encoding0. cbn [take_u8 bind].
    change (bz x00) with 0. cbn [Z.eqb negb]. rewrite andb_false_r.
    rewrite (take_vec_complete _ _ _ u8_encoding _ ids (map bz ids));
      auto using take_u8_sound, take_u8_complete, u8_consumes.
    + unfold isize_max. lia.
    + rewrite map_length. auto.
    + apply each_u8. reflexivity.
  - unfold read_dictionary_encoding, peek_u8, read_dictionary_encoding3. cbn [app take_u8 bind].
    change (bz x03) with 3. cbn [Z.eqb Pos.eqb negb]. rewrite <- !app_assoc.
    rewrite (take_u16_complete _ (Z.of_nat (length ranges))) by (split; [lia|reflexivity]).
    cbn [bind]. rewrite (take_vec_complete _ _ _ dictionary_range_encoding _ e ranges);
      auto using read_range3_sound, read_range3_complete, range3_consumes; [|unfold isize_max; lia].
    cbn [bind]. rewrite (take_u16_complete _ sentinel) by (split; auto). reflexivity.
Qed.

Lemma read_select_sound glyphs : 0 <= glyphs ->
  sound (read_dictionary_encoding cfg glyphs) (select_encoding glyphs).
Proof.
  intros G s x r H. destruct s as [|b s]; [discriminate|].
  unfold read_dictionary_encoding, peek_u8 in H. cbn [take_u8 bind] in H.
  destruct (Z.eqb_spec (bz b) 0) as [E0|_].
  { assert (b = x00) as -> by (apply byte_is; assumption).
    unfold read_dictionary_encoding0 in H. cbn [take_u8 bind] in H. change (bz x00) with 0 in H.
    cbn [Z.eqb negb] in H. rewrite andb_false_r in H. apply bind_iff in H as ([ids s2] & T & H).
    injection H as <- <-.
    apply (take_vec_sound _ _ _ u8_encoding) in T as (L & e & -> & E);
      auto using take_u8_sound, u8_consumes.
    apply each_u8 in E as ->. rewrite map_length in L. exists (x00 :: e). split; auto. constructor; auto. }
  destruct (Z.eqb_spec (bz b) 3) as [E3|_]; [|discriminate].
  assert (b = x03) as -> by (apply byte_is; assumption).
  unfold read_dictionary_encoding3 in H. cbn [take_u8 bind] in H. change (bz x03) with 3 in H.
  cbn [Z.eqb Pos.eqb negb] in H. apply bind_iff in H as ([n s2] & T1 & H).
  apply take_u16_sound in T1 as (e1 & -> & B1 & ->).
  apply bind_iff in H as ([ranges s3] & T2 & H).
  apply (take_vec_sound _ _ _ dictionary_range_encoding) in T2 as (L & e & -> & E);
    auto using read_range3_sound, range3_consumes; [|lia].
  apply bind_iff in H as ([sentinel s4] & T3 & H). injection H as <- <-.
  apply take_u16_sound in T3 as (e3 & -> & B3 & ->). subst n.
  eexists. split; [|apply select_format3; eauto; lia]. cbn [app]. rewrite <- !app_assoc. reflexivity.
Qed.

Lemma read_select_total glyphs : glyphs < 2 ^ 62 -> total (read_dictionary_encoding cfg glyphs).
Proof.
  intros G s. destruct s as [|b s]; [exact I|].
  unfold read_dictionary_encoding, peek_u8. cbn [take_u8 bind].
  destruct (bz b =? 0) eqn:E0.
  { unfold read_dictionary_encoding0. cbn [take_u8 bind]. rewrite E0, andb_false_r.
    apply settled_bind; [apply take_vec_total; [apply take_u8_total|unfold isize_max; lia]|].
    intros [? ?] _. exact I. }
  destruct (bz b =? 3) eqn:E3; [|exact I].
  unfold read_dictionary_encoding3. cbn [take_u8 bind]. rewrite E3. cbn [negb].
  apply settled_bind; [apply take_u16_total|]. intros [n s1] H.
  apply take_u16_sound in H as (e & -> & B & _).
  apply settled_bind; [apply take_vec_total; [apply read_range3_total|unfold isize_max; lia]|].
  intros [ranges s2] _. apply settled_bind; [apply take_u16_total|]. intros [? ?] _. exact I.
Qed.

(** ** Character-ID-keyed fonts *)

Lemma tables_iff cfg' d opss :
  dictionaries_try_into cfg' d = Ok opss <-> Forall2 dictionary_data (data d) opss.
Proof.
  rewrite dictionaries_iff. split; intros H; induction H; constructor; auto; apply read_operations_iff; auto.
Qed.

Lemma dictionaries_bounded chunks opss :
  Forall2 dictionary_data chunks opss -> Forall bounded opss.
Proof. induction 1; constructor; eauto using dictionary_bounded. Qed.

Lemma read_cid_iff top cs r : bounded top -> 0 <= count cs < 2 ^ 62 ->
  read_cid cfg tape p top cs = Ok r <-> cid_layout checks tape p top (count cs) r.
Proof.
  intros Bt G. unfold read_cid, cid_layout. split.
  - intros H. destruct (operations_get top Op_ROS) as [[|n0 [|n1 [|n2 [|n3 ns]]]]|] eqn:O; try discriminate.
    apply operand_list_iff in O.
    apply bind_iff in H as (select & S & H). apply need_single_iff in S.
    apply (jump_bind _ _ _ _ _ (select_encoding (count cs))) in H as (e & enc & F & X & H);
      auto using read_select_complete; [|apply read_select_sound; lia].
    apply bind_iff in H as (array & A & H). apply need_single_iff in A.
    apply (jump_bind _ _ _ _ _ index_encoding) in H as (ea & dictionaries & Fa & Xa & H);
      auto using read_index_sound, read_index_complete.
    apply bind_iff in H as (opss & D & H). apply tables_iff in D.
    apply bind_iff in H as (records & R & H). apply read_privates_iff in R; [|eapply dictionaries_bounded; eauto].
    apply bind_iff in H as (v0 & S0 & H). apply string_id_iff in S0 as (a & -> & Na & ->).
    apply bind_iff in H as (v1 & S1 & H). apply string_id_iff in S1 as (b & -> & Nb & ->).
    injection H as <-. cbn.
    exists a, b, select, array, e, dictionaries, ea. repeat split; auto.
  - intros (a & b & select & array & e & dictionaries & ea & O & Na & Ra & Nb & Rb & S & F & X & A & Fa & Xa & D & P).
    apply operand_list_iff in O. rewrite O. rewrite bind_iff. exists select. split. { apply need_single_iff, S. }
    apply (jump_bind _ _ _ _ _ (select_encoding (count cs)));
      auto using read_select_complete. { apply read_select_sound. lia. }
    exists e, (cid_encoding r). split; [exact F|]. split; [exact X|].
    rewrite bind_iff. exists array. split. { apply need_single_iff, A. }
    apply (jump_bind _ _ _ _ _ index_encoding); auto using read_index_sound, read_index_complete.
    exists ea, dictionaries. split; [exact Fa|]. split; [exact Xa|].
    rewrite bind_iff. exists (cid_operations r). split. { apply tables_iff, D. }
    rewrite bind_iff. exists (cid_records r). split.
    { apply read_privates_iff; [eapply dictionaries_bounded; eauto|exact P]. }
    rewrite bind_iff. exists (registry r). split. { apply string_id_iff. eauto. }
    rewrite bind_iff. exists (ordering r). split. { apply string_id_iff. eauto. }
    destruct r. reflexivity.
Qed.

Lemma read_record_iff top cs r : bounded top -> 0 <= count cs < 2 ^ 62 ->
  read_record cfg tape p top cs = Ok r <-> record_layout checks tape p top (count cs) r.
Proof.
  intros Bt G. pose proof (absent_iff top Op_ROS) as A. unfold read_record, record_layout, map_contains. split.
  - destruct (map_get top Op_ROS) eqn:M; intros H; apply bind_iff in H as (x & R & H); injection H as <-.
    + split; [rewrite <- A; discriminate|]. apply read_cid_iff; auto.
    + split; [apply A; auto|]. apply read_private_iff; auto.
  - destruct r as [r|r]; intros (M & L).
    + rewrite <- A in M. destruct (map_get top Op_ROS) eqn:E; [|congruence]. rewrite bind_iff. exists r.
      split; auto. apply read_cid_iff; auto.
    + apply A in M. rewrite M. rewrite bind_iff. exists r. split; auto. apply read_private_iff; auto.
Qed.

(** ** Fonts *)

Definition push (g : gathered) (x : font) : gathered :=
  {| encodings := encodings g ++ [font_encoding x];
     character_sets := character_sets g ++ [font_character_set x];
     character_strings := character_strings g ++ [font_character_strings x];
     records := records g ++ [font_record x] |}.


Lemma read_character_set_zero s c r : Z.of_nat (length s) < 2 ^ 63 ->
  read_character_set cfg 0 s <> Ok (c, r).
Proof.
  intros L H. destruct s as [|b s]; [discriminate|].
  unfold read_character_set, peek_u8 in H. cbn [take_u8 bind] in H.
  destruct (bz b =? 0) eqn:E0.
  { unfold read_character_set0 in H. cbn [take_u8 bind] in H. rewrite E0 in H. cbn [negb] in H.
    apply bind_iff in H as (n & S & H). apply bind_iff in H as ([ids s2] & T & H).
    unfold sub_usize in S. destruct (in_u64 (0 - 1)) eqn:U; [discriminate U|].
    destruct (overflow_checks cfg); [discriminate|].
    assert (En : n = 2 ^ 64 - 1) by (injection S as <-; reflexivity). clear S.
    apply (take_vec_sound _ _ _ u16_encoding) in T as (T1 & e & -> & T2);
      auto using take_u16_sound, u16_consumes; [|lia].
    apply (each_consumes_length _ _ _ u16_consumes) in T2. cbn [length] in L. rewrite app_length in L.
    lia. }
  destruct (bz b =? 1) eqn:E1.
  { unfold read_character_set1 in H. cbn [take_u8 bind] in H. rewrite E1 in H. cbn [negb] in H.
    apply bind_iff in H as ([[ranges f] s2] & T & H). cbn [read_ranges] in T. injection T as <- <- <-.
    discriminate. }
  destruct (bz b =? 2) eqn:E2; [|discriminate].
  unfold read_character_set2 in H. cbn [take_u8 bind] in H. rewrite E2 in H. cbn [negb] in H.
  apply bind_iff in H as ([[ranges f] s2] & T & H). cbn [read_ranges] in T. injection T as <- <- <-.
  discriminate.
Qed.

Lemma no_zero_set e c : ~ character_set_encoding 0 e c.
Proof.
  intros H. destruct H as [ids L F|e ranges E C|e ranges E C]; [lia| |];
    apply covered_nonneg in E; lia.
Qed.

Lemma character_set_iff' offset n set : 0 <= n < 2 ^ 62 ->
  (if offset =? 0 then Ok ISOAdobe
   else if offset =? 1 then Ok ExpertSet
   else if offset =? 2 then Ok ExpertSubset
   else
     let* s := jump cfg tape p offset in
     let* (set, _) := read_character_set cfg n s in Ok set) = Ok set <->
  character_set_layout checks tape p offset n set.
Proof.
  intros G. unfold character_set_layout.
  assert (C : (let* s := jump cfg tape p offset in
               let* (set, _) := read_character_set cfg n s in Ok set) = Ok set <->
              exists e, found checks tape p offset e /\ character_set_encoding n e set).
  { destruct (Z.eq_dec n 0) as [->|N].
    - split.
      + intros H. apply bind_iff in H as (s & J & H). apply bind_iff in H as ([c r] & R & _).
        exfalso. eapply read_character_set_zero; [|exact R].
        apply (jump_iff _ _ _ _ _ Hp) in J as (place & L & ->).
        rewrite rest_at_skipn by (eapply located_nonneg; eauto). rewrite skipn_length. lia.
      + intros (e & _ & E). apply no_zero_set in E. contradiction.
    - assert (S : sane_count n) by (unfold sane_count; lia). rewrite (jump_bind _ _ _ _ _ (character_set_encoding n));
        auto using read_character_set_sound, read_character_set_complete.
      split.
      + intros (e & x & F & X & E). injection E as <-. eauto.
      + intros (e & F & X). eauto. }
  destruct (Z.eqb_spec offset 0) as [->|N0].
  { split.
    - intros H. injection H as <-. auto.
    - intros [(_ & ->)|[(? & _)|[(? & _)|(? & _)]]]; lia || reflexivity. }
  destruct (Z.eqb_spec offset 1) as [->|N1].
  { split.
    - intros H. injection H as <-. auto.
    - intros [(? & _)|[(_ & ->)|[(? & _)|(? & _)]]]; lia || reflexivity. }
  destruct (Z.eqb_spec offset 2) as [->|N2].
  { split.
    - intros H. injection H as <-. auto.
    - intros [(? & _)|[(? & _)|[(_ & ->)|(? & _)]]]; lia || reflexivity. }
  rewrite C. split.
  - intros H. do 3 right. split; auto. lia.
  - intros [(? & _)|[(? & _)|[(? & _)|(_ & H)]]]; lia || auto.
Qed.

Lemma encoding_iff' offset x :
  (if offset =? 0 then Ok Standard
   else if offset =? 1 then Ok ExpertEncoding
   else
     let* s := jump cfg tape p offset in
     let* (enc, _) := read_encoding cfg s in Ok enc) = Ok x <->
  encoding_layout checks tape p offset x.
Proof.
  unfold encoding_layout.
  destruct (Z.eqb_spec offset 0) as [->|N0].
  { split.
    - intros H. injection H as <-. auto.
    - intros [(_ & ->)|[(? & _)|(? & _)]]; lia || reflexivity. }
  destruct (Z.eqb_spec offset 1) as [->|N1].
  { split.
    - intros H. injection H as <-. auto.
    - intros [(? & _)|[(_ & ->)|(? & _)]]; lia || reflexivity. }
  rewrite (jump_bind _ _ _ _ _ any_encoding); auto using read_encoding_sound, read_encoding_complete.
  split.
  - intros (e & y & F & X & E). injection E as <-. right. right. split; [lia|eauto].
  - intros [(? & _)|[(? & _)|(_ & e & F & X)]]; try lia. eauto.
Qed.

Lemma read_font_iff i ops g g' : bounded ops -> length (character_strings g) = i ->
  read_font cfg tape p i ops g = Ok g' <->
  exists x, font_operations x = ops /\ font_layout checks tape p x /\ g' = push g x.
Proof.
  intros B L. unfold read_font, font_layout.
  assert (N : forall cs, nth_error (character_strings g ++ [cs]) i = Some cs).
  { intros cs. rewrite nth_error_app2 by lia. replace (i - _)%nat with 0%nat by lia. reflexivity. }
  rewrite bind_iff. split.
  - intros (strings & S & H). apply need_single_iff in S.
    apply bind_iff in H as (s & J & H). apply bind_iff in H as (format & F & H). apply need_single_iff in F.
    apply bind_iff in H as ([cs r] & R & H). unfold read_character_strings in R.
    destruct (Z.eqb_spec format 2) as [->|]; [|discriminate].
    assert (X : exists s r, jump cfg tape p strings = Ok s /\ read_index cfg s = Ok (cs, r)) by eauto.
    apply (jump_read _ _ _ _ _ index_encoding) in X as (e & Fe & Xe);
      auto using read_index_sound, read_index_complete.
    cbv zeta in H. rewrite (N cs) in H.
    apply bind_iff in H as (set & Cs & H). apply need_single_iff in Cs.
    apply bind_iff in H as (c & C & H).
    apply bind_iff in H as (code & E & H). apply need_single_iff in E.
    apply bind_iff in H as (enc & En & H). apply encoding_iff' in En.
    apply bind_iff in H as (rc & Rc & H). injection H as <-.
    destruct (index_count _ _ Xe) as [_ G]. apply character_set_iff' in C; [|lia].
    apply read_record_iff in Rc; [|auto|lia].
    exists {| font_operations := ops; font_encoding := enc; font_character_set := c;
              font_character_strings := cs; font_record := rc |}. split; auto. split; [|reflexivity].
    exists strings, set, code, e. cbn. auto 10.
  - intros (x & <- & (strings & set & code & e & S & F & Fe & Xe & Cs & C & E & En & Rc) & ->).
    exists strings. split. { apply need_single_iff, S. }
    assert (X : exists s r, jump cfg tape p strings = Ok s /\ read_index cfg s = Ok (font_character_strings x, r)).
    { apply (jump_read _ _ _ _ _ index_encoding); eauto using read_index_sound, read_index_complete. }
    destruct X as (s & r & J & R). rewrite J. cbn [bind]. rewrite bind_iff.
    exists 2. split. { apply need_single_iff, F. } unfold read_character_strings. cbn [Z.eqb Pos.eqb].
    rewrite R. cbn [bind]. cbv zeta. rewrite (N (font_character_strings x)).
    destruct (index_count _ _ Xe) as [_ G].
    rewrite bind_iff. exists set. split. { apply need_single_iff, Cs. }
    rewrite bind_iff. exists (font_character_set x). split. { apply character_set_iff'; [lia|exact C]. }
    rewrite bind_iff. exists code. split. { apply need_single_iff, E. }
    rewrite bind_iff. exists (font_encoding x). split. { apply encoding_iff', En. }
    rewrite bind_iff. exists (font_record x). split. { apply read_record_iff; [auto|lia|exact Rc]. }
    reflexivity.
Qed.

Lemma read_fonts_iff opss : Forall bounded opss -> forall i g g', length (character_strings g) = i ->
  read_fonts cfg tape p i opss g = Ok g' <->
  exists xs, map font_operations xs = opss /\ Forall (font_layout checks tape p) xs /\
    g' = fold_left push xs g.
Proof.
  induction 1 as [|ops opss B F IH]; intros i g g' L; cbn [read_fonts].
  - split.
    + intros H. injection H as <-. exists []. auto.
    + intros (xs & M & _ & ->). apply map_eq_nil in M as ->. reflexivity.
  - rewrite bind_iff. split.
    + intros (g1 & R & H). apply read_font_iff in R as (x & <- & X & ->); auto.
      apply IH in H as (xs & <- & Xs & ->); [|cbn [push character_strings]; rewrite app_length; cbn; lia].
      exists (x :: xs). auto.
    + intros (xs & M & Xs & ->). destruct xs as [|x xs]; [discriminate|]. injection M as <- <-.
      inversion Xs; subst. exists (push g x). split.
      * apply read_font_iff; eauto.
      * apply IH. { cbn [push character_strings]. rewrite app_length. cbn. lia. } eauto.
Qed.

Lemma pushed xs : forall g,
  encodings (fold_left push xs g) = encodings g ++ map font_encoding xs /\
  character_sets (fold_left push xs g) = character_sets g ++ map font_character_set xs /\
  character_strings (fold_left push xs g) = character_strings g ++ map font_character_strings xs /\
  records (fold_left push xs g) = records g ++ map font_record xs.
Proof.
  induction xs as [|x xs IH]; intros g; cbn [fold_left map].
  - rewrite !app_nil_r. auto.
  - destruct (IH (push g x)) as (A & B & C & D). rewrite A, B, C, D.
    cbn [push encodings character_sets character_strings records]. rewrite <- !app_assoc. auto.
Qed.

Lemma read_header_sound : sound read_header header_encoding.
Proof.
  intros s h r H. destruct s as [|a [|b [|c [|d s]]]]; try discriminate. injection H as <- <-.
  exists [a; b; c; d]. split; auto. exists a, b, c, d. auto.
Qed.
Lemma read_header_complete : complete read_header header_encoding.
Proof. intros e h r (a & b & c & d & -> & ->). reflexivity. Qed.

Theorem font_set_iff f :
  read_font_set cfg tape p = Ok f <-> font_set_layout checks tape p f.
Proof.
  unfold read_font_set, font_set_layout. rewrite bind_iff. split.
  - intros ([h r] & Rh & H). rewrite rest_at_skipn in Rh by assumption.
    apply read_header_sound in Rh as (eh & Eh & Xh).
    apply bind_iff in H as (s & J & H). apply bind_iff in H as ([names s1] & R1 & H).
    apply read_index_sound in R1 as (e1 & -> & X1).
    apply bind_iff in H as ([dictionaries s2] & R2 & H).
    apply read_index_sound in R2 as (e2 & -> & X2).
    apply bind_iff in H as (opss & D & H). apply tables_iff in D.
    apply bind_iff in H as ([strings s3] & R3 & H).
    apply read_index_sound in R3 as (e3 & -> & X3).
    apply bind_iff in H as ([subroutines s4] & R4 & H).
    apply read_index_sound in R4 as (e4 & -> & X4).
    apply bind_iff in H as (g & Rf & H). injection H as <-.
    apply read_fonts_iff in Rf as (xs & <- & Xs & ->); [|eapply dictionaries_bounded; eauto|reflexivity].
    destruct (pushed xs {| encodings := []; character_sets := []; character_strings := []; records := [] |})
      as (P1 & P2 & P3 & P4).
    exists eh, e1, e2, e3, e4, dictionaries, xs. cbn.
    split; auto. split. { split; eauto. }
    split.
    { apply (jump_iff _ _ _ _ _ Hp) in J as (place & Lo & E). exists place. split; auto.
      pose proof (located_nonneg _ _ _ _ Lo). split; auto. rewrite rest_at_skipn in E by assumption.
      exists s4. rewrite <- E, <- !app_assoc. reflexivity. }
    rewrite P1, P2, P3, P4. auto 12.
  - intros (eh & e1 & e2 & e3 & e4 & dictionaries & xs & Xh & (_ & rh & Sh) & (place & Lo & N & r & E)
            & X1 & X2 & X3 & X4 & D & M1 & M2 & M3 & M4 & M5 & Xs).
    exists (fs_header f, rh). split.
    { rewrite rest_at_skipn, Sh by assumption. apply read_header_complete, Xh. }
    rewrite bind_iff. exists ((e1 ++ e2 ++ e3 ++ e4) ++ r). split.
    { apply jump_iff; auto. exists place. split; auto. rewrite rest_at_skipn by assumption. auto. }
    rewrite <- !app_assoc. rewrite (read_index_complete cfg _ _ _ X1). cbn [bind].
    rewrite (read_index_complete cfg _ _ _ X2). cbn [bind].
    rewrite bind_iff. exists (fs_operations f). split. { apply tables_iff, D. }
    rewrite (read_index_complete cfg _ _ _ X3). cbn [bind].
    rewrite (read_index_complete cfg _ _ _ X4). cbn [bind].
    rewrite bind_iff.
    exists (fold_left push xs {| encodings := []; character_sets := []; character_strings := []; records := [] |}).
    split.
    { apply read_fonts_iff; [eapply dictionaries_bounded; eauto|reflexivity|]. eauto. }
    destruct (pushed xs {| encodings := []; character_sets := []; character_strings := []; records := [] |})
      as (P1 & P2 & P3 & P4).
    rewrite P1, P2, P3, P4. cbn [encodings character_sets character_strings records app].
    rewrite <- M2, <- M3, <- M4, <- M5. destruct f. reflexivity.
Qed.

End Tape.

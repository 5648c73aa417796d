(** PanicFacts: when reading a font set panics. *)
From Verif Require Import Base Float C1Number C1Operation C1Index C1Glyphs C1FontSet BaseFacts
  SpecNumber NumberFacts SpecOperation OperationFacts SpecIndex IndexFacts StringFacts SpecGlyphs GlyphFacts
  SpecFontSet FontSetFacts LayoutFacts SpecPanic.
Local Open Scope Z_scope.

Lemma bind_panic {A B} (m : outcome A) (f : A -> outcome B) k :
  bind m f = Panic k <-> m = Panic k \/ exists a, m = Ok a /\ f a = Panic k.
Proof.
  split.
  - destruct m as [a|e|e|]; cbn [bind]; intros H; try discriminate; [right; eauto|left; congruence].
  - intros [->|(a & -> & H)]; auto.
Qed.

Lemma settled_no_panic {A} (m : outcome A) k : settled m -> m <> Panic k.
Proof. intros S ->. exact S. Qed.

Lemma bind_panic_settled {A B} (m : outcome A) (f : A -> outcome B) k : settled m ->
  bind m f = Panic k <-> exists a, m = Ok a /\ f a = Panic k.
Proof.
  intros S. rewrite bind_panic. split; [|auto]. intros [->|H]; [destruct S|exact H].
Qed.

Section Panics.
Context (cfg : config) (tape : list byte) (p : Z).
Context (Hp : 0 <= p < 2 ^ 63) (Ht : Z.of_nat (length tape) < 2 ^ 63).
Let checks := overflow_checks cfg.
Let allocates := preallocates cfg.

Lemma jump_panic offset k : - 2 ^ 31 <= offset < 2 ^ 31 ->
  jump cfg tape p offset = Panic k <-> k = ArithmeticOverflow /\ backward checks p offset.
Proof.
  intros B. unfold jump, add_u64, as_u64, backward, checks. rewrite bind_panic.
  assert (M : offset mod 2 ^ 64 = if offset <? 0 then offset + 2 ^ 64 else offset).
  { destruct (Z.ltb_spec offset 0); [|apply Z.mod_small; lia].
    rewrite <- (Z_mod_plus_full offset 1), Z.mul_1_l. apply Z.mod_small. lia. }
  rewrite M. unfold in_u64. destruct (Z.ltb_spec offset 0).
  - destruct (Z.leb_spec 0 (p + (offset + 2 ^ 64))); [|lia]. destruct (Z.ltb_spec (p + (offset + 2 ^ 64)) (2 ^ 64)); cbn [andb].
    + split; [intros [H2|(a & _ & H2)]; discriminate|lia].
    + destruct (overflow_checks cfg).
      * split; [intros [H2|(a & _ & H2)]; [|discriminate]; injection H2 as <-; repeat split; lia|].
        intros (-> & _). auto.
      * split; [intros [H2|(a & _ & H2)]; discriminate|intros (_ & H2 & _); discriminate].
  - destruct (Z.leb_spec 0 (p + offset)); [|lia]. destruct (Z.ltb_spec (p + offset) (2 ^ 64)); [|lia]. cbn [andb].
    split; [intros [H2|(a & _ & H2)]; discriminate|lia].
Qed.

Lemma jump_ok offset : - 2 ^ 31 <= offset < 2 ^ 31 -> ~ backward checks p offset -> exists s, jump cfg tape p offset = Ok s.
Proof.
  intros B N. destruct (jump cfg tape p offset) as [s|k|k|] eqn:E; eauto; exfalso.
  - unfold jump, add_u64 in E. destruct (in_u64 _); [discriminate|]. destruct (overflow_checks cfg); discriminate.
  - apply jump_panic in E as [_ E]; auto.
  - unfold jump, add_u64 in E. destruct (in_u64 _); [discriminate|]. destruct (overflow_checks cfg); discriminate.
Qed.

Lemma jump_bind_panic {A B} offset (rd : reader A) enc (f : A -> outcome B) k : - 2 ^ 31 <= offset < 2 ^ 31 ->
  sound rd enc -> complete rd enc -> total rd ->
  bind (jump cfg tape p offset) (fun s => bind (rd s) (fun xr => let '(x, _) := xr in f x)) = Panic k <->
  k = ArithmeticOverflow /\ backward checks p offset \/
  exists e x, found checks tape p offset e /\ enc e x /\ f x = Panic k.
Proof.
  intros B0 Hs Hc T. rewrite bind_panic, jump_panic by auto. split.
  - intros [H|(s & J & H)]; auto. right. apply bind_panic_settled in H as ([x r] & R & H); [|apply T].
    assert (X : exists s r, jump cfg tape p offset = Ok s /\ rd s = Ok (x, r)) by eauto.
    apply (jump_read _ _ _ _ _ _ _ (proj1 Hp) Hs Hc) in X as (e & F & X). exists e, x. auto.
  - intros [H|(e & x & F & X & H)]; auto. right.
    assert (Y : exists s r, jump cfg tape p offset = Ok s /\ rd s = Ok (x, r))
      by (apply (jump_read _ _ _ _ _ _ _ (proj1 Hp) Hs Hc); eauto).
    destruct Y as (s & r & J & R). exists s. split; auto. rewrite R. exact H.
Qed.

Lemma add_i32_panic a b k : add_i32 cfg a b = Panic k <->
  k = ArithmeticOverflow /\ checks = true /\ ~ (- 2 ^ 31 <= a + b < 2 ^ 31).
Proof.
  unfold add_i32, in_i32, checks. destruct (Z.leb_spec (- 2 ^ 31) (a + b)), (Z.ltb_spec (a + b) (2 ^ 31)); cbn [andb].
  1: split; [discriminate|lia].
  all: destruct (overflow_checks cfg); split; try discriminate; try (intros (_ & ? & _); discriminate).
  all: try (intros H1; injection H1 as <-; repeat split; lia); intros (-> & _); reflexivity.
Qed.

(** ** Private dictionaries *)

Lemma chunk_panic size s k : - 2 ^ 31 <= size < 2 ^ 31 ->
  take_vec cfg 1 take_byte (as_usize size) s = Panic k <-> k = CapacityOverflow /\ allocates = true /\ size < 0.
Proof.
  intros B. unfold allocates. destruct (Z_lt_dec size 0) as [N|N].
  - unfold take_vec, as_usize, as_u64.
    replace (size mod 2 ^ 64) with (size + 2 ^ 64)
      by (symmetry; rewrite <- (Z_mod_plus_full size 1), Z.mul_1_l; apply Z.mod_small; lia).
    destruct (Z.ltb_spec isize_max ((size + 2 ^ 64) * 1)); [|unfold isize_max in *; lia].
    destruct (preallocates cfg); cbn [andb].
    + split; [intros H1; injection H1 as <-; auto|]. intros (-> & _). reflexivity.
    + split; [|intros (_ & ? & _); discriminate]. intros H1. exfalso. revert H1.
      apply settled_no_panic, take_n_total, take_byte_total.
  - split; [|lia]. intros H. exfalso. revert H. apply settled_no_panic, take_vec_total; [apply take_byte_total|].
    unfold as_usize, as_u64, isize_max. rewrite Z.mod_small by lia. lia.
Qed.

Lemma read_chunk_iff size offset s chunk : - 2 ^ 31 <= size < 2 ^ 31 -> jump cfg tape p offset = Ok s ->
  (exists r, take_vec cfg 1 take_byte (as_usize size) s = Ok (chunk, r)) <->
  found checks tape p offset chunk /\ Z.of_nat (length chunk) = size.
Proof.
  intros B J. split.
  - intros (r & T). destruct (read_chunk cfg tape p (proj1 Hp) Ht _ _ _ _ _ B J T) as (N & Es & L). split; auto.
    eapply jump_found; eauto.
  - intros ((place & Lo & N & rest & E) & L).
    assert (J' : jump cfg tape p offset = Ok (rest_at tape place)) by (apply jump_iff; [lia|eauto]).
    assert (s = rest_at tape place) as -> by congruence. exists rest.
    rewrite rest_at_skipn, E by assumption.
    apply (take_vec_complete _ _ _ (fun e b => e = [b])).
    + apply take_byte_sound.
    + apply take_byte_complete.
    + intros e b ->. discriminate.
    + unfold as_usize, as_u64, isize_max. rewrite Z.mod_small by lia. lia.
    + unfold as_usize, as_u64. rewrite Z.mod_small by lia. auto.
    + apply each_byte. reflexivity.
Qed.

Lemma read_private_panic top k : bounded top ->
  read_private cfg tape p top = Panic k <-> private_panic checks allocates tape p top k.
Proof.
  intros Bt. unfold read_private, private_panic. rewrite bind_panic_settled by apply need_double_settled. split.
  - intros ([size offset] & D & H). apply need_double_iff in D. exists size, offset. split; auto.
    destruct (bounded_double _ _ _ _ Bt D) as [B1 B2].
    apply bind_panic in H as [H|(s & J & H)]; [apply jump_panic in H; auto|]. right.
    apply bind_panic in H as [H|([chunk s'] & T & H)].
    { apply chunk_panic in H as (-> & A & N); auto. left. split; auto. split; auto.
      intros X. assert (jump cfg tape p offset = Panic ArithmeticOverflow) by (apply jump_panic; auto). congruence. }
    right. assert (X : found checks tape p offset chunk /\ Z.of_nat (length chunk) = size)
      by (apply (read_chunk_iff size offset s); eauto). destruct X as [F L].
    apply bind_panic_settled in H as (ops & R & H); [|apply read_operations_settled]. apply read_operations_iff in R.
    apply bind_panic_settled in H as (another & An & H); [|apply try_single_settled]. apply try_single_iff in An.
    destruct another as [another|]; [|discriminate].
    assert (G : k = ArithmeticOverflow /\
      (checks = true /\ ~ (- 2 ^ 31 <= offset + another < 2 ^ 31) \/ backward checks p (offset + another))).
    { apply bind_panic in H as [H|(sum & S & H)]; [apply add_i32_panic in H; tauto|].
      apply add_i32_iff in S. pose proof (summed_range _ _ _ _ S) as Bs.
      apply bind_panic in H as [H|(s2 & J2 & H)].
      - apply jump_panic in H as [-> H]; auto. split; auto. right.
        destruct H as [C H]. apply summed_forward in S as Es; [subst sum; split; auto|].
        apply S, C.
      - exfalso. apply bind_panic_settled in H as ([x r] & _ & H); [discriminate|apply read_index_settled]. }
    destruct G as [-> G]. split; auto. exists chunk, ops, another. auto 10.
  - intros (size & offset & D & H). exists (size, offset). split; [apply need_double_iff, D|].
    destruct (bounded_double _ _ _ _ Bt D) as [B1 B2].
    destruct H as [H|[(-> & N & A & Ns)|(-> & chunk & ops & another & F & L & R & An & H)]].
    + apply bind_panic. left. apply jump_panic; auto.
    + destruct (jump_ok offset B2 N) as [s J]. apply bind_panic. right. exists s. split; auto.
      apply bind_panic. left. apply chunk_panic; auto.
    + pose proof F as (place & Lo & _).
      assert (J : jump cfg tape p offset = Ok (rest_at tape place)) by (apply jump_iff; [lia|eauto]).
      rewrite J. cbn [bind].
      assert (X : exists r, take_vec cfg 1 take_byte (as_usize size) (rest_at tape place) = Ok (chunk, r))
        by (apply (read_chunk_iff size offset); auto).
      destruct X as [r X]. rewrite X. cbn [bind].
      assert (R' : read_operations chunk = Ok ops) by (apply read_operations_iff, R). rewrite R'. cbn [bind].
      assert (An' : try_single ops Op_Subrs = Ok (Some another)) by (apply try_single_iff, An). rewrite An'. cbn [bind].
      assert (Ba : - 2 ^ 31 <= another < 2 ^ 31) by (eapply bounded_single; [eapply dictionary_bounded, R|exact An]).
      apply bind_panic. destruct H as [[C H]|[C H]]; [left; apply add_i32_panic; auto|].
      destruct (Z_lt_dec (offset + another) (- 2 ^ 31)); [left; apply add_i32_panic; repeat split; auto; lia|].
      right. exists (offset + another). split; [apply add_i32_iff, summed_forward; lia|].
      apply bind_panic. left. apply jump_panic; [lia|]. split; auto. split; auto.
Qed.

Lemma read_privates_panic tops : Forall bounded tops -> forall k,
  read_privates cfg tape p tops = Panic k <->
  exists before ops after rs, tops = before ++ ops :: after /\
    Forall2 (private_layout checks tape p) before rs /\ private_panic checks allocates tape p ops k.
Proof.
  induction 1 as [|top tops B F IH]; intros k; cbn [read_privates].
  - split; [discriminate|]. intros ([|? ?] & ops & after & rs & E & _); discriminate.
  - rewrite bind_panic, read_private_panic by auto. split.
    + intros [H|(r & R & H)].
      * exists [], top, tops, []. auto.
      * apply read_private_iff in R; auto; try lia.
        apply bind_panic in H as [H|(rs & _ & H)]; [|discriminate].
        apply IH in H as (before & ops & after & rs & -> & P & H).
        exists (top :: before), ops, after, (r :: rs). auto.
    + intros (before & ops & after & rs & E & P & H). destruct before as [|x before].
      * injection E as <- <-. auto.
      * injection E as <- ->. inversion P as [|? r ? rs' P1 P2]; subst. right. exists r. split.
        { apply read_private_iff; auto. lia. }
        apply bind_panic. left. apply IH. exists before, ops, after, rs'. auto.
Qed.

(** ** Records *)

Lemma read_cid_panic top cs k : bounded top -> 0 <= count cs < 2 ^ 62 ->
  read_cid cfg tape p top cs = Panic k <-> cid_panic checks allocates tape p top (count cs) k.
Proof.
  intros Bt G. unfold read_cid, cid_panic. split.
  - intros H. destruct (operations_get top Op_ROS) as [[|n0 [|n1 [|n2 [|n3 ns]]]]|] eqn:O; try discriminate.
    apply operand_list_iff in O.
    apply bind_panic_settled in H as (select & S & H); [|apply need_single_settled]. apply need_single_iff in S.
    exists n0, n1, n2, select. split; auto. split; auto.
    apply (jump_bind_panic _ _ (select_encoding (count cs))) in H;
      [|eapply bounded_single; eauto|apply (read_select_sound cfg tape); lia|apply (read_select_complete cfg tape); lia|apply (read_select_total cfg tape); lia].
    destruct H as [H|(e & x & F & X & H)]; auto. right.
    apply bind_panic_settled in H as (array & A & H); [|apply need_single_settled]. apply need_single_iff in A.
    exists e, x, array. split; auto. split; auto. split; auto.
    apply (jump_bind_panic _ _ index_encoding) in H;
      [|eapply bounded_single; eauto|apply read_index_sound|apply read_index_complete|intros ?; apply read_index_settled].
    destruct H as [H|(ea & ds & Fa & Xa & H)]; auto. right.
    apply bind_panic_settled in H as (opss & D & H); [|apply dictionaries_settled]. apply tables_iff in D.
    apply bind_panic in H as [H|(rs & _ & H)].
    + apply read_privates_panic in H as (before & ops & after & rs & -> & P & H); [|eapply dictionaries_bounded; eauto].
      exists ea, ds, before, ops, after, rs. auto.
    + exfalso. apply bind_panic_settled in H as (v0 & _ & H); [|apply string_id_settled].
      apply bind_panic_settled in H as (v1 & _ & H); [discriminate|apply string_id_settled].
  - intros (n0 & n1 & n2 & select & O & S & H). apply operand_list_iff in O. rewrite O.
    apply bind_panic. right. exists select. split; [apply need_single_iff, S|].
    apply (jump_bind_panic _ _ (select_encoding (count cs)));
      [eapply bounded_single; eauto|apply (read_select_sound cfg tape); lia|apply (read_select_complete cfg tape); lia|apply (read_select_total cfg tape); lia|].
    destruct H as [H|(e & x & array & F & X & A & H)]; auto. right. exists e, x. split; auto. split; auto.
    apply bind_panic. right. exists array. split; [apply need_single_iff, A|].
    apply (jump_bind_panic _ _ index_encoding);
      [eapply bounded_single; eauto|apply read_index_sound|apply read_index_complete|intros ?; apply read_index_settled|].
    destruct H as [H|(ea & ds & before & ops & after & rs & Fa & Xa & D & P & H)]; auto. right. exists ea, ds. split; auto. split; auto.
    apply bind_panic. right. exists (before ++ ops :: after). split; [apply tables_iff, D|].
    apply bind_panic. left. apply read_privates_panic; [eapply dictionaries_bounded; eauto|].
    exists before, ops, after, rs. auto.
Qed.

Lemma read_record_panic top cs k : bounded top -> 0 <= count cs < 2 ^ 62 ->
  read_record cfg tape p top cs = Panic k <-> record_panic checks allocates tape p top (count cs) k.
Proof.
  intros Bt G. pose proof (absent_iff top Op_ROS) as A. unfold read_record, record_panic, map_contains.
  destruct (map_get top Op_ROS) eqn:M.
  - rewrite bind_panic, read_cid_panic by auto. split.
    + intros [H|(x & _ & H)]; [|discriminate]. left. split; auto. rewrite <- A. discriminate.
    + intros [[_ H]|[H _]]; auto. rewrite <- A in H. discriminate.
  - rewrite bind_panic, read_private_panic by auto. split.
    + intros [H|(x & _ & H)]; [|discriminate]. right. split; auto. apply A. reflexivity.
    + intros [[H _]|[_ H]]; auto. destruct H. apply A. reflexivity.
Qed.

(** ** Character sets and encodings *)

Lemma zero_set_panic s k : Z.of_nat (length s) < 2 ^ 63 ->
  read_character_set cfg 0 s = Panic k <->
  (exists r, s = x00 :: r) /\
  (checks = true /\ k = ArithmeticOverflow \/ checks = false /\ allocates = true /\ k = CapacityOverflow).
Proof.
  intros L. destruct s as [|b s].
  { split; [discriminate|]. intros ((r & E) & _). discriminate. }
  unfold read_character_set, peek_u8. cbn [take_u8 bind].
  destruct (Z.eqb_spec (bz b) 0) as [E0|E0].
  - assert (b = x00) as -> by (apply bz_inj; exact E0).
    unfold read_character_set0. cbn [take_u8 bind]. change (negb (bz x00 =? 0)) with false. cbv iota.
    unfold sub_usize. change (in_u64 (0 - 1)) with false. unfold checks, allocates.
    destruct (overflow_checks cfg); cbn [bind].
    + split; [intros H; injection H as <-; split; eauto|]. intros (_ & [[_ ->]|[H _]]); [reflexivity|discriminate].
    + rewrite bind_panic. unfold take_vec. change (isize_max <? as_u64 (0 - 1) * 2) with true.
      destruct (preallocates cfg); cbn [andb].
      * split; [intros [H|(a & H & _)]; [|discriminate]; injection H as <-; split; eauto|].
        intros (_ & [[H _]|(_ & _ & ->)]); [discriminate|]. auto.
      * split.
        -- intros [H|([a r] & _ & H)]; [|discriminate]. exfalso. revert H. apply settled_no_panic, take_n_total, take_u16_total.
        -- intros (_ & [[H _]|(_ & H & _)]); discriminate.
  - assert (Q : settled (read_character_set cfg 0 (b :: s))).
    { unfold read_character_set, peek_u8. cbn [take_u8 bind]. destruct (Z.eqb_spec (bz b) 0); [lia|].
      destruct (bz b =? 1) eqn:E1. { unfold read_character_set1. cbn [take_u8 bind]. rewrite E1. exact I. }
      destruct (bz b =? 2) eqn:E2; [|exact I]. unfold read_character_set2. cbn [take_u8 bind]. rewrite E2. exact I. }
    unfold read_character_set, peek_u8 in Q. cbn [take_u8 bind] in Q. destruct (Z.eqb_spec (bz b) 0); [lia|].
    split; [intros H; rewrite H in Q; destruct Q|]. intros ((r & E) & _). injection E as -> _. destruct E0. reflexivity.
Qed.

Lemma character_set_panic_iff offset n k : - 2 ^ 31 <= offset < 2 ^ 31 -> 0 <= n < 2 ^ 62 ->
  (if offset =? 0 then Ok ISOAdobe
   else if offset =? 1 then Ok ExpertSet
   else if offset =? 2 then Ok ExpertSubset
   else
     let* s := jump cfg tape p offset in
     let* (set, _) := read_character_set cfg n s in Ok set) = Panic k <->
  character_set_panic checks allocates tape p offset n k.
Proof.
  intros B G. unfold character_set_panic.
  destruct (Z.eqb_spec offset 0); [split; [discriminate|lia]|].
  destruct (Z.eqb_spec offset 1); [split; [discriminate|lia]|].
  destruct (Z.eqb_spec offset 2); [split; [discriminate|lia]|].
  destruct (Z.eq_dec n 0) as [->|N].
  - rewrite bind_panic, jump_panic by auto. split.
    + intros [H|(s & J & H)]; (split; [lia|]); auto. right. split; auto.
      apply bind_panic in H as [H|([c r] & _ & H)]; [|discriminate].
      apply zero_set_panic in H as ((r & ->) & H).
      * split; auto. exact (jump_found cfg tape p Hp offset (x00 :: r) [x00] r J eq_refl).
      * apply jump_iff in J as (place & L & ->); [|lia].
        rewrite rest_at_skipn by (eapply located_nonneg; eauto). rewrite skipn_length. lia.
    + intros (_ & [H|(_ & (place & Lo & Nn & rest & E) & H)]); auto. right. exists (rest_at tape place).
      split; [apply jump_iff; [lia|eauto]|]. apply bind_panic. left.
      rewrite rest_at_skipn, E by assumption. apply zero_set_panic.
      * rewrite <- E, skipn_length. lia.
      * split; auto. exists rest. reflexivity.
  - assert (S : sane_count n) by (unfold sane_count; lia).
    rewrite (jump_bind_panic _ _ (character_set_encoding n));
      auto using read_character_set_sound, read_character_set_complete, read_character_set_total.
    split.
    + intros [H|(e & x & _ & _ & H)]; [split; [lia|auto]|discriminate].
    + intros (_ & [H|(H & _)]); auto. lia.
Qed.

Lemma encoding_panic_iff offset k : - 2 ^ 31 <= offset < 2 ^ 31 ->
  (if offset =? 0 then Ok Standard
   else if offset =? 1 then Ok ExpertEncoding
   else
     let* s := jump cfg tape p offset in
     let* (enc, _) := read_encoding cfg s in Ok enc) = Panic k <->
  k = ArithmeticOverflow /\ backward checks p offset.
Proof.
  intros B. unfold backward.
  destruct (Z.eqb_spec offset 0); [split; [discriminate|lia]|].
  destruct (Z.eqb_spec offset 1); [split; [discriminate|lia]|].
  rewrite (jump_bind_panic _ _ any_encoding);
    auto using read_encoding_sound, read_encoding_complete, read_encoding_total.
  split; auto. intros [H|(e & x & _ & _ & H)]; [auto|discriminate].
Qed.

(** ** Fonts *)

Lemma read_font_panic i ops g k : bounded ops -> length (character_strings g) = i ->
  read_font cfg tape p i ops g = Panic k <-> font_panic checks allocates tape p ops k.
Proof.
  intros B L. unfold read_font, font_panic.
  assert (N : forall cs, nth_error (character_strings g ++ [cs]) i = Some cs).
  { intros cs. rewrite nth_error_app2 by lia. replace (i - _)%nat with 0%nat by lia. reflexivity. }
  split.
  - intros H. apply bind_panic_settled in H as (strings & S & H); [|apply need_single_settled]. apply need_single_iff in S.
    exists strings. split; auto.
    apply bind_panic in H as [H|(s & J & H)]; [apply jump_panic in H; auto; eapply bounded_single; eauto|]. right.
    apply bind_panic_settled in H as (format & F & H); [|apply need_single_settled]. apply need_single_iff in F.
    unfold read_character_strings in H. destruct (Z.eqb_spec format 2) as [->|]; [|discriminate].
    apply bind_panic_settled in H as ([cs r] & R & H); [|apply read_index_settled].
    assert (X : exists s r, jump cfg tape p strings = Ok s /\ read_index cfg s = Ok (cs, r)) by eauto.
    apply (jump_read _ _ _ _ _ index_encoding) in X as (e & Fe & Xe);
      auto using read_index_sound, read_index_complete; [|lia].
    cbv zeta in H. rewrite (N cs) in H. destruct (index_count _ _ Xe) as [_ G].
    apply bind_panic_settled in H as (set & Cs & H); [|apply need_single_settled]. apply need_single_iff in Cs.
    pose proof (bounded_single _ _ _ B Cs).
    exists e, cs, set. do 4 (split; [assumption|]).
    apply bind_panic in H as [H|(c & C & H)]; [apply character_set_panic_iff in H; auto; lia|]. right.
    apply character_set_iff' in C; [|lia|auto|lia].
    apply bind_panic_settled in H as (code & E & H); [|apply need_single_settled]. apply need_single_iff in E.
    pose proof (bounded_single _ _ _ B E).
    exists c, code. do 2 (split; [assumption|]).
    apply bind_panic in H as [H|(enc & En & H)]; [apply encoding_panic_iff in H; auto|]. right.
    apply encoding_iff' in En; [|lia]. exists enc. split; auto.
    apply bind_panic in H as [H|(rc & _ & H)]; [|discriminate]. apply read_record_panic; auto. lia.
  - intros (strings & S & H). apply bind_panic. right. exists strings. split; [apply need_single_iff, S|].
    destruct H as [H|(e & x & set & F & Fe & Xe & Cs & H)].
    { apply bind_panic. left. apply jump_panic; auto. eapply bounded_single; eauto. }
    assert (X : exists s r, jump cfg tape p strings = Ok s /\ read_index cfg s = Ok (x, r)).
    { apply (jump_read _ _ _ _ _ index_encoding); eauto using read_index_sound, read_index_complete. lia. }
    destruct X as (s & r & J & R). rewrite J. cbn [bind].
    apply bind_panic. right. exists 2. split; [apply need_single_iff, F|].
    unfold read_character_strings. cbn [Z.eqb Pos.eqb]. rewrite R. cbn [bind]. cbv zeta. rewrite (N x).
    destruct (index_count _ _ Xe) as [_ G]. pose proof (bounded_single _ _ _ B Cs).
    apply bind_panic. right. exists set. split; [apply need_single_iff, Cs|].
    apply bind_panic. destruct H as [H|(c & code & C & E & H)]; [left; apply character_set_panic_iff; auto; lia|].
    right. exists c. split; [apply character_set_iff'; auto; lia|]. pose proof (bounded_single _ _ _ B E).
    apply bind_panic. right. exists code. split; [apply need_single_iff, E|].
    apply bind_panic. destruct H as [H|(y & Y & H)]; [left; apply encoding_panic_iff; auto|].
    right. exists y. split; [apply encoding_iff'; auto; lia|].
    apply bind_panic. left. apply read_record_panic; auto. lia.
Qed.

Lemma read_fonts_panic opss : Forall bounded opss -> forall i g k, length (character_strings g) = i ->
  read_fonts cfg tape p i opss g = Panic k <->
  exists xs top after, opss = map font_operations xs ++ top :: after /\
    Forall (font_layout checks tape p) xs /\ font_panic checks allocates tape p top k.
Proof.
  induction 1 as [|ops opss B F IH]; intros i g k L; cbn [read_fonts].
  - split; [discriminate|]. intros ([|x xs] & top & after & E & _); discriminate.
  - rewrite bind_panic, (read_font_panic i ops g k B L). split.
    + intros [H|(g1 & R & H)]; [exists [], ops, opss; auto|].
      apply read_font_iff in R as (x & <- & X & ->); auto; [|lia].
      apply IH in H as (xs & top & after & -> & Xs & H); [|cbn [push character_strings]; rewrite app_length; cbn; lia].
      exists (x :: xs), top, after. auto.
    + intros (xs & top & after & E & Xs & H). destruct xs as [|x xs].
      * injection E as <- <-. auto.
      * injection E as -> ->. inversion Xs; subst. right. exists (push g x). split.
        { apply read_font_iff; auto; [lia|]. eauto. }
        apply IH; [cbn [push character_strings]; rewrite app_length; cbn; lia|]. exists xs, top, after. auto.
Qed.

Theorem font_set_panic_iff k :
  read_font_set cfg tape p = Panic k <-> font_set_panic checks allocates tape p k.
Proof.
  unfold read_font_set, font_set_panic. split.
  - intros H. apply bind_panic_settled in H as ([h r] & Rh & H).
    2: { destruct (rest_at tape p) as [|? [|? [|? [|? ?]]]]; exact I. }
    rewrite rest_at_skipn in Rh by lia. apply read_header_sound in Rh as (eh & Eh & Xh).
    pose proof (header_size_range _ _ Xh) as Bh.
    apply bind_panic_settled in H as (s & J & H); [|apply jump_settled; auto; lia].
    apply bind_panic_settled in H as ([names s1] & R1 & H); [|apply read_index_settled].
    apply read_index_sound in R1 as (e1 & -> & X1).
    apply bind_panic_settled in H as ([ds s2] & R2 & H); [|apply read_index_settled].
    apply read_index_sound in R2 as (e2 & -> & X2).
    apply bind_panic_settled in H as (opss & D & H); [|apply dictionaries_settled]. apply tables_iff in D.
    apply bind_panic_settled in H as ([strings s3] & R3 & H); [|apply read_index_settled].
    apply read_index_sound in R3 as (e3 & -> & X3).
    apply bind_panic_settled in H as ([subroutines s4] & R4 & H); [|apply read_index_settled].
    apply read_index_sound in R4 as (e4 & -> & X4).
    apply bind_panic in H as [H|(g & _ & H)]; [|discriminate].
    apply read_fonts_panic in H as (xs & top & after & -> & Xs & H); [|eapply dictionaries_bounded; eauto|reflexivity].
    exists eh, h, e1, e2, e3, e4, names, ds, strings, subroutines, xs, top, after.
    split; auto. split. { split; [lia|]. eauto. }
    split. { apply (jump_found cfg tape p Hp _ _ _ s4 J). rewrite <- !app_assoc. reflexivity. }
    auto 10.
  - intros (eh & h & e1 & e2 & e3 & e4 & names & ds & strings & subroutines & xs & top & after & Xh & (_ & rh & Sh)
      & (place & Lo & N & r & E) & X1 & X2 & X3 & X4 & D & Xs & H).
    rewrite rest_at_skipn, Sh, (read_header_complete _ _ _ Xh) by lia. cbn [bind].
    assert (J : jump cfg tape p (header_size h) = Ok ((e1 ++ e2 ++ e3 ++ e4) ++ r)).
    { apply jump_iff; [lia|]. exists place. split; auto. rewrite rest_at_skipn by assumption. auto. }
    rewrite J. cbn [bind]. rewrite <- !app_assoc.
    rewrite (read_index_complete cfg _ _ _ X1). cbn [bind].
    rewrite (read_index_complete cfg _ _ _ X2). cbn [bind].
    apply bind_panic. right. eexists. split; [apply tables_iff, D|].
    rewrite (read_index_complete cfg _ _ _ X3). cbn [bind].
    rewrite (read_index_complete cfg _ _ _ X4). cbn [bind].
    apply bind_panic. left. apply read_fonts_panic; [eapply dictionaries_bounded; eauto|reflexivity|].
    exists xs, top, after. auto.
Qed.

End Panics.

(** ** Elsewhere, a font set is read or causes an overflow *)

Section Elsewhere.
Context (checks checks' allocates : bool) (tape tape' : list byte) (p p' : Z).
Context (Move : forall offset e, - 2 ^ 31 <= offset < 2 ^ 31 ->
  found checks tape p offset e -> found checks' tape' p' offset e \/ backward checks' p' offset).

Lemma private_elsewhere top r : bounded top -> private_layout checks tape p top r ->
  private_layout checks' tape' p' top r \/ private_panic checks' allocates tape' p' top ArithmeticOverflow.
Proof.
  intros B (size & offset & chunk & O & F & L & D & S).
  destruct (bounded_double _ _ _ _ B O) as [B1 B2].
  destruct (Move _ _ B2 F) as [F'|N]; [|right; exists size, offset; auto].
  destruct S as [S|(another & sum & e & S1 & S2 & S3 & S4)]; [left; exists size, offset, chunk; auto 10|].
  pose proof (summed_range _ _ _ _ S2) as Bs.
  assert (P : checks' = true /\ ~ (- 2 ^ 31 <= offset + another < 2 ^ 31) \/ backward checks' p' (offset + another) ->
    private_panic checks' allocates tape' p' top ArithmeticOverflow).
  { intros P. exists size, offset. split; auto. right. right. split; auto.
    exists chunk, (private_operations r), another. auto 10. }
  destruct checks' eqn:C.
  - destruct (Z_le_dec (- 2 ^ 31) (offset + another)) as [Q1|Q1]; [|right; apply P; left; split; auto; lia].
    destruct (Z_lt_dec (offset + another) (2 ^ 31)) as [Q2|Q2]; [|right; apply P; left; split; auto; lia].
    assert (sum = offset + another) as -> by (eapply summed_forward in S2; [exact S2|lia]).
    destruct (Move _ _ Bs S3) as [F2|N]; [|right; auto].
    left. exists size, offset, chunk. do 4 (split; [assumption|]). right. exists another, (offset + another), e.
    split; auto. split; [apply summed_forward; lia|]. auto.
  - destruct (Move _ _ Bs S3) as [F2|[N _]]; [|discriminate].
    left. exists size, offset, chunk. do 4 (split; [assumption|]). right. exists another, sum, e.
    split; auto. split; [|auto]. destruct S2 as [-> _]. split; [reflexivity|discriminate].
Qed.

Lemma privates_elsewhere tops rs : Forall bounded tops -> Forall2 (private_layout checks tape p) tops rs ->
  Forall2 (private_layout checks' tape' p') tops rs \/
  exists before ops after rs', tops = before ++ ops :: after /\
    Forall2 (private_layout checks' tape' p') before rs' /\
    private_panic checks' allocates tape' p' ops ArithmeticOverflow.
Proof.
  intros D P. induction P as [|top r tops rs P Ps IH]; [left; constructor|]. inversion D as [|? ? B Bs]; subst.
  destruct (private_elsewhere _ _ B P) as [Q|Q].
  - destruct (IH Bs) as [R|(before & ops & after & rs' & -> & R & N)]; [left; constructor; auto|].
    right. exists (top :: before), ops, after, (r :: rs'). auto.
  - right. exists [], top, tops, []. auto.
Qed.

Lemma cid_elsewhere top n r : bounded top -> cid_layout checks tape p top n r ->
  cid_layout checks' tape' p' top n r \/ cid_panic checks' allocates tape' p' top n ArithmeticOverflow.
Proof.
  intros B (a & b & select & array & e & ds & ea & O & Na & Ra & Nb & Rb & S & F & X & A & Fa & Xa & D & P).
  destruct (Move select e (bounded_single _ _ _ B S) F) as [F'|N];
    [|right; eexists _, _, _, select; split; [exact O|]; auto].
  destruct (Move array ea (bounded_single _ _ _ B A) Fa) as [Fa'|N];
    [|right; eexists _, _, _, select; split; [exact O|]; split; [exact S|]; right; exists e, (cid_encoding r), array; auto 10].
  destruct (privates_elsewhere _ _ (dictionaries_bounded _ _ D) P) as [P'|(before & ops & after & rs & E & P' & N)].
  - left. exists a, b, select, array, e, ds, ea. auto 20.
  - right. eexists _, _, _, select. split; [exact O|]. split; [exact S|]. right. exists e, (cid_encoding r), array.
    do 3 (split; [assumption|]). right. exists ea, ds, before, ops, after, rs. rewrite E in D. auto 10.
Qed.

Lemma font_elsewhere x : bounded (font_operations x) -> font_layout checks tape p x ->
  font_layout checks' tape' p' x \/ font_panic checks' allocates tape' p' (font_operations x) ArithmeticOverflow.
Proof.
  intros B (strings & set & code & e & S & T & F & X & Cs & C & E & En & R).
  destruct (Move strings e (bounded_single _ _ _ B S) F) as [F'|N]; [|right; exists strings; auto].
  assert (C' : character_set_layout checks' tape' p' set (count (font_character_strings x)) (font_character_set x) \/
    character_set_panic checks' allocates tape' p' set (count (font_character_strings x)) ArithmeticOverflow).
  { unfold character_set_layout, character_set_panic in *. destruct C as [C|[C|[C|(N & ec & C1 & C2)]]]; auto.
    destruct (Move set ec (bounded_single _ _ _ B Cs) C1) as [C1'|Q]; [|auto].
    left. do 3 right. split; auto. exists ec. auto. }
  destruct C' as [C'|C']; [|right; exists strings; split; auto; right; exists e, (font_character_strings x), set; auto 10].
  assert (En' : encoding_layout checks' tape' p' code (font_encoding x) \/ backward checks' p' code).
  { unfold encoding_layout in *. destruct En as [En|[En|(N & ec & C1 & C2)]]; auto.
    destruct (Move code ec (bounded_single _ _ _ B E) C1) as [C1'|Q]; [|auto].
    left. do 2 right. split; auto. exists ec. auto. }
  assert (K : backward checks' p' code \/ (exists y, encoding_layout checks' tape' p' code y /\
      record_panic checks' allocates tape' p' (font_operations x) (count (font_character_strings x)) ArithmeticOverflow) ->
    font_panic checks' allocates tape' p' (font_operations x) ArithmeticOverflow).
  { intros K. exists strings. split; auto. right. exists e, (font_character_strings x), set. do 4 (split; [assumption|]).
    right. exists (font_character_set x), code. do 2 (split; [assumption|]). destruct K as [K|K]; auto. }
  destruct En' as [En'|N]; [|auto].
  assert (R' : record_layout checks' tape' p' (font_operations x) (count (font_character_strings x)) (font_record x) \/
    record_panic checks' allocates tape' p' (font_operations x) (count (font_character_strings x)) ArithmeticOverflow).
  { unfold record_layout, record_panic in *. destruct (font_record x) as [r|r]; destruct R as [R1 R2].
    - destruct (cid_elsewhere _ _ _ B R2); auto.
    - destruct (private_elsewhere _ _ B R2); auto. }
  destruct R' as [R'|N]; [|right; apply K; right; eauto].
  left. exists strings, set, code, e. auto 20.
Qed.

Lemma font_set_elsewhere f :
  (forall e, e <> [] -> stands tape p e -> stands tape' p' e) ->
  font_set_layout checks tape p f ->
  font_set_layout checks' tape' p' f \/ font_set_panic checks' allocates tape' p' ArithmeticOverflow.
Proof.
  intros Hh (eh & e1 & e2 & e3 & e4 & ds & xs & Xh & Sh & F & X1 & X2 & X3 & X4 & D & M1 & M2 & M3 & M4 & M5 & Xs).
  pose proof (header_size_range _ _ Xh) as Bh.
  assert (Sh' : stands tape' p' eh).
  { apply Hh; auto. destruct Xh as (? & ? & ? & ? & -> & _). discriminate. }
  destruct (Move (header_size (fs_header f)) _ ltac:(lia) F) as [F'|[_ N]]; [|lia].
  assert (K : Forall (font_layout checks' tape' p') xs \/
    exists fonts top after, map font_operations xs = map font_operations fonts ++ top :: after /\
      Forall (font_layout checks' tape' p') fonts /\ font_panic checks' allocates tape' p' top ArithmeticOverflow).
  { pose proof (dictionaries_bounded _ _ D) as Bs. rewrite M1 in Bs. clear - Move Bs Xs.
    induction Xs as [|x xs X Xs IH]; [left; constructor|]. cbn [map] in Bs. inversion Bs as [|? ? B Bs']; subst.
    destruct (font_elsewhere _ B X) as [Q|Q].
    - destruct (IH Bs') as [R|(fonts & top & after & E & R & N)]; [left; constructor; auto|].
      right. exists (x :: fonts), top, after. cbn [map app]. rewrite E. auto.
    - right. exists [], (font_operations x), (map font_operations xs). auto. }
  destruct K as [K|(fonts & top & after & E & K1 & K2)].
  - left. exists eh, e1, e2, e3, e4, ds, xs. auto 20.
  - right. exists eh, (fs_header f), e1, e2, e3, e4, (fs_names f), ds, (fs_strings f), (fs_subroutines f), fonts, top, after.
    rewrite <- E, <- M1. auto 20.
Qed.

End Elsewhere.

Lemma found_prepend_or checks pre tape p offset e :
  0 <= p -> Z.of_nat (length pre) + p < 2 ^ 63 -> Z.of_nat (length tape) < 2 ^ 63 ->
  - 2 ^ 31 <= offset < 2 ^ 31 -> found checks tape p offset e ->
  found checks (pre ++ tape) (Z.of_nat (length pre) + p) offset e \/ backward checks (Z.of_nat (length pre) + p) offset.
Proof.
  intros Hp Hs Ht Ho F. destruct checks eqn:C.
  - destruct (Z_lt_dec offset 0), (Z_le_dec 0 (Z.of_nat (length pre) + p + offset)).
    1: right; split; auto; lia.
    all: left; apply found_prepend; auto; right; right; lia.
  - left. apply found_prepend; auto.
Qed.

Lemma prepend_or cfg pre tape p f : 0 <= p -> Z.of_nat (length pre) + p < 2 ^ 63 ->
  Z.of_nat (length (pre ++ tape)) < 2 ^ 63 -> read_font_set cfg tape p = Ok f ->
  read_font_set cfg (pre ++ tape) (Z.of_nat (length pre) + p) = Ok f \/
  read_font_set cfg (pre ++ tape) (Z.of_nat (length pre) + p) = Panic ArithmeticOverflow.
Proof.
  intros Hp Hs Ht H. pose proof Ht as Ht'. rewrite app_length in Ht'.
  apply font_set_iff in H; [|lia|lia].
  rewrite font_set_iff, font_set_panic_iff by lia. revert H. apply font_set_elsewhere.
  - intros offset e Ho. apply found_prepend_or; lia.
  - intros e _. apply stands_prepend.
Qed.

Lemma prepend_backward cfg pre tape p f : 0 <= p -> Z.of_nat (length pre) + p < 2 ^ 63 ->
  Z.of_nat (length (pre ++ tape)) < 2 ^ 63 ->
  read_font_set cfg (pre ++ tape) (Z.of_nat (length pre) + p) = Ok f ->
  overflow_checks cfg = true -> forall ops size offset,
    In ops (private_dictionaries f) -> operands ops Op_Private size offset ->
    ~ (offset < 0 <= Z.of_nat (length pre) + p + offset).
Proof.
  intros Hp Hs Ht H C. apply font_set_iff in H; [|lia|auto]. rewrite C in H.
  set (q := Z.of_nat (length pre) + p) in *. assert (Hq : 0 <= q < 2 ^ 63) by lia. clearbody q.
  destruct H as (eh & e1 & e2 & e3 & e4 & ds & xs & _ & _ & _ & _ & _ & _ & _ & D & M1 & _ & _ & _ & M5 & Xs).
  assert (P : forall top r, bounded top -> private_layout true (pre ++ tape) q top r ->
    forall size offset, operands top Op_Private size offset -> ~ (offset < 0 <= q + offset)).
  { intros top r B (size' & offset' & chunk & O' & (place & (-> & L) & _) & _) size offset O Q.
    assert (E : (size', offset') = (size, offset)).
    { apply need_double_iff in O, O'. congruence. }
    injection E as -> ->. destruct (bounded_double _ _ _ _ B O) as [_ B2]. specialize (L eq_refl).
    replace (offset mod 2 ^ 64) with (offset + 2 ^ 64) in L; [lia|].
    symmetry. rewrite <- (Z_mod_plus_full offset 1), Z.mul_1_l. apply Z.mod_small. lia. }
  intros ops size offset I. revert ops I size offset.
  apply dictionaries_bounded in D. unfold private_dictionaries. rewrite M1, M5 in *. clear - D Xs P.
  induction Xs as [|x xs X Xs IH]; cbn [map combine flat_map]; intros ops I; [destruct I|].
  cbn [map] in D. inversion D as [|? ? B Bs]; subst. apply in_app_or in I as [I|I]; [|apply IH; auto].
  destruct X as (strings & set & code & e & _ & _ & _ & _ & _ & _ & _ & _ & R).
  unfold record_layout in R. destruct (font_record x) as [r|r]; destruct R as [_ R].
  - destruct R as (a & b & select & array & e' & ds' & ea & _ & _ & _ & _ & _ & _ & _ & _ & _ & _ & _ & D' & Ps).
    apply dictionaries_bounded in D'. clear - Ps D' P I.
    induction Ps as [|o rc os rs Q Qs IH]; [destruct I|]. inversion D'; subst. destruct I as [<-|I]; eauto.
  - destruct I as [<-|[]]. eauto.
Qed.

Lemma prepend_iff cfg pre tape p f : 0 <= p -> Z.of_nat (length pre) + p < 2 ^ 63 ->
  Z.of_nat (length (pre ++ tape)) < 2 ^ 63 -> read_font_set cfg tape p = Ok f ->
  (read_font_set cfg (pre ++ tape) (Z.of_nat (length pre) + p) = Ok f <->
   (overflow_checks cfg = true -> forall ops size offset,
     In ops (private_dictionaries f) -> operands ops Op_Private size offset ->
     ~ (offset < 0 <= Z.of_nat (length pre) + p + offset))).
Proof. intros Hp Hs Ht H. split; [apply prepend_backward|intros Q; apply prepend_read]; auto. Qed.

(** A font set that one build profile reads. *)
Lemma profiles_or cfg cfg' tape p f : 0 <= p < 2 ^ 63 -> Z.of_nat (length tape) < 2 ^ 63 ->
  read_font_set cfg tape p = Ok f ->
  read_font_set cfg' tape p = Ok f \/ read_font_set cfg' tape p = Panic ArithmeticOverflow.
Proof.
  intros Hp Ht H. apply font_set_iff in H; [|lia|auto].
  rewrite font_set_iff, font_set_panic_iff by (auto; lia). revert H. apply font_set_elsewhere; auto.
  intros offset e Ho (place & (-> & L) & S). destruct (overflow_checks cfg').
  - destruct (Z_lt_dec offset 0), (Z_le_dec 0 (p + offset)).
    1: right; split; auto; lia.
    all: left; exists ((p + offset) mod 2 ^ 64); split; auto; split; auto; intros _.
    2,3: rewrite (Z.mod_small offset) by lia; lia.
    replace (offset mod 2 ^ 64) with (offset + 2 ^ 64); [lia|].
    symmetry. rewrite <- (Z_mod_plus_full offset 1), Z.mul_1_l. apply Z.mod_small. lia.
  - left. exists ((p + offset) mod 2 ^ 64). split; auto. split; auto. discriminate.
Qed.

(** ** Reading ends *)

Definition ends {A} (m : outcome A) : Prop := m <> OutOfFuel.

Lemma settled_ends {A} (m : outcome A) : settled m -> ends m.
Proof. intros S ->. exact S. Qed.

Lemma bind_ends {A B} (m : outcome A) (f : A -> outcome B) :
  ends m -> (forall a, m = Ok a -> ends (f a)) -> ends (bind m f).
Proof. intros M F. destruct m as [a|e|e|]; cbn [bind]; try discriminate; [apply F; auto|destruct M; reflexivity]. Qed.

Lemma jump_ends cfg tape p offset : ends (jump cfg tape p offset).
Proof.
  unfold jump, add_u64. destruct (in_u64 _); [discriminate|]. destruct (overflow_checks cfg); discriminate.
Qed.

Lemma read_private_ends cfg tape p top : ends (read_private cfg tape p top).
Proof.
  unfold read_private. apply bind_ends; [apply settled_ends, need_double_settled|]. intros [size offset] _.
  apply bind_ends; [apply jump_ends|]. intros s _. apply bind_ends.
  { unfold take_vec. destruct (_ && _); [discriminate|]. apply settled_ends, take_n_total, take_byte_total. }
  intros [chunk s'] _. apply bind_ends; [apply settled_ends, read_operations_settled|]. intros ops _.
  apply bind_ends; [apply settled_ends, try_single_settled|]. intros [another|] _; [|discriminate].
  apply bind_ends.
  { unfold add_i32. destruct (in_i32 _); [discriminate|]. destruct (overflow_checks cfg); discriminate. }
  intros sum _. apply bind_ends; [apply jump_ends|]. intros s2 _.
  apply bind_ends; [apply settled_ends, read_index_settled|]. intros [x r] _. discriminate.
Qed.

Lemma read_privates_ends cfg tape p tops : ends (read_privates cfg tape p tops).
Proof.
  induction tops as [|top tops IH]; cbn [read_privates]; [discriminate|].
  apply bind_ends; [apply read_private_ends|]. intros r _. apply bind_ends; [exact IH|]. discriminate.
Qed.

Lemma read_cid_ends cfg tape p top cs : 0 <= count cs < 2 ^ 62 -> ends (read_cid cfg tape p top cs).
Proof.
  intros G. unfold read_cid. destruct (operations_get top Op_ROS) as [[|n0 [|n1 [|n2 [|n3 ns]]]]|]; try discriminate.
  apply bind_ends; [apply settled_ends, need_single_settled|]. intros select _.
  apply bind_ends; [apply jump_ends|]. intros s _.
  apply bind_ends; [apply settled_ends, (read_select_total cfg tape); lia|]. intros [enc r] _.
  apply bind_ends; [apply settled_ends, need_single_settled|]. intros array _.
  apply bind_ends; [apply jump_ends|]. intros s2 _.
  apply bind_ends; [apply settled_ends, read_index_settled|]. intros [ds r2] _.
  apply bind_ends; [apply settled_ends, dictionaries_settled|]. intros opss _.
  apply bind_ends; [apply read_privates_ends|]. intros rs _.
  apply bind_ends; [apply settled_ends, string_id_settled|]. intros a _.
  apply bind_ends; [apply settled_ends, string_id_settled|]. intros b _. discriminate.
Qed.

Lemma read_record_ends cfg tape p top cs : 0 <= count cs < 2 ^ 62 -> ends (read_record cfg tape p top cs).
Proof.
  intros G. unfold read_record. destruct (map_contains top Op_ROS).
  - apply bind_ends; [apply read_cid_ends, G|]. discriminate.
  - apply bind_ends; [apply read_private_ends|]. discriminate.
Qed.

Lemma character_set_ends cfg n s : 0 <= n < 2 ^ 62 -> ends (read_character_set cfg n s).
Proof.
  intros G. destruct (Z.eq_dec n 0) as [->|N].
  - destruct s as [|b s]; [discriminate|]. unfold read_character_set, peek_u8. cbn [take_u8 bind].
    destruct (bz b =? 0) eqn:E0.
    { unfold read_character_set0. cbn [take_u8 bind]. rewrite E0. cbn [negb]. cbv iota.
      unfold sub_usize. destruct (in_u64 (0 - 1)) eqn:E; [discriminate|].
      destruct (overflow_checks cfg); [discriminate|]. cbn [bind]. apply bind_ends; [|intros [? ?] _; discriminate].
      unfold take_vec. destruct (_ && _); [discriminate|]. apply settled_ends, take_n_total, take_u16_total. }
    destruct (bz b =? 1) eqn:E1. { unfold read_character_set1. cbn [take_u8 bind]. rewrite E1. discriminate. }
    destruct (bz b =? 2) eqn:E2; [|discriminate]. unfold read_character_set2. cbn [take_u8 bind]. rewrite E2. discriminate.
  - apply settled_ends, read_character_set_total. unfold sane_count. lia.
Qed.

Lemma read_font_ends cfg tape p i ops g : length (character_strings g) = i -> ends (read_font cfg tape p i ops g).
Proof.
  intros L. unfold read_font.
  assert (N : forall cs, nth_error (character_strings g ++ [cs]) i = Some cs).
  { intros cs. rewrite nth_error_app2 by lia. replace (i - _)%nat with 0%nat by lia. reflexivity. }
  apply bind_ends; [apply settled_ends, need_single_settled|]. intros strings _.
  apply bind_ends; [apply jump_ends|]. intros s _.
  apply bind_ends; [apply settled_ends, need_single_settled|]. intros format _.
  apply bind_ends.
  { unfold read_character_strings. destruct (format =? 2); [|discriminate]. apply settled_ends, read_index_settled. }
  intros [cs r] R. cbv zeta. rewrite (N cs).
  assert (G : 0 <= count cs < 2 ^ 62).
  { unfold read_character_strings in R. destruct (format =? 2); [|discriminate].
    apply read_index_sound in R as (e & _ & X). apply index_count in X as [_ X]. lia. }
  apply bind_ends; [apply settled_ends, need_single_settled|]. intros set _.
  apply bind_ends.
  { destruct (set =? 0); [discriminate|]. destruct (set =? 1); [discriminate|]. destruct (set =? 2); [discriminate|].
    apply bind_ends; [apply jump_ends|]. intros s2 _.
    apply bind_ends; [apply character_set_ends, G|]. intros [? ?] _. discriminate. }
  intros c _. apply bind_ends; [apply settled_ends, need_single_settled|]. intros code _.
  apply bind_ends.
  { destruct (code =? 0); [discriminate|]. destruct (code =? 1); [discriminate|].
    apply bind_ends; [apply jump_ends|]. intros s2 _.
    apply bind_ends; [apply settled_ends, read_encoding_total|]. intros [? ?] _. discriminate. }
  intros en _. apply bind_ends; [apply read_record_ends, G|]. discriminate.
Qed.

Lemma read_fonts_ends cfg tape p opss : forall i g, Forall bounded opss -> 0 <= p ->
  Z.of_nat (length tape) < 2 ^ 63 -> length (character_strings g) = i -> ends (read_fonts cfg tape p i opss g).
Proof.
  induction opss as [|ops opss IH]; intros i g B Hp Ht L; cbn [read_fonts]; [discriminate|].
  inversion B; subst. apply bind_ends; [apply read_font_ends; reflexivity|].
  intros g1 R. apply read_font_iff in R as (x & _ & _ & ->); auto.
  apply IH; auto. cbn [push character_strings]. rewrite app_length. cbn. lia.
Qed.

Lemma read_font_set_ends cfg tape p : 0 <= p < 2 ^ 63 -> Z.of_nat (length tape) < 2 ^ 63 ->
  read_font_set cfg tape p <> OutOfFuel.
Proof.
  intros Hp Ht. unfold read_font_set. apply bind_ends.
  { apply settled_ends. destruct (rest_at tape p) as [|? [|? [|? [|? ?]]]]; exact I. }
  intros [h r] _. apply bind_ends; [apply jump_ends|]. intros s _.
  apply bind_ends; [apply settled_ends, read_index_settled|]. intros [names s1] _.
  apply bind_ends; [apply settled_ends, read_index_settled|]. intros [ds s2] _.
  apply bind_ends; [apply settled_ends, dictionaries_settled|]. intros opss D. apply tables_iff in D.
  apply bind_ends; [apply settled_ends, read_index_settled|]. intros [strings s3] _.
  apply bind_ends; [apply settled_ends, read_index_settled|]. intros [subroutines s4] _.
  apply bind_ends; [|discriminate]. apply read_fonts_ends; auto; [eapply dictionaries_bounded; eauto|lia].
Qed.

Lemma font_set_error_iff cfg tape p : 0 <= p < 2 ^ 63 -> Z.of_nat (length tape) < 2 ^ 63 ->
  (exists e, read_font_set cfg tape p = Err e) <->
  ~ (exists f, font_set_layout (overflow_checks cfg) tape p f) /\
  ~ (exists k, font_set_panic (overflow_checks cfg) (preallocates cfg) tape p k).
Proof.
  intros Hp Ht. split.
  - intros (e & E). split; [intros (f & F); apply font_set_iff in F; auto; [congruence|lia]|].
    intros (k & K). apply font_set_panic_iff in K; auto. congruence.
  - intros [N1 N2]. destruct (read_font_set cfg tape p) as [f|e|k|] eqn:E; eauto.
    + destruct N1. exists f. apply font_set_iff; auto. lia.
    + destruct N2. exists k. apply font_set_panic_iff; auto.
    + destruct (read_font_set_ends cfg tape p Hp Ht E).
Qed.

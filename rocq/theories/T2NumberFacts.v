(** T2NumberFacts: proofs about the numbers of character strings. *)
From Coq Require Import Reals Lra.
From Verif Require Import Base Float T2Number BaseFacts SpecProgram NumberFacts FloatFacts.
From Flocq Require Import Core.
Local Open Scope Z_scope.

Lemma as_i16_signed v : 0 <= v < 2 ^ 16 -> as_i16 v = signed 16 v.
Proof.
  intros H. unfold as_i16, signed. change (16 - 1) with 15. destruct (Z.ltb_spec v (2 ^ 15)).
  - rewrite Z.mod_small by lia. lia.
  - replace (v + 2 ^ 15) with (v - 2 ^ 15 + 1 * 2 ^ 16) by lia. rewrite Z.mod_add, Z.mod_small by lia. lia.
Qed.

Lemma as_i32_signed v : 0 <= v < 2 ^ 32 -> as_i32 v = signed 32 v.
Proof.
  intros H. unfold as_i32, signed. change (32 - 1) with 31. destruct (Z.ltb_spec v (2 ^ 31)).
  - rewrite Z.mod_small by lia. lia.
  - replace (v + 2 ^ 31) with (v - 2 ^ 31 + 1 * 2 ^ 32) by lia. rewrite Z.mod_add, Z.mod_small by lia. lia.
Qed.

Lemma big_endian_2 b1 b2 : big_endian [b1; b2] = bz b1 * 2 ^ 8 + bz b2.
Proof. unfold big_endian. cbn [fold_left]. lia. Qed.

Lemma big_endian_4 b1 b2 b3 b4 :
  big_endian [b1; b2; b3; b4] = bz b1 * 2 ^ 24 + bz b2 * 2 ^ 16 + bz b3 * 2 ^ 8 + bz b4.
Proof. unfold big_endian. cbn [fold_left]. lia. Qed.

(** The datum that bytes encode, as the reader computes it. *)
Inductive t2_read : list byte -> f32 -> Prop :=
| read_one_byte b0 :
    32 <= bz b0 <= 246 -> t2_read [b0] (f32_of_i32 (bz b0 - 139))
| read_two_bytes_positive b0 b1 :
    247 <= bz b0 <= 250 -> t2_read [b0; b1] (f32_of_i32 ((bz b0 - 247) * 256 + bz b1 + 108))
| read_two_bytes_negative b0 b1 :
    251 <= bz b0 <= 254 -> t2_read [b0; b1] (f32_of_i32 (- (bz b0 - 251) * 256 - bz b1 - 108))
| read_three_bytes b1 b2 :
    t2_read [x1c; b1; b2] (f32_of_i32 (signed 16 (big_endian [b1; b2])))
| read_five_bytes b1 b2 b3 b4 :
    t2_read [xff; b1; b2; b3; b4] (f32_of_q32 (signed 32 (big_endian [b1; b2; b3; b4]))).

Lemma t2_read_number e x : t2_read e x <-> t2_number e x.
Proof.
  split.
  - intros H. destruct H; eexists; (split; [econstructor; eassumption|]);
      first [apply f32_of_i32_correct | apply f32_of_q32_correct].
  - intros (r & D & R). destruct D.
    + rewrite (rounded_unique _ _ _ _ R (f32_of_i32_correct _)). constructor. auto.
    + rewrite (rounded_unique _ _ _ _ R (f32_of_i32_correct _)). constructor. auto.
    + rewrite (rounded_unique _ _ _ _ R (f32_of_i32_correct _)). constructor. auto.
    + rewrite (rounded_unique _ _ _ _ R (f32_of_i32_correct _)). constructor.
    + rewrite (rounded_unique _ _ _ _ R (f32_of_q32_correct _)). constructor.
Qed.

Ltac code_case :=
  match goal with
  | |- context [?a <=? ?b] => let E := fresh in let L := fresh in destruct (Z.leb_spec a b) as [L|L]; cbn [andb]
  | |- context [?a =? ?b] => let L := fresh in destruct (Z.eqb_spec a b) as [L|L]
  end.

Lemma read_operand_t2_read e x r : t2_read e x -> read_operand (e ++ r) = Ok (x, r).
Proof.
  intros H. destruct H as [b0 B|b0 b1 B|b0 b1 B|b1 b2|b1 b2 b3 b4]; unfold read_operand; cbn [app take_u8 take_u16 take_u32 bind].
  - repeat (code_case; try lia). reflexivity.
  - repeat (code_case; try lia). reflexivity.
  - repeat (code_case; try lia). reflexivity.
  - change (bz x1c) with 28. cbn [Z.leb Z.compare andb Z.eqb Pos.compare Pos.compare_cont Pos.eqb].
    rewrite big_endian_2, as_i16_signed; auto. pose proof (bz_range b1). pose proof (bz_range b2). lia.
  - change (bz xff) with 255. cbn [Z.leb Z.compare andb Z.eqb Pos.compare Pos.compare_cont Pos.eqb].
    rewrite big_endian_4, as_i32_signed; auto.
    pose proof (bz_range b1). pose proof (bz_range b2). pose proof (bz_range b3). pose proof (bz_range b4). lia.
Qed.

Lemma read_operand_read s x r : read_operand s = Ok (x, r) -> exists e, s = e ++ r /\ t2_read e x.
Proof.
  intros H. destruct s as [|b s]; [discriminate|]. unfold read_operand in H. cbn [take_u8 bind] in H. revert H.
  pose proof (bz_range b) as B. destruct (Z.leb_spec 32 (bz b)) as [L1|L1], (Z.leb_spec (bz b) 246) as [L2|L2]; cbn [andb].
  2,3,4: destruct (Z.leb_spec 247 (bz b)) as [L3|L3], (Z.leb_spec (bz b) 250) as [L4|L4]; cbn [andb]; try lia.
  1: { intros H. injection H as <- <-. exists [b]. split; auto. constructor. lia. }
  1: { destruct s as [|b1 s]; [discriminate|]. intros H. injection H as <- <-.
       exists [b; b1]. split; auto. constructor. lia. }
  all: destruct (Z.leb_spec 251 (bz b)) as [L5|L5], (Z.leb_spec (bz b) 254) as [L6|L6]; cbn [andb]; try lia.
  1: { destruct s as [|b1 s]; [discriminate|]. intros H. injection H as <- <-.
       exists [b; b1]. split; auto. constructor. lia. }
  all: destruct (Z.eqb_spec (bz b) 28) as [E1|E1]; try lia.
  all: try (destruct (Z.eqb_spec (bz b) 255) as [E2|E2]; try lia; try discriminate).
  - assert (b = xff) as -> by (apply bz_inj, E2).
    destruct s as [|b1 [|b2 [|b3 [|b4 s]]]]; try discriminate. cbn [take_u32 bind]. intros H. injection H as <- <-.
    exists [xff; b1; b2; b3; b4]. split; auto. rewrite <- big_endian_4, as_i32_signed; [constructor|].
    rewrite big_endian_4.
    pose proof (bz_range b1). pose proof (bz_range b2). pose proof (bz_range b3). pose proof (bz_range b4). lia.
  - assert (b = x1c) as -> by (apply bz_inj, E1).
    destruct s as [|b1 [|b2 s]]; try discriminate. cbn [take_u16 bind]. intros H. injection H as <- <-.
    exists [x1c; b1; b2]. split; auto. rewrite <- big_endian_2, as_i16_signed; [constructor|].
    rewrite big_endian_2. pose proof (bz_range b1). pose proof (bz_range b2). lia.
Qed.

Lemma read_operand_complete : complete read_operand t2_number.
Proof. intros e x r H. apply read_operand_t2_read, t2_read_number, H. Qed.

Lemma read_operand_sound : sound read_operand t2_number.
Proof. intros s x r H. apply read_operand_read in H as (e & E & H). exists e. split; auto. apply t2_read_number, H. Qed.

Lemma read_operand_iff s x r :
  read_operand s = Ok (x, r) <-> exists e, s = e ++ r /\ t2_number e x.
Proof. split; [apply read_operand_sound|]. intros (e & -> & H). apply read_operand_complete, H. Qed.

(** The first byte of a number. *)
Definition t2_first (b : byte) : Prop := bz b = 28 \/ 32 <= bz b.

Lemma t2_number_first e x : t2_number e x -> exists b e', e = b :: e' /\ t2_first b.
Proof.
  intros H. apply t2_read_number in H. destruct H; eexists _, _; (split; [reflexivity|]);
    unfold t2_first; try lia; [left|right]; vm_compute; congruence.
Qed.

Lemma t2_number_consumes : consumes t2_number.
Proof. intros e x H. apply t2_number_first in H as (b & e' & -> & _). discriminate. Qed.

Lemma read_operand_eof : eof read_operand t2_number.
Proof.
  intros e1 e2 x H N. apply t2_read_number in H. remember (e1 ++ e2) as e eqn:E.
  destruct H as [b0 B|b0 b1 B|b0 b1 B|b1 b2|b1 b2 b3 b4]; destruct e1 as [|c1 e1]; try reflexivity;
    injection E as <- E.
  1: { symmetry in E. apply app_eq_nil in E as [_ ->]. congruence. }
  1,2: destruct e1 as [|c2 e1]; [|injection E as <- E; symmetry in E; apply app_eq_nil in E as [_ ->]; congruence];
    unfold read_operand; cbn [take_u8 bind]; repeat (code_case; try lia); reflexivity.
  - destruct e1 as [|c2 [|c3 e1]]; try reflexivity.
    injection E as _ _ E. symmetry in E. apply app_eq_nil in E as [_ ->]. congruence.
  - destruct e1 as [|c2 [|c3 [|c4 [|c5 e1]]]]; try reflexivity.
    injection E as _ _ _ _ E. symmetry in E. apply app_eq_nil in E as [_ ->]. congruence.
Qed.

Lemma read_operand_other b t : ~ t2_first b -> read_operand (b :: t) = Err Other.
Proof.
  intros N. unfold t2_first in N. unfold read_operand. cbn [take_u8 bind].
  repeat (code_case; try lia). reflexivity.
Qed.

Lemma read_operand_settled s : settled (read_operand s).
Proof.
  destruct s as [|b s]; [exact I|]. unfold read_operand. cbn [take_u8 bind].
  repeat (code_case; try exact I);
    try (destruct s as [|? s]; [exact I|]); try (destruct s as [|? s]; [exact I|]); try exact I;
    try (destruct s as [|? s]; [exact I|]); try (destruct s as [|? s]; [exact I|]); exact I.
Qed.

Lemma read_operand_cut_iff s :
  read_operand s = Err UnexpectedEof <-> exists u x, u <> [] /\ t2_number (s ++ u) x.
Proof.
  split; [|intros (u & x & N & H); exact (read_operand_eof s u x H N)].
  intros H. enough (Q : exists u x, u <> [] /\ read_operand (s ++ u) = Ok (x, [])).
  { destruct Q as (u & x & N & Q). exists u, x. split; auto. apply read_operand_sound in Q as (e & E & Q).
    rewrite app_nil_r in E. rewrite E. exact Q. }
  destruct s as [|b s].
  { exists [x8b], (f32_of_i32 0). split; [discriminate|]. reflexivity. }
  unfold read_operand in H |- *. cbn [app take_u8 bind] in H |- *.
  repeat (code_case; try lia; try discriminate H); cbn [take_u8 take_u16 take_u32 bind] in H.
  1,2: destruct s as [|b1 s]; [exists [x00]; eexists; split; [discriminate|reflexivity]|discriminate].
  - destruct s as [|b1 [|b2 [|b3 [|b4 s]]]];
      [exists [x00; x00; x00; x00]|exists [x00; x00; x00]|exists [x00; x00]|exists [x00]|discriminate];
      (eexists; split; [discriminate|reflexivity]).
  - destruct s as [|b1 [|b2 s]]; [exists [x00; x00]|exists [x00]|discriminate]; (eexists; split; [discriminate|reflexivity]).
Qed.

(** All numbers are finite, and integers and short fixed-point numbers are exact. *)

Lemma rounded_scaled m k s x : Z.abs m < 2 ^ 24 -> -149 <= k <= 0 ->
  rounded (IZR m * bpow radix2 k) s x -> value x = (IZR m * bpow radix2 k)%R /\ finite x.
Proof.
  intros Hm Hk [_ R]. rewrite nearest_exact in R by lia.
  rewrite Rlt_bool_true in R; [tauto|].
  rewrite Rabs_mult, (Rabs_pos_eq (bpow radix2 k)) by apply bpow_ge_0.
  apply Rle_lt_trans with (bpow radix2 24 * 1)%R.
  - apply Rmult_le_compat; [apply Rabs_pos|apply bpow_ge_0| |].
    + rewrite <- abs_IZR. change (bpow radix2 24) with (IZR (2 ^ 24)). apply IZR_le. lia.
    + change 1%R with (bpow radix2 0). apply bpow_le. lia.
  - rewrite Rmult_1_r. apply bpow_lt. lia.
Qed.

Lemma rounded_integer v s x : Z.abs v < 2 ^ 24 -> rounded (IZR v) s x -> value x = IZR v /\ finite x.
Proof.
  intros H R. assert (E : IZR v = (IZR v * bpow radix2 0)%R) by (rewrite Rmult_1_r; reflexivity).
  rewrite E in R |- *. apply (rounded_scaled v 0 s x); auto. lia.
Qed.

Lemma rounded_fixed v s x : Z.abs v < 2 ^ 24 -> rounded (IZR v / 65536) s x ->
  value x = (IZR v / 65536)%R /\ finite x.
Proof.
  intros H R. assert (E : (IZR v / 65536)%R = (IZR v * bpow radix2 (-16))%R) by reflexivity.
  rewrite E in R |- *. apply (rounded_scaled v (-16) s x); auto. lia.
Qed.

Lemma signed16_range b1 b2 : - 2 ^ 15 <= signed 16 (big_endian [b1; b2]) < 2 ^ 15.
Proof.
  rewrite big_endian_2. pose proof (bz_range b1). pose proof (bz_range b2). unfold signed.
  change (16 - 1) with 15. destruct (Z.ltb_spec (bz b1 * 2 ^ 8 + bz b2) (2 ^ 15)); lia.
Qed.

Lemma signed32_range b1 b2 b3 b4 : - 2 ^ 31 <= signed 32 (big_endian [b1; b2; b3; b4]) < 2 ^ 31.
Proof.
  rewrite big_endian_4. pose proof (bz_range b1). pose proof (bz_range b2).
  pose proof (bz_range b3). pose proof (bz_range b4). unfold signed.
  change (32 - 1) with 31. destruct (Z.ltb_spec (bz b1 * 2 ^ 24 + bz b2 * 2 ^ 16 + bz b3 * 2 ^ 8 + bz b4) (2 ^ 31)); lia.
Qed.

Lemma t2_number_integer e x : t2_number e x -> hd_error e <> Some xff ->
  exists v, t2_denotes e (IZR v) /\ value x = IZR v /\ finite x.
Proof.
  intros (r & D & R) N. destruct D as [b0 B|b0 b1 B|b0 b1 B|b1 b2|b1 b2 b3 b4].
  5: { exfalso. apply N. reflexivity. }
  - pose proof (bz_range b0). eexists. split; [apply t2_one_byte; auto|].
    apply rounded_integer in R; auto. lia.
  - pose proof (bz_range b1). eexists. split; [apply t2_two_bytes_positive; auto|].
    apply rounded_integer in R; auto. lia.
  - pose proof (bz_range b1). eexists. split; [apply t2_two_bytes_negative; auto|].
    apply rounded_integer in R; auto. lia.
  - pose proof (signed16_range b1 b2). eexists. split; [apply t2_three_bytes|].
    apply rounded_integer in R; auto. lia.
Qed.

Lemma t2_number_fixed b1 b2 b3 b4 x : t2_number [xff; b1; b2; b3; b4] x ->
  Z.abs (signed 32 (big_endian [b1; b2; b3; b4])) < 2 ^ 24 ->
  value x = (IZR (signed 32 (big_endian [b1; b2; b3; b4])) / 65536)%R /\ finite x.
Proof.
  intros (r & D & R) H. inversion D; subst.
  eapply rounded_fixed; eauto.
Qed.

Lemma t2_number_finite e x : t2_number e x -> binary32 x /\ finite x.
Proof.
  intros H. split; [destruct H as (r & _ & B & _); auto|].
  destruct (list_eq_dec Byte.byte_eq_dec (firstn 1 e) [xff]) as [E|E].
  - destruct H as (r & D & R). destruct D as [b0 B|b0 b1 B|b0 b1 B|b1 b2|b1 b2 b3 b4];
      cbn in E; try (injection E as ->; change (bz xff) with 255 in B; lia); try discriminate.
    destruct R as [_ R]. rewrite Rlt_bool_true in R; [tauto|].
    pose proof (signed32_range b1 b2 b3 b4) as Hs. set (v := signed 32 (big_endian [b1; b2; b3; b4])) in *.
    assert (Rabs (IZR v / 65536) <= bpow radix2 15)%R as B.
    { change (IZR v / 65536)%R with (IZR v * bpow radix2 (-16))%R.
      rewrite Rabs_mult, (Rabs_pos_eq (bpow radix2 (-16))) by apply bpow_ge_0.
      replace (bpow radix2 15) with (bpow radix2 31 * bpow radix2 (-16))%R by (rewrite <- bpow_plus; reflexivity).
      apply Rmult_le_compat_r; [apply bpow_ge_0|]. rewrite <- abs_IZR.
      change (bpow radix2 31) with (IZR (2 ^ 31)). apply IZR_le. lia. }
    apply Rle_lt_trans with (bpow radix2 15); [|apply bpow_lt; lia].
    apply abs_round_le_generic; [auto with typeclass_instances..| |exact B].
    { apply FLT_exp_valid. reflexivity. }
    apply generic_format_bpow. unfold FLT_exp. lia.
  - destruct (t2_number_integer e x H) as (v & _ & _ & F); auto.
    intros N. apply E. destruct e; [discriminate|]. injection N as ->. reflexivity.
Qed.

(** ** What operands can be *)

Lemma rational_of e r : t2_denotes e r -> exists v, - 2 ^ 31 <= v < 2 ^ 31 /\ r = (IZR v / 65536)%R.
Proof.
  assert (W : forall n, (IZR n = IZR (n * 65536) / 65536)%R) by (intros n; rewrite mult_IZR; field).
  intros D. destruct D as [b0 B|b0 b1 B|b0 b1 B|b1 b2|b1 b2 b3 b4].
  - eexists. split; [|apply W]. lia.
  - pose proof (bz_range b1). eexists. split; [|apply W]. lia.
  - pose proof (bz_range b1). eexists. split; [|apply W]. lia.
  - pose proof (signed16_range b1 b2). eexists. split; [|apply W]. lia.
  - eexists. split; [|reflexivity]. apply signed32_range.
Qed.

Lemma operands_iff x : (exists s r, read_operand s = Ok (x, r)) <->
  exists v, - 2 ^ 31 <= v < 2 ^ 31 /\ rounded (IZR v / 65536) (sign_of (IZR v) false) x.
Proof.
  assert (Sg : forall v, sign_of (IZR v / 65536) false = sign_of (IZR v) false).
  { intros v. unfold sign_of.
    destruct (Rcompare_spec (IZR v) 0) as [L|L|L]; destruct (Rcompare_spec (IZR v / 65536) 0) as [M|M|M];
      try reflexivity; exfalso; lra. }
  split.
  - intros (s & r & H). apply read_operand_read in H. destruct H as (e & _ & H).
    apply t2_read_number in H. destruct H as (q & D & R). destruct (rational_of e q D) as (v & B & ->).
    exists v. split; auto. rewrite <- Sg. exact R.
  - intros (v & B & R). exists (xff :: bytes32 v), []. rewrite <- (app_nil_r (xff :: bytes32 v)).
    apply read_operand_t2_read, t2_read_number. exists (IZR v / 65536)%R. rewrite Sg. split; auto.
    rewrite <- (bytes32_value v B) at 2. constructor.
Qed.

(** LiteralFacts: the binary32 data that can be written as operands of dictionaries. *)
From Verif Require Import Base Float C1Number C1Operation BaseFacts SpecNumber NumberFacts.
From Coq Require Import Reals Lra.
From Flocq Require Import Core BinarySingleNaN.
From Verif Require Import SpecRounding FloatFacts RealFacts SpecOperation OperationFacts.
Local Open Scope Z_scope.

(** ** Digits *)

Definition digit_of (z : Z) : digit :=
  match z with
  | 0 => D0 | 1 => D1 | 2 => D2 | 3 => D3 | 4 => D4 | 5 => D5 | 6 => D6 | 7 => D7 | 8 => D8 | _ => D9
  end.

Lemma digit_of_value z : 0 <= z < 10 -> digit_value (digit_of z) = z.
Proof.
  intros H. assert (z = 0 \/ z = 1 \/ z = 2 \/ z = 3 \/ z = 4 \/ z = 5 \/ z = 6 \/ z = 7 \/ z = 8 \/ z = 9) as D by lia.
  repeat destruct D as [->|D]; try reflexivity. subst. reflexivity.
Qed.

Lemma decimal_integer_snoc ds d : decimal_integer (ds ++ [d]) = decimal_integer ds * 10 + digit_value d.
Proof. unfold decimal_integer. rewrite fold_left_app. reflexivity. Qed.

Lemma digits_exist k n : 0 <= n < 10 ^ Z.of_nat (S k) -> exists ds, ds <> [] /\ (length ds <= S k)%nat /\ decimal_integer ds = n.
Proof.
  revert n. induction k as [|k IH]; intros n H.
  - exists [digit_of n]. split; [discriminate|]. split; [cbn; lia|]. unfold decimal_integer. cbn [fold_left].
    rewrite digit_of_value; lia.
  - pose proof (Z.div_mod n 10 ltac:(lia)) as E. pose proof (Z.mod_pos_bound n 10 ltac:(lia)) as B.
    destruct (IH (n / 10)) as (ds & _ & L & D).
    { rewrite Nat2Z.inj_succ, Z.pow_succ_r in H by lia. split; [apply Z.div_pos; lia|apply Z.div_lt_upper_bound; lia]. }
    exists (ds ++ [digit_of (n mod 10)]). split; [destruct ds; discriminate|]. split; [rewrite app_length; cbn; lia|].
    rewrite decimal_integer_snoc, D, digit_of_value; lia.
Qed.

(** ** Lengths *)

Lemma pack_length ns : (2 * length (pack ns) <= S (length ns))%nat.
Proof.
  assert (G : forall n ns, (length ns <= n)%nat -> (2 * length (pack ns) <= S (length ns))%nat).
  { clear ns. induction n as [|n IH]; intros [|a [|b ns]] L; cbn in *; try lia. specialize (IH ns ltac:(lia)). lia. }
  eapply G. reflexivity.
Qed.

(** ** Literals *)

Lemma nearest_value x : binary32 x -> nearest (value x) = value x.
Proof.
  intros H. rewrite <- (value_to_b x H). apply round_generic; [auto with typeclass_instances|].
  apply (generic_format_B2R prec emax).
Qed.

Lemma value_bound x : binary32 x -> (Rabs (value x) < bpow radix2 128)%R.
Proof. intros H. rewrite <- (value_to_b x H). apply (abs_B2R_lt_emax prec emax). Qed.

Lemma rounded_value x : binary32 x -> finite x -> rounded (value x) (sign_bit x) x.
Proof.
  intros B F. split; auto. rewrite nearest_value by auto. rewrite Rlt_bool_true by (apply value_bound, B). auto.
Qed.

(** The longest literals that are needed have 117 nibbles and a terminator. *)
Lemma well_formed_real d x : well_formed d -> rounded (decimal_value d) (negative d) x ->
  (length (literal_nibbles d) <= 117)%nat -> exists e, operand_encoding e (Real x) /\ (length e <= 60)%nat.
Proof.
  intros W H L. pose proof (literal_nibbles_spell d) as S.
  destruct (nibbles_pack (literal_nibbles d ++ [15])) as (pad & E & P).
  { apply Forall_app. split.
    - eapply Forall_impl; [|eapply spells_bound; eauto]. simpl. lia.
    - repeat constructor; lia. }
  exists (x1e :: pack (literal_nibbles d ++ [15])). split.
  - exists d. split; [|exact H]. split; auto.
    exists (pack (literal_nibbles d ++ [15])), (literal_nibbles d), pad.
    rewrite E, <- app_assoc. repeat split; auto.
  - pose proof (pack_length (literal_nibbles d ++ [15])) as Q. rewrite app_length in Q. cbn in *. lia.
Qed.

Lemma zero_literal s : exists e, operand_encoding e (Real (S754_zero s)) /\ (length e <= 60)%nat.
Proof.
  apply (well_formed_real {| negative := s; whole := [D0]; fraction := None; exponent := None |}).
  - split; [discriminate|exact I].
  - unfold decimal_value, significand, decimal_integer. cbn [negative whole fraction fraction_digits app fold_left digit_value].
    replace ((if s then -1 else 1) * IZR (0 * 10 + 0) *
      powerRZ 10 (scale {| negative := s; whole := [D0]; fraction := None; exponent := None |}))%R with (value (S754_zero s)).
    + apply (rounded_value (S754_zero s)); reflexivity.
    + change (0 * 10 + 0) with 0. cbn [value SF2R]. destruct s; ring.
  - destruct s; cbn; lia.
Qed.

Lemma bpow_128 : bpow radix2 128 = IZR (2 ^ 128).
Proof. reflexivity. Qed.

Lemma infinity_literal s : exists e, operand_encoding e (Real (S754_infinity s)) /\ (length e <= 60)%nat.
Proof.
  apply (well_formed_real {| negative := s; whole := [D1]; fraction := None; exponent := Some (false, [D3; D9]) |}).
  - split; [discriminate|exact I].
  - split; [reflexivity|]. rewrite Rlt_bool_false; [reflexivity|].
    assert (E : Rabs (decimal_value {| negative := s; whole := [D1]; fraction := None; exponent := Some (false, [D3; D9]) |}) = IZR (10 ^ 39)).
    { unfold decimal_value, significand, scale, decimal_integer.
      cbn [negative whole fraction exponent fraction_digits app fold_left digit_value length].
      change (0 * 10 + 1) with 1. change ((0 * 10 + 3) * 10 + 9 - Z.of_nat 0) with 39.
      rewrite powerRZ_10_pos by lia. rewrite Rmult_1_r.
      destruct s; [replace (-1 * IZR (10 ^ 39))%R with (- IZR (10 ^ 39))%R by ring; rewrite Rabs_Ropp|rewrite Rmult_1_l];
        apply Rabs_pos_eq; apply IZR_le; lia. }
    assert (VE : Valid_exp (FLT_exp (-149) 24)) by (apply FLT_exp_valid; reflexivity).
    unfold nearest. rewrite <- (round_NE_abs radix2 (FLT_exp (-149) 24)), E.
    apply round_ge_generic; auto with typeclass_instances.
    + apply generic_format_bpow. unfold FLT_exp. lia.
    + rewrite bpow_128. apply IZR_le. lia.
  - destruct s; cbn; lia.
Qed.

Lemma power_split e : (0 <= e)%Z -> (IZR (5 ^ e) * powerRZ 10 (- e) = bpow radix2 (- e))%R.
Proof.
  intros H. rewrite powerRZ_neg' , powerRZ_10_pos by lia.
  rewrite bpow_opp. rewrite <- (IZR_Zpower radix2) by lia. change (Zpower radix2 e) with (2 ^ e).
  replace (10 ^ e) with (5 ^ e * 2 ^ e) by (rewrite <- Z.pow_mul_l; reflexivity).
  rewrite mult_IZR. field. split; apply IZR_neq; apply Z.pow_nonzero; lia.
Qed.

Lemma finite_literal s m e : binary32 (S754_finite s m e) ->
  exists b, operand_encoding b (Real (S754_finite s m e)) /\ (length b <= 60)%nat.
Proof.
  intros B.
  assert (V : value (S754_finite s m e) = ((if s then -1 else 1) * IZR (Zpos m) * bpow radix2 e)%R).
  { unfold value, SF2R, F2R. cbn [Fnum Fexp]. destruct s; cbn [cond_Zopp]; rewrite ?opp_IZR; ring. }
  assert (R : Zpos m < 2 ^ 24 /\ -149 <= e <= 104).
  { cbn in B. apply andb_prop in B as [B1 B2]. apply Z.leb_le in B2.
    unfold canonical_mantissa, SpecFloat.canonical_mantissa in B1. apply Zeq_bool_eq in B1.
    unfold fexp, SpecFloat.emin in B1.
    assert (D : Z.pos (digits2_pos m) <= 24) by lia.
    rewrite Zpos_digits2_pos in D. apply Zpower_gt_Zdigits in D. change (Z.abs (Z.pos m)) with (Z.pos m) in D.
    split; [exact D|lia]. }
  destruct R as [Rm Re].
  destruct (Z_le_gt_dec 0 e) as [He|He].
  - destruct (digits_exist 38 (Zpos m * 2 ^ e)) as (ds & N & Ld & D).
    { assert (2 ^ e <= 2 ^ 104) by (apply Z.pow_le_mono_r; lia). split; [nia|].
      assert (2 ^ 24 * 2 ^ 104 < 10 ^ Z.of_nat 39) by reflexivity. nia. }
    apply (well_formed_real {| negative := s; whole := ds; fraction := None; exponent := None |}).
    + split; [|exact I]. cbn. rewrite app_nil_r. exact N.
    + cbn [negative]. replace (decimal_value _) with (value (S754_finite s m e)); [apply rounded_value; auto; reflexivity|].
      rewrite V. unfold decimal_value, significand, scale.
      cbn [negative whole fraction exponent fraction_digits length]. rewrite app_nil_r, D, mult_IZR.
      change (0 - Z.of_nat 0) with 0. cbn [powerRZ]. rewrite <- (IZR_Zpower radix2) by lia.
      change (Zpower radix2 e) with (2 ^ e). ring.
    + unfold literal_nibbles. cbn [negative whole fraction exponent]. rewrite !app_length, map_length. destruct s; cbn [length]; lia.
  - destruct (digits_exist 111 (Zpos m * 5 ^ (- e))) as (ds & N & Ld & D).
    { assert (5 ^ (- e) <= 5 ^ 149) by (apply Z.pow_le_mono_r; lia). split; [nia|].
      assert (2 ^ 24 * 5 ^ 149 < 10 ^ Z.of_nat 112) by reflexivity. nia. }
    destruct (digits_exist 2 (- e)) as (es & Ne & Le & De); [cbn; lia|].
    apply (well_formed_real {| negative := s; whole := ds; fraction := None; exponent := Some (true, es) |}).
    + split; [|destruct es; [contradiction|exact I]]. cbn. rewrite app_nil_r. exact N.
    + cbn [negative]. replace (decimal_value _) with (value (S754_finite s m e)); [apply rounded_value; auto; reflexivity|].
      rewrite V. unfold decimal_value, significand, scale.
      cbn [negative whole fraction exponent fraction_digits length]. rewrite app_nil_r, D, De, mult_IZR.
      replace (- - e - Z.of_nat 0) with (- - e) by lia.
      rewrite !Rmult_assoc. rewrite power_split by lia. rewrite Z.opp_involutive. reflexivity.
    + unfold literal_nibbles. cbn [negative whole fraction exponent]. rewrite !app_length. cbn [length]. rewrite !map_length.
      destruct s; cbn [length]; lia.
Qed.

Lemma real_written x : binary32 x -> x <> S754_nan -> exists e, operand_encoding e (Real x) /\ (length e <= 60)%nat.
Proof.
  intros B N. destruct x as [s|s| |s m e].
  - apply zero_literal.
  - apply infinity_literal.
  - congruence.
  - apply finite_literal, B.
Qed.

Lemma rounded_number r s x : rounded r s x -> binary32 x /\ x <> S754_nan.
Proof.
  intros [B H]. split; auto. intros ->.
  destruct (Rlt_bool _ _) in H; [destruct H as (_ & H & _)|]; discriminate.
Qed.

Lemma reals_iff x : (exists s r, read_number s = Ok (Real x, r)) <-> binary32 x /\ x <> S754_nan.
Proof.
  split.
  - intros (s & r & H). apply read_real_iff in H as (e & d & _ & _ & H). exact (rounded_number _ _ _ H).
  - intros (B & N). destruct (real_written x B N) as (e & (d & E & R) & _).
    exists e, []. apply read_real_iff. exists e, d. rewrite app_nil_r. auto.
Qed.

(** ** Dictionaries *)


Lemma operand_storable e n : operand_encoding e n -> storable n.
Proof.
  destruct n as [v|x]; cbn.
  - apply integer_encoding_range.
  - intros (d & _ & H). exact (rounded_number _ _ _ H).
Qed.

Lemma storable_short n : storable n -> exists e, operand_encoding e n /\ (length e <= 60)%nat.
Proof.
  destruct n as [v|x]; cbn.
  - intros H. exists (x1d :: bytes32 v). split; [|cbn; lia]. rewrite <- (bytes32_value v H) at 2. apply five_bytes.
  - intros [B N]. apply real_written; auto.
Qed.

Lemma storable_operand n : storable n -> exists e, operand_encoding e n.
Proof. intros H. destruct (storable_short n H) as (e & E & _). eauto. Qed.

Lemma storable_iff n : (exists s r, read_number s = Ok (n, r)) <-> storable n.
Proof.
  destruct n as [v|x]; [|apply reals_iff]. split.
  - intros (s & r & H). apply read_integer_iff in H as (e & _ & H). exact (integer_encoding_range _ _ H).
  - intros H. exists (shortest v ++ []), []. apply (read_integer_round_trip v [] H).
Qed.

Lemma storable_length n : storable n -> exists e, (length e <= 60)%nat /\ forall r, read_number (e ++ r) = Ok (n, r).
Proof.
  intros H. destruct (storable_short n H) as (e & E & L). exists e. split; auto. intros r.
  destruct n as [v|x].
  - apply read_integer_iff. exists e. auto.
  - destruct E as (d & E & R). apply read_real_iff. exists e, d. auto.
Qed.

Lemma each_exists {A} (enc : list byte -> A -> Prop) (P : A -> Prop) xs :
  (forall x, P x -> exists e, enc e x) -> Forall P xs -> exists es, each enc es xs.
Proof.
  intros H. induction 1 as [|x xs Px _ (es & IH)]; [exists []; constructor|].
  destruct (H x Px) as (e & E). exists (e ++ es). constructor; auto.
Qed.

Lemma each_all {A} (enc : list byte -> A -> Prop) (P : A -> Prop) es xs :
  (forall e x, enc e x -> P x) -> each enc es xs -> Forall P xs.
Proof. intros H. induction 1; constructor; eauto. Qed.

Lemma dictionaries_written ops : Forall (fun op => Forall storable (snd op)) ops ->
  exists e, dictionary_encoding e ops.
Proof.
  apply each_exists. intros (o & ns) H. destruct (each_exists operand_encoding storable ns storable_operand H) as (es & E).
  exists (es ++ operator_bytes o), es. auto.
Qed.

Lemma tables_written t : (exists s, read_operations s = Ok t) <->
  exists ops, Forall (fun op => Forall storable (snd op)) ops /\ t = table ops.
Proof.
  split.
  - intros (s & H). apply read_operations_iff in H as (e & ops & cut & _ & E & _ & ->).
    exists ops. split; auto. refine (each_all operation_encoding _ _ _ _ E).
    intros e' (o & ns) (es & _ & X). exact (each_all _ _ _ _ operand_storable X).
  - intros (ops & H & ->). destruct (dictionaries_written ops H) as (e & E). exists e.
    apply read_operations_iff. exists e, ops, []. rewrite app_nil_r. repeat split; auto.
    exists [], [], []. repeat split; auto. constructor.
Qed.

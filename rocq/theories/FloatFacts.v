(** FloatFacts: the operations of Float.v round correctly (by Flocq). *)
From Coq Require Import Reals Lra.
From Verif Require Import Base Float SpecNumber SpecRounding.
From Flocq Require Import Core BinarySingleNaN.

#[local] Instance Hprec : Prec_gt_0 prec := eq_refl.
#[local] Instance Hmax : Prec_lt_emax prec emax := eq_refl.

(** ** From the standard library's operations to Flocq's *)

Lemma round_nearest_even_equiv s m l :
  round_nearest_even m l = choice_mode mode_NE s m l.
Proof.
  destruct l as [|c]; [reflexivity|]. destruct c; [|reflexivity..].
  simpl. unfold Round.cond_incr. now case Z.even.
Qed.

Lemma binary_round_aux_equiv sx mx ex lx :
  SpecFloat.binary_round_aux prec emax sx mx ex lx
  = binary_round_aux prec emax mode_NE sx mx ex lx.
Proof.
  unfold SpecFloat.binary_round_aux, binary_round_aux.
  set (mrse' := shr_fexp _ _ _). destruct mrse' as [mrs' e']. simpl.
  now rewrite (round_nearest_even_equiv sx).
Qed.

Lemma binary_round_equiv s m e :
  SpecFloat.binary_round prec emax s m e = binary_round prec emax mode_NE s m e.
Proof.
  unfold SpecFloat.binary_round, binary_round, shl_align_fexp.
  set (mez := shl_align _ _ _). destruct mez as [mz ez]. apply binary_round_aux_equiv.
Qed.

Lemma binary_normalize_equiv m e szero :
  SpecFloat.binary_normalize prec emax m e szero
  = B2SF (binary_normalize prec emax Hprec Hmax mode_NE m e szero).
Proof.
  destruct m as [|p|p]; [reflexivity| |]; simpl; rewrite B2SF_SF2B; apply binary_round_equiv.
Qed.

Notation to_b := (@SF2B prec emax).
Notation of_b := (@B2SF prec emax).

Lemma add_equiv x y (Hx : binary32 x) (Hy : binary32 y) :
  f32_add x y = of_b (Bplus mode_NE (to_b x Hx) (to_b y Hy)).
Proof.
  unfold f32_add.
  destruct x as [sx|sx| |sx mx ex], y as [sy|sy| |sy my ey];
    try reflexivity; try (simpl; now case Bool.eqb).
  apply binary_normalize_equiv.
Qed.

Lemma sub_equiv x y (Hx : binary32 x) (Hy : binary32 y) :
  f32_sub x y = of_b (Bminus mode_NE (to_b x Hx) (to_b y Hy)).
Proof.
  unfold f32_sub.
  destruct x as [sx|sx| |sx mx ex], y as [sy|sy| |sy my ey];
    try reflexivity; try (simpl; now case Bool.eqb).
  simpl. unfold Zminus. rewrite <- cond_Zopp_negb. apply binary_normalize_equiv.
Qed.

Lemma mul_equiv x y (Hx : binary32 x) (Hy : binary32 y) :
  f32_mul x y = of_b (Bmult mode_NE (to_b x Hx) (to_b y Hy)).
Proof.
  unfold f32_mul.
  destruct x as [sx|sx| |sx mx ex], y as [sy|sy| |sy my ey]; try reflexivity.
  simpl. rewrite B2SF_SF2B. apply binary_round_aux_equiv.
Qed.

Lemma div_equiv x y (Hx : binary32 x) (Hy : binary32 y) :
  f32_div x y = of_b (Bdiv mode_NE (to_b x Hx) (to_b y Hy)).
Proof.
  unfold f32_div.
  destruct x as [sx|sx| |sx mx ex], y as [sy|sy| |sy my ey]; try reflexivity.
  simpl. rewrite B2SF_SF2B.
  set (melz := SFdiv_core_binary _ _ _ _ _ _). destruct melz as [[mz ez] lz].
  apply binary_round_aux_equiv.
Qed.

Lemma sqrt_equiv x (Hx : binary32 x) :
  f32_sqrt x = of_b (Bsqrt mode_NE (to_b x Hx)).
Proof.
  unfold f32_sqrt.
  destruct x as [sx|sx| |sx mx ex]; try reflexivity; [now case sx|].
  destruct sx; [reflexivity|]. simpl. rewrite B2SF_SF2B.
  set (melz := SFsqrt_core_binary _ _ _ _). destruct melz as [[mz ez] lz].
  apply binary_round_aux_equiv.
Qed.

(** ** Every result is a binary32 datum *)

Lemma valid_of_b b : binary32 (of_b b).
Proof. apply (valid_binary_B2SF prec emax). Qed.

Lemma binary_normalize_valid m e s : binary32 (SpecFloat.binary_normalize prec emax m e s).
Proof. rewrite binary_normalize_equiv. apply valid_of_b. Qed.

Lemma f32_add_valid x y : binary32 x -> binary32 y -> binary32 (f32_add x y).
Proof. intros Hx Hy. rewrite (add_equiv x y Hx Hy). apply valid_of_b. Qed.
Lemma f32_sub_valid x y : binary32 x -> binary32 y -> binary32 (f32_sub x y).
Proof. intros Hx Hy. rewrite (sub_equiv x y Hx Hy). apply valid_of_b. Qed.
Lemma f32_mul_valid x y : binary32 x -> binary32 y -> binary32 (f32_mul x y).
Proof. intros Hx Hy. rewrite (mul_equiv x y Hx Hy). apply valid_of_b. Qed.
Lemma f32_div_valid x y : binary32 x -> binary32 y -> binary32 (f32_div x y).
Proof. intros Hx Hy. rewrite (div_equiv x y Hx Hy). apply valid_of_b. Qed.
Lemma f32_sqrt_valid x : binary32 x -> binary32 (f32_sqrt x).
Proof. intros Hx. rewrite (sqrt_equiv x Hx). apply valid_of_b. Qed.
Lemma f32_neg_valid x : binary32 x -> binary32 (f32_neg x).
Proof. destruct x; auto. Qed.
Lemma f32_abs_valid x : binary32 x -> binary32 (f32_abs x).
Proof. destruct x; auto. Qed.
Lemma f32_of_i32_valid z : binary32 (f32_of_i32 z).
Proof. apply binary_normalize_valid. Qed.
Lemma f32_of_q32_valid z : binary32 (f32_of_q32 z).
Proof. apply binary_normalize_valid. Qed.
Lemma f32_zero_valid : binary32 f32_zero.
Proof. reflexivity. Qed.
Lemma f32_one_valid : binary32 f32_one.
Proof. reflexivity. Qed.

(** ** Correct rounding *)

Lemma value_of_b b : value (of_b b) = B2R b.
Proof. apply SF2R_B2SF. Qed.

Lemma value_to_b x (H : binary32 x) : B2R (to_b x H) = value x.
Proof. apply B2R_SF2B. Qed.

Lemma sign_of_b b : sign_bit (of_b b) = Bsign b.
Proof. destruct b; reflexivity. Qed.

Lemma sign_to_b x (H : binary32 x) : Bsign (to_b x H) = sign_bit x.
Proof. apply Bsign_SF2B. Qed.

Lemma finite_to_b x (H : binary32 x) : finite x -> is_finite (to_b x H) = true.
Proof. intros F. now rewrite is_finite_SF2B. Qed.

Lemma finite_of_b b : is_finite b = true -> finite (of_b b).
Proof. intros F. unfold finite. now rewrite is_finite_SF_B2SF. Qed.

Lemma nearest_fold r : round radix2 (SpecFloat.fexp prec emax) (round_mode mode_NE) r = nearest r.
Proof. reflexivity. Qed.

Lemma f32_add_correct x y :
  binary32 x -> binary32 y -> finite x -> finite y ->
  rounded (value x + value y)
    (if Rlt_bool (Rabs (nearest (value x + value y))) (bpow radix2 128)
     then sign_of (value x + value y) (sign_bit x && sign_bit y) else sign_bit x)
    (f32_add x y).
Proof.
  intros Hx Hy Fx Fy. split; [now apply f32_add_valid|].
  rewrite (add_equiv x y Hx Hy).
  pose proof (Bplus_correct prec emax Hprec Hmax mode_NE (to_b x Hx) (to_b y Hy)
                (finite_to_b x Hx Fx) (finite_to_b y Hy Fy)) as C.
  rewrite !value_to_b, !sign_to_b in C. rewrite nearest_fold in C. change (bpow radix2 emax) with (bpow radix2 128) in C.
  destruct (Rlt_bool (Rabs (nearest (value x + value y))) (bpow radix2 128)).
  - destruct C as (C1 & C2 & C3). rewrite value_of_b, sign_of_b. repeat split; auto.
    now apply finite_of_b.
  - destruct C as (C1 & _). exact C1.
Qed.

Lemma f32_sub_correct x y :
  binary32 x -> binary32 y -> finite x -> finite y ->
  rounded (value x - value y)
    (if Rlt_bool (Rabs (nearest (value x - value y))) (bpow radix2 128)
     then sign_of (value x - value y) (sign_bit x && negb (sign_bit y)) else sign_bit x)
    (f32_sub x y).
Proof.
  intros Hx Hy Fx Fy. split; [now apply f32_sub_valid|].
  rewrite (sub_equiv x y Hx Hy).
  pose proof (Bminus_correct prec emax Hprec Hmax mode_NE (to_b x Hx) (to_b y Hy)
                (finite_to_b x Hx Fx) (finite_to_b y Hy Fy)) as C.
  rewrite !value_to_b, !sign_to_b in C. rewrite nearest_fold in C. change (bpow radix2 emax) with (bpow radix2 128) in C.
  destruct (Rlt_bool (Rabs (nearest (value x - value y))) (bpow radix2 128)).
  - destruct C as (C1 & C2 & C3). rewrite value_of_b, sign_of_b. repeat split; auto.
    now apply finite_of_b.
  - destruct C as (C1 & _). exact C1.
Qed.

Lemma f32_mul_correct x y :
  binary32 x -> binary32 y -> finite x -> finite y ->
  rounded (value x * value y) (xorb (sign_bit x) (sign_bit y)) (f32_mul x y).
Proof.
  intros Hx Hy Fx Fy. split; [now apply f32_mul_valid|].
  rewrite (mul_equiv x y Hx Hy).
  pose proof (Bmult_correct prec emax Hprec Hmax mode_NE (to_b x Hx) (to_b y Hy)) as C.
  rewrite !value_to_b, !sign_to_b in C. rewrite nearest_fold in C. change (bpow radix2 emax) with (bpow radix2 128) in C.
  destruct (Rlt_bool (Rabs (nearest (value x * value y))) (bpow radix2 128)).
  - destruct C as (C1 & C2 & C3). rewrite (finite_to_b x Hx Fx), (finite_to_b y Hy Fy) in C2.
    rewrite value_of_b, sign_of_b. repeat split; auto.
    + now apply finite_of_b.
    + apply C3. clear - C2. destruct (Bmult _ _ _); simpl in *; congruence.
  - exact C.
Qed.

Lemma f32_div_correct x y :
  binary32 x -> binary32 y -> finite x -> finite y -> value y <> 0%R ->
  rounded (value x / value y) (xorb (sign_bit x) (sign_bit y)) (f32_div x y).
Proof.
  intros Hx Hy Fx Fy Ny. split; [now apply f32_div_valid|].
  rewrite (div_equiv x y Hx Hy).
  pose proof (Bdiv_correct prec emax Hprec Hmax mode_NE (to_b x Hx) (to_b y Hy)) as C.
  rewrite !value_to_b, !sign_to_b in C. rewrite nearest_fold in C. change (bpow radix2 emax) with (bpow radix2 128) in C.
  specialize (C Ny).
  destruct (Rlt_bool (Rabs (nearest (value x / value y))) (bpow radix2 128)).
  - destruct C as (C1 & C2 & C3). rewrite (finite_to_b x Hx Fx) in C2.
    rewrite value_of_b, sign_of_b. repeat split; auto.
    + now apply finite_of_b.
    + apply C3. clear - C2. destruct (Bdiv _ _ _); simpl in *; congruence.
  - exact C.
Qed.

Lemma nearest_0 : nearest 0 = 0%R.
Proof. apply round_0. auto with typeclass_instances. Qed.

Lemma F2R_pos_value m e : (0 < F2R (Float radix2 (Zpos m) e))%R.
Proof. now apply F2R_gt_0. Qed.

(** The square root of a number that is not negative; -0 counts as 0. *)
Lemma f32_sqrt_correct x :
  binary32 x -> finite x -> (0 <= value x)%R ->
  binary32 (f32_sqrt x) /\ finite (f32_sqrt x) /\
  value (f32_sqrt x) = nearest (sqrt (value x)) /\ sign_bit (f32_sqrt x) = sign_bit x.
Proof.
  intros Hx Fx Px. split; [now apply f32_sqrt_valid|].
  rewrite (sqrt_equiv x Hx).
  pose proof (Bsqrt_correct prec emax Hprec Hmax mode_NE (to_b x Hx)) as (C1 & C2 & C3).
  rewrite value_to_b in C1. rewrite nearest_fold in C1. rewrite sign_to_b in C3.
  assert (F : is_finite (Bsqrt mode_NE (to_b x Hx)) = true).
  { rewrite C2. destruct x as [s|s| |s m e]; simpl in *; try reflexivity; try discriminate.
    destruct s; auto. exfalso. unfold value, SF2R in Px. simpl in Px.
    assert (F2R (Float radix2 (Zneg m) e) < 0)%R by now apply F2R_lt_0. lra. }
  rewrite value_of_b, sign_of_b. split; [now apply finite_of_b|]. split; auto.
  apply C3. destruct (Bsqrt mode_NE (to_b x Hx)); simpl in *; congruence.
Qed.

Lemma f32_sqrt_negative x :
  binary32 x -> finite x -> (value x < 0)%R -> f32_sqrt x = S754_nan.
Proof.
  intros Hx Fx Nx. destruct x as [s|s| |s m e]; simpl in *; try discriminate;
    try (unfold value, SF2R in Nx; lra).
  destruct s; auto. exfalso. unfold value, SF2R in Nx. simpl in Nx.
  pose proof (F2R_pos_value m e). lra.
Qed.

Lemma f32_neg_correct x : finite x ->
  value (f32_neg x) = (- value x)%R /\ finite (f32_neg x) /\ sign_bit (f32_neg x) = negb (sign_bit x).
Proof.
  destruct x as [s|s| |s m e]; unfold finite; simpl; try discriminate; intros _; unfold value, SF2R; simpl.
  - repeat split. lra.
  - repeat split. destruct s; simpl; unfold F2R; simpl; rewrite ?Zneg_eq;
      rewrite ?(opp_IZR) ;
      try (change (Z.neg m) with (- Z.pos m)%Z; rewrite opp_IZR; lra).
Qed.

Lemma f32_abs_correct x : finite x ->
  value (f32_abs x) = Rabs (value x) /\ finite (f32_abs x) /\ sign_bit (f32_abs x) = false.
Proof.
  destruct x as [s|s| |s m e]; unfold finite; simpl; try discriminate; intros _; unfold value, SF2R; simpl.
  - repeat split. now rewrite Rabs_R0.
  - repeat split. rewrite <- F2R_Zabs. destruct s; reflexivity.
Qed.

Lemma f32_eqb_correct x y :
  binary32 x -> binary32 y -> finite x -> finite y ->
  f32_eqb x y = Req_bool (value x) (value y).
Proof.
  intros Hx Hy Fx Fy. unfold f32_eqb. rewrite <- (value_to_b x Hx), <- (value_to_b y Hy).
  rewrite <- (Beqb_correct prec emax); try now apply finite_to_b.
  unfold Beqb. now rewrite !B2SF_SF2B.
Qed.

Lemma f32_leb_correct x y :
  binary32 x -> binary32 y -> finite x -> finite y ->
  f32_leb x y = Rle_bool (value x) (value y).
Proof.
  intros Hx Hy Fx Fy. unfold f32_leb. rewrite <- (value_to_b x Hx), <- (value_to_b y Hy).
  rewrite <- (Bleb_correct prec emax); try now apply finite_to_b.
  unfold Bleb. now rewrite !B2SF_SF2B.
Qed.

(** ** Conversions *)

Lemma normalize_correct m e :
  rounded (IZR m * bpow radix2 e) (sign_of (IZR m * bpow radix2 e) false)
    (SpecFloat.binary_normalize prec emax m e false).
Proof.
  split; [apply binary_normalize_valid|].
  rewrite binary_normalize_equiv.
  pose proof (binary_normalize_correct prec emax Hprec Hmax mode_NE m e false) as C.
  cbv zeta in C. rewrite nearest_fold in C. change (bpow radix2 emax) with (bpow radix2 128) in C.
  change (F2R (Float radix2 m e)) with (IZR m * bpow radix2 e)%R in C.
  set (r := (IZR m * bpow radix2 e)%R) in *.
  destruct (Rlt_bool (Rabs (nearest r)) (bpow radix2 128)) eqn:E.
  - destruct C as (C1 & C2 & C3). rewrite value_of_b, sign_of_b. repeat split; auto.
    now apply finite_of_b.
  - rewrite C. reflexivity.
Qed.

Lemma f32_of_i32_correct z : rounded (IZR z) (sign_of (IZR z) false) (f32_of_i32 z).
Proof.
  pose proof (normalize_correct z 0) as C. simpl bpow in C. now rewrite Rmult_1_r in C.
Qed.

Lemma f32_of_q32_correct z :
  rounded (IZR z / 65536) (sign_of (IZR z / 65536) false) (f32_of_q32 z).
Proof.
  pose proof (normalize_correct z (-16)) as C.
  replace (IZR z * bpow radix2 (-16))%R with (IZR z / 65536)%R in C; [exact C|].
  unfold Rdiv. f_equal.
Qed.

(** A real number of the format is its own rounding. *)
Lemma nearest_exact m e :
  (Z.abs m < 2 ^ 24)%Z -> (-149 <= e)%Z -> nearest (IZR m * bpow radix2 e) = (IZR m * bpow radix2 e)%R.
Proof.
  intros Hm He. apply round_generic; [auto with typeclass_instances|].
  apply generic_format_FLT. exists (Float radix2 m e); auto.
Qed.

(** Small integers are exact. *)
Lemma f32_of_i32_exact z :
  (Z.abs z < 2 ^ 24)%Z -> value (f32_of_i32 z) = IZR z /\ finite (f32_of_i32 z).
Proof.
  intros H. destruct (f32_of_i32_correct z) as [_ C].
  assert (N : nearest (IZR z) = IZR z).
  { pose proof (nearest_exact z 0 H) as N. simpl bpow in N. rewrite Rmult_1_r in N. apply N. lia. }
  rewrite N in C. rewrite Rlt_bool_true in C. { split; apply C. }
  rewrite <- abs_IZR. apply Rlt_trans with (IZR (2 ^ 24)); [now apply IZR_lt|].
  change (IZR (2 ^ 24)) with (bpow radix2 24). now apply bpow_lt.
Qed.

(** ** Decimals *)

Lemma powerRZ_10_IZR n : powerRZ 10 (Z.of_nat n) = IZR (10 ^ Z.of_nat n).
Proof. rewrite <- pow_powerRZ. now rewrite pow_IZR. Qed.

Lemma powerRZ_10_pos e : (0 <= e)%Z -> powerRZ 10 e = IZR (10 ^ e).
Proof. intros H. rewrite <- (Z2Nat.id e) by assumption. apply powerRZ_10_IZR. Qed.

Lemma f32_of_decimal_correct (s : bool) m e :
  (0 <= m)%Z ->
  rounded ((if s then -1 else 1) * IZR m * powerRZ 10 e) s (f32_of_decimal s m e).
Proof.
  intros Hm. destruct m as [|p|p]; [| |lia].
  { replace (((if s then -1 else 1) * 0 * powerRZ 10 e)%R) with 0%R by (destruct s; ring).
    split; [reflexivity|]. rewrite nearest_0, Rabs_R0, Rlt_bool_true by apply bpow_gt_0.
    repeat split. }
  unfold f32_of_decimal. destruct (Z.leb_spec 0 e) as [He|He].
  - assert (P : (0 < Zpos p * 10 ^ e)%Z) by (apply Z.mul_pos_pos; [lia|apply Z.pow_pos_nonneg; lia]).
    rewrite binary_round_equiv.
    pose proof (binary_round_correct prec emax Hprec Hmax mode_NE s (Z.to_pos (Zpos p * 10 ^ e)) 0) as C.
    cbv zeta in C. rewrite nearest_fold in C. change (bpow radix2 emax) with (bpow radix2 128) in C.
    assert (E : F2R (Float radix2 (cond_Zopp s (Z.pos (Z.to_pos (Z.pos p * 10 ^ e)))) 0)
                = ((if s then -1 else 1) * IZR (Zpos p) * powerRZ 10 e)%R).
    { rewrite Z2Pos.id by assumption. unfold F2R. cbn [Fnum Fexp bpow].
      rewrite powerRZ_10_pos by assumption.
      destruct s; cbn [cond_Zopp]; rewrite ?opp_IZR, mult_IZR; ring. }
    rewrite E in C. exact C.
  - assert (Q : exists q, (10 ^ (- e))%Z = Zpos q).
    { assert (0 < 10 ^ (- e))%Z by (apply Z.pow_pos_nonneg; lia).
      destruct (10 ^ (- e))%Z; try lia. eauto. }
    destruct Q as (q & Q). rewrite Q.
    pose proof (Bdiv_correct_aux prec emax Hprec Hmax mode_NE s p 0 false q 0) as C.
    cbv zeta in C. rewrite nearest_fold in C. change (bpow radix2 emax) with (bpow radix2 128) in C.
    destruct (SFdiv_core_binary prec emax (Z.pos p) 0 (Z.pos q) 0) as [[m' e'] l].
    change (SFdiv_core_binary prec 128 (Z.pos p) 0 (Z.pos q) 0)
      with (SFdiv_core_binary prec emax (Z.pos p) 0 (Z.pos q) 0) in C.
    rewrite binary_round_aux_equiv. rewrite xorb_false_r in C.
    assert (E : (F2R (Float radix2 (cond_Zopp s (Z.pos p)) 0) /
                 F2R (Float radix2 (cond_Zopp false (Z.pos q)) 0))%R
                = ((if s then -1 else 1) * IZR (Zpos p) * powerRZ 10 e)%R).
    { unfold F2R. cbn [Fnum Fexp bpow]. rewrite <- Q.
      replace (powerRZ 10 e) with (/ IZR (10 ^ (- e)))%R.
      - unfold Rdiv. rewrite !Rmult_1_r. destruct s; cbn [cond_Zopp]; rewrite ?opp_IZR; ring.
      - rewrite <- (powerRZ_10_pos (- e)) by lia. rewrite powerRZ_neg'. now rewrite Rinv_inv. }
    rewrite E in C. exact C.
Qed.

(** ** Uniqueness *)

Lemma rounded_unique r s x y : rounded r s x -> rounded r s y -> x = y.
Proof.
  intros [Hx Rx] [Hy Ry].
  destruct (Rlt_bool (Rabs (nearest r)) (bpow radix2 128)); [|congruence].
  destruct Rx as (Vx & Fx & Sx), Ry as (Vy & Fy & Sy).
  rewrite <- (B2SF_SF2B prec emax x Hx), <- (B2SF_SF2B prec emax y Hy). f_equal.
  apply B2R_Bsign_inj.
  - now apply finite_to_b.
  - now apply finite_to_b.
  - rewrite !value_to_b. congruence.
  - rewrite !sign_to_b. congruence.
Qed.

(** ArithmeticFacts: the arithmetic operators in terms of real numbers. *)
From Coq Require Import Reals Lra.
From Verif Require Import Base Float T2Number T2Operation T2Program BaseFacts SpecProgram FloatFacts EvalFacts IntegralFacts StackFacts ExecutionFacts ProgramFacts.
From Flocq Require Import Core BinarySingleNaN.
Local Open Scope list_scope.
Local Open Scope Z_scope.

#[local] Instance Hprec : Prec_gt_0 prec := eq_refl.
#[local] Instance Hmax : Prec_lt_emax prec emax := eq_refl.

(** ** The sign of a sum that overflows *)

Lemma value_positive x : sign_bit x = false -> (0 <= value x)%R.
Proof.
  destruct x as [s|s| |s m e]; unfold sign_bit, value, SF2R, sign_SF; intros E; subst; try apply Rle_refl.
  cbn [cond_Zopp]. apply F2R_ge_0. cbn. lia.
Qed.
Lemma value_negative x : sign_bit x = true -> (value x <= 0)%R.
Proof.
  destruct x as [s|s| |s m e]; unfold sign_bit, value, SF2R, sign_SF; intros E; subst; try apply Rle_refl.
  cbn [cond_Zopp]. apply F2R_le_0. cbn. lia.
Qed.

Lemma same_sign_sum x y r : r = (value x + value y)%R -> sign_bit x = sign_bit y -> r <> 0%R ->
  forall z, sign_of r z = sign_bit x.
Proof.
  intros -> E N z. unfold sign_of. destruct (sign_bit x) eqn:Sx.
  - apply value_negative in Sx. symmetry in E. apply value_negative in E. rewrite Rcompare_Lt; auto. lra.
  - apply value_positive in Sx. symmetry in E. apply value_positive in E. rewrite Rcompare_Gt; auto. lra.
Qed.

Lemma overflow_nonzero r : Rlt_bool (Rabs (nearest r)) (bpow radix2 128) = false -> r <> 0%R.
Proof.
  intros H ->. rewrite nearest_0, Rabs_R0, Rlt_bool_true in H; [discriminate|]. apply bpow_gt_0.
Qed.

Lemma f32_add_rounded x y : binary32 x -> binary32 y -> finite x -> finite y ->
  rounded (value x + value y) (sign_of (value x + value y) (sign_bit x && sign_bit y)) (f32_add x y).
Proof.
  intros Hx Hy Fx Fy. pose proof (f32_add_correct x y Hx Hy Fx Fy) as C.
  pose proof (Bplus_correct prec emax Hprec Hmax mode_NE (to_b x Hx) (to_b y Hy)
                (finite_to_b x Hx Fx) (finite_to_b y Hy Fy)) as P.
  rewrite !value_to_b, !sign_to_b in P. rewrite nearest_fold in P. change (bpow radix2 emax) with (bpow radix2 128) in P.
  unfold rounded in *. destruct (Rlt_bool (Rabs (nearest (value x + value y))) (bpow radix2 128)) eqn:O; auto.
  destruct P as (_ & P). rewrite (same_sign_sum x y _ eq_refl P (overflow_nonzero _ O)). exact C.
Qed.

Lemma f32_sub_rounded x y : binary32 x -> binary32 y -> finite x -> finite y ->
  rounded (value x - value y) (sign_of (value x - value y) (sign_bit x && negb (sign_bit y))) (f32_sub x y).
Proof.
  intros Hx Hy Fx Fy. pose proof (f32_sub_correct x y Hx Hy Fx Fy) as C.
  pose proof (Bminus_correct prec emax Hprec Hmax mode_NE (to_b x Hx) (to_b y Hy)
                (finite_to_b x Hx Fx) (finite_to_b y Hy Fy)) as P.
  rewrite !value_to_b, !sign_to_b in P. rewrite nearest_fold in P. change (bpow radix2 emax) with (bpow radix2 128) in P.
  unfold rounded in *. destruct (Rlt_bool (Rabs (nearest (value x - value y))) (bpow radix2 128)) eqn:O; auto.
  destruct P as (_ & P). destruct (f32_neg_correct y Fy) as (Ny & _ & Sy).
  rewrite (same_sign_sum x (f32_neg y) _ ltac:(rewrite Ny; reflexivity)); auto; [congruence|].
  exact (overflow_nonzero _ O).
Qed.

(** ** Operators *)

Lemma transforms_add cfg st x y : binary32 x -> binary32 y -> finite x -> finite y ->
  exists z, rounded (value x + value y) (sign_of (value x + value y) (sign_bit x && sign_bit y)) z /\
    transforms cfg T2_Add (st ++ [x; y]) (st ++ [z]).
Proof.
  intros. eexists. split; [apply f32_add_rounded; auto|]. apply transforms_effect; auto. rewrite effect_add. reflexivity.
Qed.
Lemma transforms_sub cfg st x y : binary32 x -> binary32 y -> finite x -> finite y ->
  exists z, rounded (value x - value y) (sign_of (value x - value y) (sign_bit x && negb (sign_bit y))) z /\
    transforms cfg T2_Sub (st ++ [x; y]) (st ++ [z]).
Proof.
  intros. eexists. split; [apply f32_sub_rounded; auto|]. apply transforms_effect; auto. apply effect_sub.
Qed.
Lemma transforms_mul cfg st x y : binary32 x -> binary32 y -> finite x -> finite y ->
  exists z, rounded (value x * value y) (xorb (sign_bit x) (sign_bit y)) z /\
    transforms cfg T2_Mul (st ++ [x; y]) (st ++ [z]).
Proof.
  intros. eexists. split; [apply f32_mul_correct; auto|]. apply transforms_effect; auto. rewrite effect_mul. reflexivity.
Qed.
Lemma transforms_div cfg st x y : binary32 x -> binary32 y -> finite x -> finite y -> value y <> 0%R ->
  exists z, rounded (value x / value y) (xorb (sign_bit x) (sign_bit y)) z /\
    transforms cfg T2_Div (st ++ [x; y]) (st ++ [z]).
Proof.
  intros. eexists. split; [apply f32_div_correct; auto|]. apply transforms_effect; auto. apply effect_div.
Qed.

Lemma value_zero x : binary32 x -> finite x -> value x = 0%R -> exists s : bool, x = S754_zero s.
Proof.
  intros B F V. destruct x as [s|s| |s m e]; try discriminate; [eauto|]. exfalso.
  unfold value, SF2R in V. apply eq_0_F2R in V. destruct s; discriminate.
Qed.

Lemma transforms_div_zero cfg st x y : binary32 x -> binary32 y -> finite x -> finite y -> value y = 0%R ->
  transforms cfg T2_Div (st ++ [x; y])
    (st ++ [if Req_bool (value x) 0 then S754_nan else S754_infinity (xorb (sign_bit x) (sign_bit y))]).
Proof.
  intros Hx Hy Fx Fy V. apply transforms_effect; auto. rewrite effect_div. do 2 f_equal. f_equal.
  destruct (value_zero y Hy Fy V) as [s ->]. destruct (Req_bool_spec (value x) 0) as [E|E].
  - destruct (value_zero x Hx Fx E) as [t ->]. reflexivity.
  - destruct x as [t|t| |t m e]; try discriminate; [destruct E; reflexivity|]. reflexivity.
Qed.

Lemma transforms_sqrt cfg st x : binary32 x -> finite x -> (0 <= value x)%R ->
  exists z, value z = nearest (sqrt (value x)) /\ finite z /\ binary32 z /\ sign_bit z = sign_bit x /\
    transforms cfg T2_Sqrt (st ++ [x]) (st ++ [z]).
Proof.
  intros H F N. destruct (f32_sqrt_correct x H F N) as (A & B & C & D). exists (f32_sqrt x). repeat split; auto.
  apply transforms_effect; auto. apply effect_sqrt.
Qed.
Lemma transforms_sqrt_negative cfg st x : binary32 x -> finite x -> (value x < 0)%R ->
  transforms cfg T2_Sqrt (st ++ [x]) (st ++ [S754_nan]).
Proof.
  intros H F N. apply transforms_effect; auto. rewrite effect_sqrt, (f32_sqrt_negative x H F N). reflexivity.
Qed.
Lemma transforms_neg cfg st x : binary32 x -> finite x ->
  exists z, value z = (- value x)%R /\ finite z /\ binary32 z /\ sign_bit z = negb (sign_bit x) /\
    transforms cfg T2_Neg (st ++ [x]) (st ++ [z]).
Proof.
  intros H F. destruct (f32_neg_correct x F) as (A & B & C). exists (f32_neg x). repeat split; auto.
  - now apply f32_neg_valid.
  - apply transforms_effect; auto. apply effect_neg.
Qed.
Lemma transforms_abs cfg st x : binary32 x -> finite x ->
  exists z, value z = Rabs (value x) /\ finite z /\ binary32 z /\ sign_bit z = false /\
    transforms cfg T2_Abs (st ++ [x]) (st ++ [z]).
Proof.
  intros H F. destruct (f32_abs_correct x F) as (A & B & C). exists (f32_abs x). repeat split; auto.
  - now apply f32_abs_valid.
  - apply transforms_effect; auto. apply effect_abs.
Qed.

Lemma truth_value x : binary32 x -> finite x -> truth x = negb (Req_bool (value x) 0).
Proof.
  intros H F. unfold truth. rewrite f32_eqb_correct; auto; reflexivity.
Qed.

Lemma transforms_eq cfg st x y : binary32 x -> binary32 y -> finite x -> finite y ->
  transforms cfg T2_Eq (st ++ [x; y]) (st ++ [of_truth (Req_bool (value x) (value y))]).
Proof.
  intros. apply transforms_effect; auto. rewrite effect_eq, f32_eqb_correct by auto. reflexivity.
Qed.
Lemma transforms_and cfg st x y : binary32 x -> binary32 y -> finite x -> finite y ->
  transforms cfg T2_And (st ++ [x; y])
    (st ++ [of_truth (negb (Req_bool (value x) 0) && negb (Req_bool (value y) 0))]).
Proof.
  intros. apply transforms_effect; auto. rewrite effect_and, <- !truth_value by auto. reflexivity.
Qed.
Lemma transforms_or cfg st x y : binary32 x -> binary32 y -> finite x -> finite y ->
  transforms cfg T2_Or (st ++ [x; y])
    (st ++ [of_truth (negb (Req_bool (value x) 0) || negb (Req_bool (value y) 0))]).
Proof.
  intros. apply transforms_effect; auto. rewrite effect_or, <- !truth_value by auto. reflexivity.
Qed.
Lemma transforms_not cfg st x : binary32 x -> finite x ->
  transforms cfg T2_Not (st ++ [x]) (st ++ [of_truth (Req_bool (value x) 0)]).
Proof.
  intros. apply transforms_effect; auto. rewrite effect_not, truth_value, negb_involutive by auto. reflexivity.
Qed.
Lemma transforms_ifelse cfg st a b x y : binary32 x -> binary32 y -> finite x -> finite y ->
  transforms cfg T2_IfElse (st ++ [a; b; x; y]) (st ++ [if Rle_bool (value x) (value y) then a else b]).
Proof.
  intros. apply transforms_effect; auto. rewrite effect_ifelse, f32_leb_correct by auto. reflexivity.
Qed.

Lemma all_valid cfg code g l ops q : trace cfg (new_program code g l) ops q ->
  Forall binary32 (stack q) /\ (forall w, width q = Some w -> binary32 w) /\
  Forall (fun op => Forall binary32 (snd op)) ops.
Proof.
  intros T. destruct (trace_valid _ _ _ _ T (new_valid _ _ _)) as [[A B] C]. auto.
Qed.

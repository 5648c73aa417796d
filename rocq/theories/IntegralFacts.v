(** IntegralFacts: operands that are integers. *)
From Verif Require Import Base Float T2Program BaseFacts SpecProgram FloatFacts EvalFacts.
From Coq Require Import Reals Lra.
From Flocq Require Import Core BinarySingleNaN.
Local Open Scope Z_scope.

Lemma nearest_value x : binary32 x -> nearest (value x) = value x.
Proof.
  intros H. apply round_generic; [auto with typeclass_instances|].
  rewrite <- (value_to_b x H). apply (generic_format_B2R prec emax).
Qed.

(** The value of a finite datum. *)
Lemma value_finite (s : bool) m e : value (S754_finite s m e) = (IZR (if s then Zneg m else Zpos m) * bpow radix2 e)%R.
Proof. destruct s; reflexivity. Qed.

Lemma bpow_IZR e : 0 <= e -> bpow radix2 e = IZR (2 ^ e).
Proof. intros H. rewrite <- (IZR_Zpower radix2) by auto. reflexivity. Qed.

(** The integer part of a datum that is an integer. *)
Lemma i32_of_integral x v : integral x v -> i32_of_f32 x = Z.max (- 2 ^ 31) (Z.min v (2 ^ 31 - 1)).
Proof.
  intros (B & F & V). destruct x as [s|s| |s m e]; try discriminate.
  - cbn in V. apply (eq_IZR 0 v) in V. subst v. reflexivity.
  - rewrite value_finite in V. unfold i32_of_f32. do 2 f_equal.
    destruct (Z.leb_spec 0 e) as [L|L].
    + rewrite bpow_IZR, <- mult_IZR in V by auto. apply eq_IZR in V. subst v. destruct s; lia.
    + assert (E : (if s then Zneg m else Zpos m) = v * 2 ^ (- e)).
      { apply eq_IZR. rewrite mult_IZR, <- bpow_IZR, <- V, Rmult_assoc, <- bpow_plus by lia.
        replace (e + - e) with 0 by lia. cbn. lra. }
      assert (P : 0 < 2 ^ (- e)) by (apply Z.pow_pos_nonneg; lia).
      destruct s.
      * replace (Zpos m) with ((- v) * 2 ^ (- e)) by lia. rewrite Z.div_mul by lia. lia.
      * replace (Zpos m) with (v * 2 ^ (- e)) by lia. rewrite Z.div_mul by lia. lia.
Qed.

Lemma finite_of_i32 z : - 2 ^ 31 <= z < 2 ^ 31 -> value (f32_of_i32 z) = nearest (IZR z) /\ finite (f32_of_i32 z).
Proof.
  intros R. destruct (f32_of_i32_correct z) as [_ C].
  rewrite Rlt_bool_true in C; [tauto|].
  apply Rle_lt_trans with (bpow radix2 31); [|apply bpow_lt; lia].
  apply abs_round_le_generic; [apply FLT_exp_valid; reflexivity|auto with typeclass_instances| |].
  - apply generic_format_bpow. unfold FLT_exp. lia.
  - rewrite bpow_IZR by lia. rewrite <- abs_IZR. apply IZR_le. lia.
Qed.

Lemma two_31 : (bpow radix2 31 = 2147483648)%R.
Proof. rewrite bpow_IZR by lia. reflexivity. Qed.

Lemma pop_i32_integral st x v : integral x v -> - 2 ^ 31 <= v <= 2 ^ 31 ->
  pop_i32 (st ++ [x]) = Ok (Z.min v (2 ^ 31 - 1), st).
Proof.
  intros I R. unfold pop_i32. rewrite vec_pop_app, (i32_of_integral _ _ I).
  replace (Z.max (- 2 ^ 31) (Z.min v (2 ^ 31 - 1))) with (Z.min v (2 ^ 31 - 1)) by lia.
  assert (E : f32_eqb (f32_of_i32 (Z.min v (2 ^ 31 - 1))) x = true); [|rewrite E; reflexivity].
  destruct I as (B & F & V).
  destruct (finite_of_i32 (Z.min v (2 ^ 31 - 1))) as [Vi Fi]; [lia|].
  rewrite f32_eqb_correct by (auto; apply f32_of_i32_valid). apply Req_bool_true.
  destruct (Z.eq_dec v (2 ^ 31)) as [->|N].
  - rewrite V. change (Z.min (2 ^ 31) (2 ^ 31 - 1)) with 2147483647.
    replace (f32_of_i32 2147483647) with (S754_finite false 8388608 8) by (vm_compute; reflexivity).
    rewrite value_finite, bpow_IZR, <- mult_IZR by lia. reflexivity.
  - replace (Z.min v (2 ^ 31 - 1)) with v in * by lia. rewrite Vi, <- V. apply nearest_value, B.
Qed.

Lemma eqb_finite x y : finite x -> f32_eqb x y = true -> finite y.
Proof. destruct x as [s|s| |s m e], y as [t| [|]| |t n f]; unfold finite; cbn; auto; try destruct s; discriminate. Qed.

Lemma i32_of_f32_range x : - 2 ^ 31 <= i32_of_f32 x < 2 ^ 31.
Proof. destruct x as [s|s| |s m e]; unfold i32_of_f32; try destruct s; lia. Qed.


Lemma bounded_mantissa m e : SpecFloat.bounded 24 128 m e = true -> Zpos m < 2 ^ 24.
Proof.
  unfold SpecFloat.bounded, SpecFloat.canonical_mantissa. rewrite andb_true_iff. intros [C _].
  apply Zeq_bool_eq in C. unfold SpecFloat.fexp, SpecFloat.emin in C. rewrite Zpos_digits2_pos in C.
  pose proof (Zdigits_correct radix2 (Zpos m)) as [_ D]. cbn [Z.abs] in D.
  apply Z.lt_le_trans with (1 := D). apply (Zpower_le radix2). lia.
Qed.

Lemma pop_i32_accepts st x r : binary32 x -> pop_i32 (st ++ [x]) = Ok r ->
  exists v, integral x v /\ - 2 ^ 31 <= v <= 2 ^ 31.
Proof.
  intros B. unfold pop_i32. rewrite vec_pop_app.
  destruct (f32_eqb (f32_of_i32 (i32_of_f32 x)) x) eqn:E; [|discriminate]. intros _.
  pose proof (i32_of_f32_range x) as R. destruct (finite_of_i32 _ R) as [V F].
  pose proof (eqb_finite _ _ F E) as Fx.
  rewrite f32_eqb_correct in E by (auto; apply f32_of_i32_valid).
  assert (Ex : value x = nearest (IZR (i32_of_f32 x))).
  { rewrite <- V. symmetry. revert E. destruct (Req_bool_spec (value (f32_of_i32 (i32_of_f32 x))) (value x)); auto; discriminate. }
  assert (I : exists v, integral x v).
  { destruct x as [s|s| |s m e]; try discriminate.
    - exists 0. repeat split; auto.
    - destruct (Z.leb_spec 0 e) as [L|L].
      + exists ((if s then Zneg m else Zpos m) * 2 ^ e). repeat split; auto.
        rewrite value_finite, bpow_IZR, <- mult_IZR by auto. reflexivity.
      + exists (i32_of_f32 (S754_finite s m e)). repeat split; auto.
        rewrite Ex. pose proof (nearest_exact (i32_of_f32 (S754_finite s m e)) 0) as N. cbn [bpow] in N.
        rewrite Rmult_1_r in N. apply N; [|lia].
        assert (M : Zpos m < 2 ^ 24).
        { apply bounded_mantissa with e. exact B. }
        unfold i32_of_f32. destruct (Z.leb_spec 0 e); [lia|].
        assert (P : 0 < 2 ^ (- e)) by (apply Z.pow_pos_nonneg; lia).
        assert (0 <= Zpos m / 2 ^ (- e) <= Zpos m).
        { split; [apply Z.div_pos; lia|]. apply Z.div_le_upper_bound; nia. }
        destruct s; lia. }
  destruct I as [v I]. exists v. split; auto. destruct I as (_ & _ & Vx).
  assert (A : (Rabs (IZR v) <= bpow radix2 31)%R).
  { rewrite <- Vx, Ex. apply abs_round_le_generic; [apply FLT_exp_valid; reflexivity|auto with typeclass_instances| |].
    - apply generic_format_bpow. unfold FLT_exp. lia.
    - rewrite bpow_IZR by lia. rewrite <- abs_IZR. apply IZR_le. lia. }
  rewrite bpow_IZR, <- abs_IZR in A by lia. apply le_IZR in A. lia.
Qed.

Lemma pop_i32_other st x : binary32 x -> (forall v, - 2 ^ 31 <= v <= 2 ^ 31 -> ~ integral x v) ->
  pop_i32 (st ++ [x]) = Err Other.
Proof.
  intros B N. destruct (pop_i32 (st ++ [x])) as [r|k|k|] eqn:E.
  - destruct (pop_i32_accepts _ _ _ B E) as (v & I & R). destruct (N v R I).
  - unfold pop_i32 in E. rewrite vec_pop_app in E. destruct (f32_eqb _ _); congruence.
  - unfold pop_i32 in E. rewrite vec_pop_app in E. destruct (f32_eqb _ _); congruence.
  - unfold pop_i32 in E. rewrite vec_pop_app in E. destruct (f32_eqb _ _); congruence.
Qed.

Lemma integral_unique x v w : integral x v -> integral x w -> v = w.
Proof. intros (_ & _ & V) (_ & _ & W). rewrite V in W. apply eq_IZR in W. exact W. Qed.

Lemma pop_stands_for st x v : stands_for x v -> pop_i32 (st ++ [x]) = Ok (v, st).
Proof. intros (u & I & R & ->). apply pop_i32_integral; auto. Qed.

Lemma stands_for_range x v : stands_for x v -> - 2 ^ 31 <= v < 2 ^ 31.
Proof. intros (u & _ & R & ->). lia. Qed.

(** ExpressFacts: every number and every list of operations can be written. *)
From Coq Require Import Reals Lra.
From Verif Require Import Base Float T2Number T2Operation T2Program BaseFacts SpecProgram SpecExecution SpecExpress T2NumberFacts NumberFacts FloatFacts EvalFacts IntegralFacts LiteralFacts ArithmeticFacts ClearFacts ExecutionFacts ProgramFacts ReferenceFacts.
From Flocq Require Import Core BinarySingleNaN.
Local Open Scope list_scope.
Local Open Scope Z_scope.

(** ** Numbers *)

Definition scaled (v k : Z) (x : f32) : Prop :=
  binary32 x /\ finite x /\ sign_bit x = (v <? 0) /\ value x = (IZR v * bpow radix2 k)%R.

Lemma scaled_small v k : Z.abs v < 2 ^ 24 -> k <= 104 -> (Rabs (IZR v * bpow radix2 k) < bpow radix2 128)%R.
Proof.
  intros V K. rewrite Rabs_mult, (Rabs_pos_eq (bpow radix2 k)) by apply bpow_ge_0.
  apply Rlt_le_trans with (bpow radix2 24 * bpow radix2 k)%R.
  - apply Rmult_lt_compat_r; [apply bpow_gt_0|]. rewrite <- abs_IZR. change (bpow radix2 24) with (IZR (2 ^ 24)).
    apply IZR_lt, V.
  - rewrite <- bpow_plus. apply bpow_le. lia.
Qed.

Lemma scaled_rounded v k x : Z.abs v < 2 ^ 24 -> -149 <= k <= 104 ->
  rounded (IZR v * bpow radix2 k) (v <? 0) x -> scaled v k x.
Proof.
  intros V K [B R]. rewrite nearest_exact in R by lia. rewrite Rlt_bool_true in R by (apply scaled_small; lia).
  destruct R as (A & F & Sg). split; auto.
Qed.

Lemma scaled_unique v k x y : Z.abs v < 2 ^ 24 -> -149 <= k <= 104 -> scaled v k x -> scaled v k y -> x = y.
Proof.
  intros V K (Bx & Fx & Sx & Vx) (By & Fy & Sy & Vy).
  apply (rounded_unique (value x) (sign_bit x)); [apply rounded_value; auto|].
  rewrite Vx, Sx, <- Vy, <- Sy. apply rounded_value; auto.
Qed.

Definition two : f32 := f32_of_i32 2.
Lemma two_value : binary32 two /\ finite two /\ sign_bit two = false /\ value two = 2%R.
Proof.
  split; [reflexivity|]. split; [reflexivity|]. split; [reflexivity|].
  exact (proj1 (f32_of_i32_exact 2 ltac:(lia))).
Qed.

Lemma scaled_up v k x : Z.abs v < 2 ^ 24 -> -149 <= k < 104 -> scaled v k x -> scaled v (k + 1) (f32_mul x two).
Proof.
  intros V K (B & F & Sg & E). destruct two_value as (Bt & Ft & St & Vt).
  apply scaled_rounded; try lia. pose proof (f32_mul_correct x two B Bt F Ft) as R.
  rewrite E, Vt, Sg, St, xorb_false_r in R.
  replace (IZR v * bpow radix2 (k + 1))%R with (IZR v * bpow radix2 k * 2)%R; auto.
  rewrite bpow_plus. change (bpow radix2 1) with 2%R. ring.
Qed.

Lemma scaled_down v k x : Z.abs v < 2 ^ 24 -> -149 < k <= 104 -> scaled v k x -> scaled v (k - 1) (f32_div x two).
Proof.
  intros V K (B & F & Sg & E). destruct two_value as (Bt & Ft & St & Vt).
  apply scaled_rounded; try lia. pose proof (f32_div_correct x two B Bt F Ft ltac:(rewrite Vt; lra)) as R.
  rewrite E, Vt, Sg, St, xorb_false_r in R.
  replace (IZR v * bpow radix2 (k - 1))%R with (IZR v * bpow radix2 k / 2)%R; auto.
  unfold Z.sub. rewrite bpow_plus. change (bpow radix2 (- (1))) with (/ 2)%R. unfold Rdiv. ring.
Qed.

Fixpoint ups (n : nat) (a : expression) : expression :=
  match n with O => a | S n => Mul (ups n a) (Number two) end.
Fixpoint downs (n : nat) (a : expression) : expression :=
  match n with O => a | S n => Div (downs n a) (Number two) end.

Lemma two_encoding : expression_encoding [x8d] (Number two).
Proof. constructor. apply (number_of_byte x8d). vm_compute. split; discriminate. Qed.

Lemma ups_scaled v k a n : Z.abs v < 2 ^ 24 -> -149 <= k -> k + Z.of_nat n <= 104 -> scaled v k (evaluate a) ->
  scaled v (k + Z.of_nat n) (evaluate (ups n a)).
Proof.
  intros V K L H. induction n as [|n IH]; [rewrite Z.add_0_r; exact H|].
  cbn [ups evaluate]. replace (k + Z.of_nat (S n)) with (k + Z.of_nat n + 1) by lia.
  apply (scaled_up v (k + Z.of_nat n) (evaluate (ups n a))); auto; try lia. apply IH. lia.
Qed.
Lemma downs_scaled v k a n : Z.abs v < 2 ^ 24 -> k <= 104 -> -149 <= k - Z.of_nat n -> scaled v k (evaluate a) ->
  scaled v (k - Z.of_nat n) (evaluate (downs n a)).
Proof.
  intros V K L H. induction n as [|n IH]; [rewrite Z.sub_0_r; exact H|].
  cbn [downs evaluate]. replace (k - Z.of_nat (S n)) with (k - Z.of_nat n - 1) by lia.
  apply (scaled_down v (k - Z.of_nat n) (evaluate (downs n a))); auto; try lia. apply IH. lia.
Qed.
Lemma ups_encoding e a n : expression_encoding e a ->
  exists e', expression_encoding e' (ups n a) /\ length e' = (length e + 3 * n)%nat.
Proof.
  intros H. induction n as [|n (e' & E & L)]; [exists e; split; auto; lia|].
  exists (e' ++ [x8d] ++ t2_bytes T2_Mul). split; [constructor; auto; exact two_encoding|].
  rewrite app_length, L. change (length ([x8d] ++ t2_bytes T2_Mul)) with 3%nat. lia.
Qed.
Lemma downs_encoding e a n : expression_encoding e a ->
  exists e', expression_encoding e' (downs n a) /\ length e' = (length e + 3 * n)%nat.
Proof.
  intros H. induction n as [|n (e' & E & L)]; [exists e; split; auto; lia|].
  exists (e' ++ [x8d] ++ t2_bytes T2_Div). split; [constructor; auto; exact two_encoding|].
  rewrite app_length, L. change (length ([x8d] ++ t2_bytes T2_Div)) with 3%nat. lia.
Qed.

Lemma fixed_encoding v : Z.abs v < 2 ^ 24 -> v <> 0 ->
  exists e x, t2_number e x /\ scaled v (-16) x /\ length e = 5%nat.
Proof.
  intros V N. pose proof (bytes32_value v ltac:(lia)) as E. unfold bytes32 in E.
  match type of E with signed 32 (big_endian ?l) = _ => exists (xff :: l) end.
  exists (f32_of_q32 v). pose proof (f32_of_q32_correct v) as C. split.
  - eexists. split; [apply t2_five_bytes|]. rewrite E. exact C.
  - split; [|reflexivity]. apply scaled_rounded; try lia.
    change (bpow radix2 (-16)) with (/ 65536)%R. unfold Rdiv in C.
    replace (sign_of (IZR v * / 65536) false) with (v <? 0) in C; auto.
    unfold sign_of. assert (P : (0 < / 65536)%R) by lra.
    destruct (Z.ltb_spec v 0) as [L|L].
    + rewrite Rcompare_Lt; auto. apply IZR_lt in L. nra.
    + assert (L' : 0 < v) by lia. rewrite Rcompare_Gt; auto. apply IZR_lt in L'. nra.
Qed.

Lemma finite_range s m e : binary32 (S754_finite s m e) -> Z.pos m < 2 ^ 24 /\ -149 <= e <= 104.
Proof.
  intros H. unfold binary32, valid_binary in H. unfold bounded in H. apply andb_prop in H as [C L].
  apply Z.leb_le in L. unfold canonical_mantissa in C. apply Zeq_bool_eq in C.
  unfold fexp, emin in C. change (3 - 128 - 24) with (-149) in C.
  assert (D : Z.pos (digits2_pos m) <= 24) by lia. split; [|lia].
  rewrite Digits.Zpos_digits2_pos in D.
  pose proof (Digits.Zdigits_correct radix2 (Z.pos m)) as [_ Q]. cbn [Z.abs] in Q.
  apply Z.lt_le_trans with (1 := Q). change (2 ^ 24) with (radix_val radix2 ^ 24).
  apply (Zpower_le radix2). exact D.
Qed.

Lemma expressible x : binary32 x -> exists e a, expression_encoding e a /\ evaluate a = x /\ (length e <= 404)%nat.
Proof.
  assert (N : forall b, 32 <= bz b <= 246 -> expression_encoding [b] (Number (f32_of_i32 (bz b - 139)))).
  { intros b B. constructor. apply number_of_byte, B. }
  assert (Zero : expression_encoding [x8b] (Number (f32_of_i32 0))) by (apply (N x8b); vm_compute; split; discriminate).
  assert (One : expression_encoding [x8c] (Number (f32_of_i32 1))) by (apply (N x8c); vm_compute; split; discriminate).
  assert (Less : expression_encoding [x8a] (Number (f32_of_i32 (-1)))) by (apply (N x8a); vm_compute; split; discriminate).
  intros B. destruct x as [[]|[]| |s m e].
  - eexists _, _. split; [exact (encode_neg _ _ Zero)|]. split; [reflexivity|]. vm_compute. lia.
  - eexists _, _. split; [exact Zero|]. split; [reflexivity|]. cbn. lia.
  - eexists _, _. split; [exact (encode_div _ _ _ _ Less Zero)|]. split; [reflexivity|]. vm_compute. lia.
  - eexists _, _. split; [exact (encode_div _ _ _ _ One Zero)|]. split; [reflexivity|]. vm_compute. lia.
  - eexists _, _. split; [exact (encode_div _ _ _ _ Zero Zero)|]. split; [reflexivity|]. vm_compute. lia.
  - destruct (finite_range s m e B) as [M E]. set (v := cond_Zopp s (Z.pos m)).
    assert (V : Z.abs v < 2 ^ 24) by (unfold v; rewrite abs_cond_Zopp; exact M).
    assert (V0 : v <> 0) by (unfold v; destruct s; cbn; lia).
    assert (X : scaled v e (S754_finite s m e)).
    { split; auto. split; [reflexivity|]. split; [destruct s; reflexivity|reflexivity]. }
    destruct (fixed_encoding v V V0) as (c & x0 & T & X0 & L). apply encode_number in T.
    destruct (Z.le_ge_cases (-16) e) as [G|G].
    + destruct (ups_encoding c _ (Z.to_nat (e + 16)) T) as (c' & T' & L').
      exists c', (ups (Z.to_nat (e + 16)) (Number x0)). split; auto. split; [|lia].
      apply (scaled_unique v e); auto.
      pose proof (ups_scaled v (-16) (Number x0) (Z.to_nat (e + 16)) V ltac:(lia) ltac:(lia) X0) as H.
      replace (-16 + Z.of_nat (Z.to_nat (e + 16))) with e in H by lia. exact H.
    + destruct (downs_encoding c _ (Z.to_nat (-16 - e)) T) as (c' & T' & L').
      exists c', (downs (Z.to_nat (-16 - e)) (Number x0)). split; auto. split; [|lia].
      apply (scaled_unique v e); auto.
      pose proof (downs_scaled v (-16) (Number x0) (Z.to_nat (-16 - e)) V ltac:(lia) ltac:(lia) X0) as H.
      replace (-16 - Z.of_nat (Z.to_nat (-16 - e))) with e in H by lia. exact H.
Qed.

(** ** Expressions in front of other code *)

Section Executed.
  Context (g l : list (list byte)).

  Definition pushed (m : machine) (xs : list f32) : machine :=
    {| values := values m ++ xs; hints := hints m; advance := advance m |}.

  Lemma pushed_nil m : pushed m [] = m.
  Proof. destruct m as [v h a]. unfold pushed. cbn. rewrite app_nil_r. reflexivity. Qed.
  Lemma pushed_app m xs ys : pushed (pushed m xs) ys = pushed m (xs ++ ys).
  Proof. unfold pushed. cbn. rewrite app_assoc. reflexivity. Qed.

  Lemma executes_more e xs code m ops f : each t2_number e xs -> code <> [] ->
    executes g l code (pushed m xs) ops f -> executes g l (e ++ code) m ops f.
  Proof.
    intros E N H. remember (pushed m xs) as m' eqn:Em. destruct H; subst m0; cbn in *;
      try (contradiction N; reflexivity);
      match goal with |- executes _ _ (?a ++ ?b ++ ?c) _ _ _ => rewrite (app_assoc a b c) end;
      match goal with H : each t2_number ?e0 ?xs0 |- _ => pose proof (each_app _ _ _ _ _ E H) end;
      rewrite <- ?(app_assoc (values m)) in *.
    - eapply executes_stack; eauto.
    - eapply executes_path; eauto.
    - eapply executes_stem; eauto.
    - eapply executes_mask; eauto.
    - eapply executes_call; eauto.
    - eapply executes_call_ended; eauto.
    - eapply executes_call_exhausted; eauto.
    - eapply executes_return; eauto.
    - eapply executes_end; eauto.
  Qed.

  Lemma executes_operator o xs x rest m ops f :
    computes o (values m ++ xs) (values m ++ [x]) -> executes g l rest (pushed m [x]) ops f ->
    executes g l (t2_bytes o ++ rest) (pushed m xs) ops f.
  Proof.
    intros C H. apply (executes_stack g l [] [] o rest (pushed m xs) (values m ++ [x])); auto; [constructor|].
    cbn. rewrite app_nil_r. exact C.
  Qed.

  Lemma operator_present o rest : t2_bytes o ++ rest <> [].
  Proof. destruct o; discriminate. Qed.

  Lemma more_present e rest : rest <> [] -> e ++ rest <> ([] : list byte).
  Proof. destruct e; auto. discriminate. Qed.

  Local Ltac present := first [apply operator_present | apply more_present; present].

  Lemma executes_expression e a : expression_encoding e a -> forall rest m ops f, rest <> [] ->
    executes g l rest (pushed m [evaluate a]) ops f -> executes g l (e ++ rest) m ops f.
  Proof.
    induction 1; intros rest m ops f N X; cbn [evaluate] in X.
    1: { apply executes_more with [x]; auto. rewrite <- (app_nil_r e). repeat (constructor; auto). }
    all: rewrite <- !app_assoc.
    1-4: (apply IHexpression_encoding; [apply operator_present|]; eapply executes_operator; [|exact X]; constructor).
    8: { apply IHexpression_encoding1; [present|].
         apply IHexpression_encoding2; [present|].
         apply IHexpression_encoding3; [present|].
         apply IHexpression_encoding4; [apply operator_present|]. rewrite !pushed_app. cbn [app].
         eapply executes_operator; [|exact X]. constructor. }
    all: (apply IHexpression_encoding1; [apply more_present, operator_present|];
         apply IHexpression_encoding2; [apply operator_present|]; rewrite !pushed_app; cbn [app];
         eapply executes_operator; [|exact X]; constructor).
  Qed.

  Lemma executes_expressions e xs : each expression_encoding e xs -> forall rest m ops f, rest <> [] ->
    executes g l rest (pushed m (map evaluate xs)) ops f -> executes g l (e ++ rest) m ops f.
  Proof.
    induction 1 as [|e x es xs H _ IH]; intros rest m ops f N X.
    - cbn in *. rewrite pushed_nil in X. exact X.
    - rewrite <- app_assoc. apply (executes_expression e x H); [apply more_present, N|].
      apply IH; auto. rewrite pushed_app. exact X.
  Qed.

  (** ** Statements *)

  Lemma longest_whole o xs : legal_count o (length xs) -> longest o xs [] xs.
  Proof. intros H. split; [reflexivity|]. split; auto. Qed.

  Lemma longest_behind o w xs : may_have_width o = true -> path_or_hint o = true -> legal_count o (length xs) ->
    longest o (w :: xs) [w] xs.
  Proof.
    intros M P H. split; [reflexivity|]. split; auto. intros n Hn L. cbn [length] in L.
    destruct o; try discriminate; cbn in *; try lia;
      destruct H as (k & H), Hn as (k' & ->); lia.
  Qed.

  Definition in_front (o : t2_operator) (pre : list f32) : Prop :=
    pre = [] \/ may_have_width o = true /\ exists w, pre = [w].

  Lemma front_longest o pre xs : in_front o pre -> path_or_hint o = true -> legal_count o (length xs) ->
    longest o (pre ++ xs) pre xs.
  Proof.
    intros [->|(M & w & ->)] P H; [apply longest_whole, H|apply longest_behind; auto].
  Qed.

  Lemma front_declared o pre xs : in_front o pre -> path_or_hint o = true -> legal_count o (length xs) ->
    declared o (length (pre ++ xs)) = declared o (length xs).
  Proof.
    intros [->|(M & w & ->)] P H; [reflexivity|]. unfold declared. cbn [app length].
    destruct (stem_operator o) eqn:So.
    - assert (E : exists k, length xs = (2 + 2 * k)%nat) by (destruct o; try discriminate; exact H).
      destruct E as (k & ->). cbn [orb].
      replace (Z.of_nat (S (2 + 2 * k))) with (1 + (1 + Z.of_nat k) * 2) by lia.
      replace (Z.of_nat (2 + 2 * k)) with (0 + (1 + Z.of_nat k) * 2) by lia.
      rewrite !Z.div_add by lia. reflexivity.
    - destruct (mask_operator o) eqn:Mo; [|reflexivity].
      assert (E : length xs = O) by (destruct o; try discriminate; exact H). rewrite E. reflexivity.
  Qed.

  Lemma declared_bound o n : 0 <= declared o n <= Z.of_nat n.
  Proof.
    unfold declared. destruct (stem_operator o || mask_operator o); [|lia].
    split; [apply Z.div_pos; lia|]. apply Z.div_le_upper_bound; lia.
  Qed.

  Lemma executes_statement e s rest pre n adv ops f : statement_encoding e s -> in_front (statement_operator s) pre ->
    well_formed (stated (performed s)) -> 0 <= n ->
    n + declared (statement_operator s) (length (statement_operands s)) + 7 < 2 ^ 64 ->
    (if mask_operator (statement_operator s)
     then mask_bytes (stems_after n (performed s)) (Z.of_nat (length (statement_mask s)))
     else statement_mask s = []) ->
    executes g l rest {| values := []; hints := stems_after n (performed s); advance := noted adv pre |} ops f ->
    executes g l (e ++ rest) {| values := pre; hints := n; advance := adv |} (stated (performed s) :: ops) f.
  Proof.
    intros (es & E & ->) F [P C] N B M X. unfold stated, stems_after, performed in *. cbn [fst snd item_numbers item_operator] in *.
    rewrite map_length in *. set (o := statement_operator s) in *. set (xs := map evaluate (statement_operands s)) in *.
    assert (Lx : length xs = length (statement_operands s)) by apply map_length.
    rewrite <- Lx in *. rewrite <- !app_assoc. apply (executes_expressions es _ E); [apply operator_present|].
    fold xs. unfold pushed. cbn [values hints advance].
    pose proof (front_longest o pre xs F P C) as L. pose proof (front_declared o pre xs F P C) as D.
    pose proof (declared_bound o (length xs)) as Db.
    unfold path_or_hint in P. destruct (mask_operator o) eqn:Mo.
    - assert (Xs : xs = []). { destruct xs; auto. destruct o; discriminate. }
      rewrite Xs in *. rewrite app_nil_r in *.
      apply (executes_mask g l [] [] o (statement_mask s) rest) with (n := n + declared o 0); auto.
      + constructor.
      + cbn [values hints]. rewrite app_nil_r. f_equal. cbn [length] in D. unfold declared in D at 1.
        rewrite Mo, orb_true_r in D. symmetry. exact D.
      + cbn [values advance]. rewrite app_nil_r. exact X.
    - rewrite M. cbn [app]. destruct (stem_operator o) eqn:So.
      + apply (executes_stem g l [] [] o rest _ pre xs) with (n := n + declared o (length xs)); auto.
        * constructor.
        * cbn [values]. rewrite app_nil_r. exact L.
        * cbn [values hints]. rewrite app_nil_r. f_equal. unfold declared in D at 1. rewrite So in D. symmetry. exact D.
        * lia.
      + assert (Po : path_operator o = true) by (destruct (path_operator o); auto).
        apply (executes_path g l [] [] o rest _ pre xs); auto.
        * constructor.
        * cbn [values]. rewrite app_nil_r. exact L.
        * cbn [hints advance]. unfold declared in X. rewrite So, Mo, Z.add_0_r in X. exact X.
  Qed.

  Lemma executes_statements es ss : each statement_encoding es ss -> forall n adv rest ops f,
    Forall (fun s => well_formed (stated (performed s))) ss -> masks_fit n (map performed ss) -> 0 <= n ->
    n + operand_count (asked ss) + 7 < 2 ^ 64 ->
    executes g l rest {| values := []; hints := fold_left stems_after (map performed ss) n; advance := adv |} ops f ->
    executes g l (es ++ rest) {| values := []; hints := n; advance := adv |}
      (asked ss ++ ops) f.
  Proof.
    induction 1 as [|e s es ss E _ IH]; intros n adv rest ops f W M N B X; [exact X|].
    inversion_clear W as [|? ? W1 W2]. destruct M as [M1 M2].
    unfold operand_count, asked in B. cbn [map fold_right] in B. fold (asked ss) in B.
    fold (operand_count (asked ss)) in B.
    assert (Po : 0 <= operand_count (asked ss)).
    { generalize (asked ss). induction l0 as [|a l0 H]; [vm_compute; discriminate|].
      unfold operand_count in *. cbn [map fold_right]. lia. }
    pose proof (declared_bound (statement_operator s) (length (statement_operands s))) as D.
    assert (Ea : stems_after n (performed s) = n + declared (statement_operator s) (length (statement_operands s))).
    { unfold stems_after, performed. cbn. rewrite map_length. reflexivity. }
    change (snd (stated (performed s))) with (map evaluate (statement_operands s)) in B. rewrite map_length in B.
    rewrite <- app_assoc. unfold asked. cbn [map app]. apply (executes_statement e s (es ++ rest) [] n adv); auto.
    - left. reflexivity.
    - lia.
    - replace (noted adv []) with adv by (destruct adv; reflexivity).
      apply IH; auto; rewrite Ea in *; try lia.
  Qed.
End Executed.

(** ** Glyphs *)

Lemma noted_nil w : noted w [] = w.
Proof. destruct w; reflexivity. Qed.

Section Glyphs.
  Context (g l : list (list byte)).

  Lemma executes_endchar m : executes g l (t2_bytes T2_EndChar) m []
    (Ended [] {| values := values m; hints := hints m; advance := noted (advance m) (values m) |}).
  Proof. pose proof (executes_end g l [] [] [] m (each_nil _)) as H. rewrite !app_nil_r in H. exact H. Qed.

  Lemma asked_count ss : 0 <= operand_count (asked ss).
  Proof.
    generalize (asked ss). induction l0 as [|a l0 H]; [vm_compute; discriminate|].
    unfold operand_count in *. cbn [map fold_right]. lia.
  Qed.

  Lemma late_meaning code w ss : late_glyph_encoding code w ss -> Forall well_formed (asked ss) ->
    masks_fit 0 (map performed ss) -> operand_count (asked ss) + 7 < 2 ^ 64 ->
    exists m, meaning g l code (asked ss) m /\ advance m = w.
  Proof.
    intros (ew & es & W & E & ->) F M B.
    assert (H : forall n, exists m, executes g l (ew ++ t2_bytes T2_EndChar)
      {| values := []; hints := n; advance := None |} [] (Ended [] m) /\ advance m = w).
    { intros n. destruct W as [|ew a A].
      - eexists. split; [apply executes_endchar|]. reflexivity.
      - eexists. split; [apply (executes_expression g l ew a A); [discriminate|apply executes_endchar]|]. reflexivity. }
    destruct (H (fold_left stems_after (map performed ss) 0)) as (m & X & A).
    exists m. split; auto. exists (Ended [] m). split; [|reflexivity].
    rewrite <- (app_nil_r (asked ss)). apply executes_statements; auto; try lia.
    unfold asked in F. rewrite Forall_map in F. exact F.
  Qed.

  Lemma early_meaning code w ss : glyph_encoding code w ss -> width_allowed w (asked ss) -> Forall well_formed (asked ss) ->
    masks_fit 0 (map performed ss) -> operand_count (asked ss) + 7 < 2 ^ 64 ->
    exists m, meaning g l code (asked ss) m /\ advance m = w.
  Proof.
    intros (ew & es & W & E & ->) [->|A] F M B.
    { inversion W; subst ew. apply late_meaning; auto. exists [], es. split; [constructor|]. auto. }
    destruct W as [|ew a Ea].
    { apply late_meaning; auto. exists [], es. split; [constructor|]. auto. }
    destruct E as [|e s es ss E1 E2].
    { apply late_meaning; auto. exists ew, []. split; [constructor; auto|]. split; [constructor|reflexivity]. }
    unfold asked in F. cbn [map] in F. inversion_clear F as [|? ? F1 F2]. rewrite Forall_map in F2.
    destruct M as [M1 M2]. pose proof (asked_count ss) as Po.
    unfold operand_count, asked in B. cbn [map fold_right] in B. fold (asked ss) in B. fold (operand_count (asked ss)) in B.
    change (snd (stated (performed s))) with (map evaluate (statement_operands s)) in B. rewrite map_length in B.
    pose proof (declared_bound (statement_operator s) (length (statement_operands s))) as D.
    assert (Ea' : stems_after 0 (performed s) = declared (statement_operator s) (length (statement_operands s))).
    { unfold stems_after, performed. cbn [item_operator item_numbers]. rewrite map_length. reflexivity. }
    assert (X : exists m, executes g l (ew ++ (e ++ es) ++ t2_bytes T2_EndChar) start (asked (s :: ss)) (Ended [] m) /\
      advance m = Some (evaluate a)).
    { eexists. split.
      - rewrite <- app_assoc.
        apply (executes_expression g l ew a Ea); [apply more_present, more_present; discriminate|].
        unfold pushed, start. cbn [values hints advance app]. unfold asked. cbn [map].
        apply (executes_statement g l e s); auto.
        + right. split; [exact A|eauto].
        + lia.
        + lia.
        + rewrite <- (app_nil_r (map _ _)). apply (executes_statements g l es ss E2); auto; try lia.
          apply executes_endchar.
      - cbn [advance values]. reflexivity. }
    destruct X as (m & X & Am). exists m. split; auto. exists (Ended [] m). split; [exact X|reflexivity].
  Qed.
End Glyphs.

Lemma operand_count_nonneg ops : 0 <= operand_count ops.
Proof. induction ops as [|op ops IH]; [cbn; lia|]. change (operand_count (op :: ops)) with (Z.of_nat (length (snd op)) + operand_count ops). lia. Qed.

Lemma expressibles xs : Forall binary32 xs -> exists e es, each expression_encoding e es /\ map evaluate es = xs /\
  Z.of_nat (length e) <= 404 * Z.of_nat (length xs).
Proof.
  induction 1 as [|x xs B _ (e & es & E & M & L)]; [exists [], []; split; [constructor|]; split; [reflexivity|cbn; lia]|].
  destruct (expressible x B) as (ex & a & Ea & Va & La). exists (ex ++ e), (a :: es).
  split; [constructor; auto|]. split; [cbn; congruence|]. rewrite app_length. cbn [length]. lia.
Qed.

Lemma mask_exists n : 0 <= n -> exists mask : list byte, mask_bytes n (Z.of_nat (length mask)) /\ Z.of_nat (length mask) <= n + 1.
Proof.
  intros N. exists (repeat x00 (Z.to_nat ((n + 7) / 8))). rewrite repeat_length. unfold mask_bytes.
  pose proof (Z.div_mod (n + 7) 8 ltac:(lia)). pose proof (Z.mod_pos_bound (n + 7) 8 ltac:(lia)).
  rewrite Z2Nat.id by (apply Z.div_pos; lia). lia.
Qed.

Lemma statements_exist ops : Forall numeric ops -> forall n, 0 <= n ->
  exists es ss, each statement_encoding es ss /\ asked ss = ops /\ masks_fit n (map performed ss) /\
    Z.of_nat (length es) <= 404 * operand_count ops + Z.of_nat (length ops) * (n + operand_count ops + 3).
Proof.
  induction 1 as [|[o xs] ops H _ IH]; intros n N.
  { exists [], []. split; [constructor|]. split; [reflexivity|]. split; [exact I|]. cbn. lia. }
  destruct (expressibles xs H) as (e & a & E & V & Le).
  pose proof (declared_bound o (length xs)) as D.
  destruct (IH (n + declared o (length xs)) ltac:(lia)) as (es & ss & Es & A & M & L).
  destruct (mask_exists (n + declared o (length xs)) ltac:(lia)) as (mask & Hm & Lm).
  set (s := {| statement_operands := a; statement_operator := o;
               statement_mask := if mask_operator o then mask else [] |}).
  exists ((e ++ t2_bytes o ++ statement_mask s) ++ es), (s :: ss).
  assert (Ea : stems_after n (performed s) = n + declared o (length xs)).
  { unfold stems_after, performed. cbn [item_operator item_numbers statement_operator statement_operands s]. rewrite V. reflexivity. }
  split; [constructor; auto; exists e; auto|]. split.
  - unfold asked in *. cbn [map]. rewrite A. unfold stated, performed. cbn. rewrite V. reflexivity.
  - split; [cbn [map masks_fit]; rewrite Ea; split; auto; cbn; destruct (mask_operator o); auto|].
    assert (Lo : (length (t2_bytes o) <= 2)%nat) by (destruct o; cbn; lia).
    assert (Ls : (length (statement_mask s) <= length mask)%nat) by (cbn [s statement_mask]; destruct (mask_operator o); cbn; lia).
    pose proof (operand_count_nonneg ops) as P.
    match goal with |- context [operand_count (?a :: ops)] =>
      change (operand_count (a :: ops)) with (Z.of_nat (length xs) + operand_count ops) end.
    rewrite !app_length. cbn [length]. clearbody s. nia.
Qed.

Lemma glyph_exists ops w : Forall well_formed ops -> Forall numeric ops -> (forall x, w = Some x -> binary32 x) ->
  operand_count ops + 7 < 2 ^ 64 ->
  exists code ss, (width_allowed w ops -> glyph_encoding code w ss) /\
    (glyph_encoding code w ss \/ late_glyph_encoding code w ss) /\
    asked ss = ops /\ masks_fit 0 (map performed ss) /\ Z.of_nat (length code) <= glyph_length ops /\
    forall g l, exists m, meaning g l code ops m /\ advance m = w.
Proof.
  intros W N V B. destruct (statements_exist ops N 0 ltac:(lia)) as (es & ss & E & A & M & L).
  assert (Ew : exists ew, width_encoding ew w /\ (length ew <= 404)%nat).
  { destruct w as [x|]; [|exists []; split; [constructor|cbn; lia]]. destruct (expressible x (V x eq_refl)) as (e & a & Ea & <- & La).
    exists e. split; [constructor; auto|exact La]. }
  destruct Ew as (ew & Ew & Lw).
  assert (Lc : forall u v : list byte, (length u + length v <= length ew + length es)%nat ->
    Z.of_nat (length (u ++ v ++ t2_bytes T2_EndChar)) <= glyph_length ops).
  { intros u v Luv. unfold glyph_length. rewrite !app_length. cbn [t2_bytes length]. change (length (t2_bytes T2_EndChar)) with 1%nat. lia. }
  assert (Dec : width_allowed w ops \/ ~ width_allowed w ops).
  { unfold width_allowed. destruct w as [x|]; auto. destruct ops as [|op ops]; auto.
    destruct (may_have_width (fst op)); auto. right. intros [|]; discriminate. }
  destruct Dec as [Y|Y].
  - assert (G : glyph_encoding (ew ++ es ++ t2_bytes T2_EndChar) w ss) by (exists ew, es; auto).
    eexists _, ss. split; [intros _; exact G|]. split; [left; exact G|]. split; auto. split; auto. split; [apply Lc; lia|].
    intros g l. rewrite <- A in *. apply early_meaning; auto.
  - assert (G : late_glyph_encoding (es ++ ew ++ t2_bytes T2_EndChar) w ss) by (exists ew, es; auto).
    eexists _, ss. split; [intros C; contradiction|]. split; [right; exact G|]. split; auto. split; auto. split; [apply Lc; lia|].
    intros g l. rewrite <- A in *. apply late_meaning; auto.
Qed.

(** ** Every execution *)

Lemma evaluate_valid e a : expression_encoding e a -> binary32 (evaluate a).
Proof.
  induction 1; cbn [evaluate];
    try (match goal with |- binary32 (of_truth ?b) => destruct b; reflexivity end).
  - destruct H as (r & _ & B & _). exact B.
  - apply f32_abs_valid; auto.
  - apply f32_neg_valid; auto.
  - apply f32_sqrt_valid; auto.
  - apply f32_add_valid; auto.
  - apply f32_sub_valid; auto.
  - apply f32_div_valid; auto.
  - apply f32_mul_valid; auto.
  - destruct (SFleb (evaluate v1) (evaluate v2)); auto.
Qed.

Lemma expressible_iff x : binary32 x <-> exists e a, expression_encoding e a /\ evaluate a = x.
Proof.
  split.
  - intros B. destruct (expressible x B) as (e & a & E & V & _). eauto.
  - intros (e & a & E & <-). eapply evaluate_valid, E.
Qed.

Lemma run_results cfg code g l ops q : runs cfg (new_program code g l) (Ok (ops, q)) ->
  Forall well_formed ops /\ Forall numeric ops /\ (forall x, width q = Some x -> binary32 x).
Proof.
  intros R. split; [exact (run_emits _ _ _ _ R)|]. apply runs_trace in R as (p & T & Y).
  destruct (trace_valid _ _ _ _ T (new_valid _ _ _)) as [V C]. split; [exact C|].
  apply (step_valid _ _ _ V) in Y. destruct Y as [_ Y]. auto.
Qed.

Lemma written_runs cfg code w ss g l : Z.of_nat (length g) < 2 ^ 31 -> Z.of_nat (length l) < 2 ^ 31 ->
  glyph_encoding code w ss /\ width_allowed w (asked ss) \/ late_glyph_encoding code w ss ->
  Forall well_formed (asked ss) -> masks_fit 0 (map performed ss) -> operand_count (asked ss) + 7 < 2 ^ 64 ->
  exists q, runs cfg (new_program code g l) (Ok (asked ss, q)) /\ width q = w.
Proof.
  intros G L E W M B.
  assert (X : exists m, meaning g l code (asked ss) m /\ advance m = w).
  { destruct E as [[E A]|E]; [apply early_meaning|apply late_meaning]; auto. }
  destruct X as (m & X & A). destruct (meaning_runs g l G L cfg code _ m X) as (q & R & _ & _ & Wq).
  exists q. split; auto. congruence.
Qed.

Lemma normal_glyph ops w : Forall well_formed ops -> Forall numeric ops -> (forall x, w = Some x -> binary32 x) ->
  operand_count ops + 7 < 2 ^ 64 ->
  exists code ss, (width_allowed w ops -> glyph_encoding code w ss) /\
    (glyph_encoding code w ss \/ late_glyph_encoding code w ss) /\ asked ss = ops /\
    Z.of_nat (length code) <= glyph_length ops /\
    forall cfg g l, Z.of_nat (length g) < 2 ^ 31 -> Z.of_nat (length l) < 2 ^ 31 ->
    exists q, runs cfg (new_program code g l) (Ok (ops, q)) /\ width q = w.
Proof.
  intros W N V B. destruct (glyph_exists ops w W N V B) as (code & ss & A1 & A2 & A3 & _ & A4 & X).
  exists code, ss. do 4 (split; auto). intros cfg g l G L. destruct (X g l) as (m & Y & A).
  destruct (meaning_runs g l G L cfg code _ m Y) as (q & R & _ & _ & Wq). exists q. split; auto. congruence.
Qed.

Lemma glyphs_iff cfg ops w : operand_count ops + 7 < 2 ^ 64 ->
  (exists code g l q, runs cfg (new_program code g l) (Ok (ops, q)) /\ width q = w) <->
  Forall well_formed ops /\ Forall numeric ops /\ (forall x, w = Some x -> binary32 x).
Proof.
  intros B. split.
  - intros (code & g & l & q & R & <-). exact (run_results _ _ _ _ _ _ R).
  - intros (W & N & V). destruct (normal_glyph ops w W N V B) as (code & ss & _ & _ & _ & _ & X).
    destruct (X cfg [] [] eq_refl eq_refl) as (q & R). exists code, [], [], q. exact R.
Qed.

Lemma rewritten_glyph cfg code g l ops q : runs cfg (new_program code g l) (Ok (ops, q)) ->
  operand_count ops + 7 < 2 ^ 64 ->
  exists code' ss, (width_allowed (width q) ops -> glyph_encoding code' (width q) ss) /\
    (glyph_encoding code' (width q) ss \/ late_glyph_encoding code' (width q) ss) /\ asked ss = ops /\
    Z.of_nat (length code') <= glyph_length ops /\
    forall cfg' g' l', Z.of_nat (length g') < 2 ^ 31 -> Z.of_nat (length l') < 2 ^ 31 ->
    exists q', runs cfg' (new_program code' g' l') (Ok (ops, q')) /\ width q' = width q.
Proof. intros R B. destruct (run_results _ _ _ _ _ _ R) as (W & N & V). apply normal_glyph; auto. Qed.

(** FailureFacts: why the execution of a character string fails. *)
From Verif Require Import Base Float T2Number T2Operation T2Program BaseFacts SpecFailure T2OperatorFacts T2NumberFacts StepFacts
  ClearFacts RunFacts ListingFacts FloatFacts EvalFacts IntegralFacts StackFacts ExecutionFacts SubroutineFacts ProgramFacts
  ReferenceFacts.
Local Open Scope Z_scope.

(** ** Operators *)

Lemma roll_kind cfg st k : roll cfg st = Err k -> k = Other.
Proof.
  assert (P : forall st k, pop st = Err k -> k = Other) by (intros s k'; unfold pop; destruct (vec_pop s) as [[? ?]|]; congruence).
  assert (Pi : forall st k, pop_i32 st = Err k -> k = Other)
    by (intros s k'; unfold pop_i32; destruct (vec_pop s) as [[? ?]|]; [destruct (f32_eqb _ _)|]; congruence).
  assert (It : forall (f : outcome (list f32) -> outcome (list f32)) n m,
    (forall m, (forall k, m = Err k -> k = Other) -> forall k, f m = Err k -> k = Other) ->
    (forall k, m = Err k -> k = Other) -> forall k, Z.iter n f m = Err k -> k = Other).
  { intros f n m F M. destruct (Z.le_gt_cases 0 n) as [N|N].
    - rewrite iter_nat_Z by auto. induction (Z.to_nat n); [exact M|]. cbn. apply F. exact IHn0.
    - destruct n; try lia. exact M. }
  unfold roll. destruct (pop_i32 st) as [[sh st1]| | |] eqn:E1; cbn [bind]; try discriminate; [|intros H; eapply Pi; rewrite E1; congruence].
  destruct (pop_i32 st1) as [[sp st2]| | |] eqn:E2; cbn [bind]; try discriminate; [|intros H; eapply Pi; rewrite E2; congruence].
  destruct (sp <? 0); [congruence|]. destruct (_ <? sp); [congruence|]. destruct (0 <? sp); [|discriminate].
  destruct (sh ?= 0); [discriminate| |].
  - destruct (neg_i32 cfg sh) as [n| | |] eqn:E3; cbn [bind]; try discriminate.
    2: { unfold neg_i32 in E3. destruct (in_i32 _), (overflow_checks cfg); discriminate. }
    apply It; [|discriminate]. intros m M k'. destruct m as [st3|k0| |]; cbn [bind]; try discriminate; [|intros H; apply M; congruence].
    unfold vec_remove. destruct (nth_error _ _); cbn [bind]; discriminate.
  - apply It; [|discriminate]. intros m M k'. destruct m as [st3|k0| |]; cbn [bind]; try discriminate; [|intros H; apply M; congruence].
    destruct (pop st3) as [[x st4]| | |] eqn:E4; cbn [bind]; try discriminate; [|intros H; eapply P; rewrite E4; congruence].
    unfold vec_insert. destruct (Nat.leb _ _); discriminate.
Qed.

Lemma effect_kind cfg o st k : stack_operator o = true -> effect cfg o st = Err k -> k = Other.
Proof.
  intros So H.
  assert (P : forall st k, pop st = Err k -> k = Other) by (intros s k'; unfold pop; destruct (vec_pop s) as [[? ?]|]; congruence).
  assert (Pb : forall st k, pop_bool st = Err k -> k = Other) by (intros s k'; unfold pop_bool; destruct (vec_pop s) as [[? ?]|]; congruence).
  assert (Pi : forall st k, pop_i32 st = Err k -> k = Other)
    by (intros s k'; unfold pop_i32; destruct (vec_pop s) as [[? ?]|]; [destruct (f32_eqb _ _)|]; congruence).
  assert (Rt : forall i st k, read_from_top i st = Err k -> k = Other).
  { intros i s k'. unfold read_from_top. destruct (_ <=? _); [congruence|]. destruct (nth_error _ _); congruence. }
  pose proof (roll_kind cfg) as Rl.
  assert (Bn : forall A B (m : outcome A) (f : A -> outcome B), (forall k, m = Err k -> k = Other) ->
    (forall a k, f a = Err k -> k = Other) -> forall k, bind m f = Err k -> k = Other).
  { intros A B m f M F k'. destruct m; cbn; try discriminate; eauto. intros E. apply M. congruence. }
  unfold effect in H.
  assert (M : forall p k, execute cfg o p = Err k -> k = Other).
  { clear H. intros p. destruct o; try discriminate; cbn [execute]; unfold with_stack, unary, binary.
    all: apply Bn; [|intros; discriminate].
    all: repeat first [apply Rl | apply P | apply Pb | apply Pi | apply Rt | apply Bn; [|intros ?]
      | discriminate | match goal with a : _ * _ |- _ => destruct a end | progress intros ? ]. }
  destruct (execute _ _ _) as [[? ?|?]| | |] eqn:E; try discriminate. apply M in E. congruence.
Qed.

Lemma clear_kind o l p k : clear o l p = Err k -> k = Other.
Proof.
  unfold clear. destruct (fold_left _ _ _); [|congruence]. destruct (_ && _); [|discriminate].
  destruct (nth_error _ _); discriminate.
Qed.

Lemma unwind_kind r cs k : unwind r cs = Err k -> k = Other.
Proof. revert r. induction cs as [|c cs IH]; intros r; cbn; [discriminate|]. destruct (done r); [apply IH|congruence]. Qed.

Lemma call_kind cfg subs p k : call cfg subs p = Err k -> k = Other.
Proof.
  unfold call. destruct (pop_i32 (stack p)) as [[a st]|k'| |] eqn:E; cbn [bind]; try discriminate.
  - unfold add_i32. destruct (in_i32 _); [|destruct (overflow_checks cfg)]; cbn [bind]; try discriminate;
      (destruct (_ || _); [congruence|]; destruct (nth_error _ _); discriminate).
  - unfold pop_i32 in E. destruct (vec_pop (stack p)) as [[? ?]|]; [destruct (f32_eqb _ _)|]; congruence.
Qed.

Lemma add_u64_kind cfg a b k : add_u64 cfg a b <> Err k.
Proof. unfold add_u64. destruct (in_u64 _); [discriminate|]. destruct (overflow_checks cfg); discriminate. Qed.

(** Only a mask can be cut short. *)
Lemma execute_kind cfg o p k : mask_operator o = false -> execute cfg o p = Err k -> k = Other.
Proof.
  intros Em H. destruct (stack_operator o) eqn:So.
  { rewrite execute_stack in H by auto. unfold with_stack in H.
    destruct (effect cfg o (stack p)) as [|k'| |] eqn:E; cbn in H; try discriminate. injection H as <-. eapply effect_kind; eauto. }
  destruct (path_operator o) eqn:Ep; [rewrite execute_path in H by auto; eapply clear_kind; eauto|].
  destruct (stem_operator o) eqn:Es.
  { assert (E : execute cfg o p = (let* n := add_u64 cfg (stems p) (Z.shiftr (Z.of_nat (length (stack p))) 1) in
        clear o (alternatives_of o) (set_stems p n))) by (destruct o; try discriminate; reflexivity).
    rewrite E in H. destruct (add_u64 _ _ _) as [n|k'| |] eqn:A; cbn [bind] in H; try discriminate.
    - eapply clear_kind; eauto.
    - destruct (add_u64_kind _ _ _ _ A). }
  destruct o; try discriminate; cbn [execute] in H; try congruence.
  - destruct (call _ _ _) as [|k'| |] eqn:E; cbn [bind] in H; try discriminate. injection H as <-. eapply call_kind; eauto.
  - destruct (callers p); congruence.
  - destruct (unwind _ _) as [|k'| |] eqn:E; cbn [bind] in H; try discriminate. injection H as <-. eapply unwind_kind; eauto.
  - destruct (call _ _ _) as [|k'| |] eqn:E; cbn [bind] in H; try discriminate. injection H as <-. eapply call_kind; eauto.
Qed.

Lemma execute_fuel cfg o p : execute cfg o p <> OutOfFuel.
Proof.
  intros H. apply (step_fuel cfg (set_routine p (t2_bytes o ++ routine p))).
  rewrite (step_code cfg _ [] [] o (routine p)); [|constructor|reflexivity].
  unfold loaded. cbn [stack set_routine set_stack]. rewrite app_nil_r. rewrite <- H. destruct p; reflexivity.
Qed.

Section Operators.
  Context (cfg : config) (checks : overflow_checks cfg = true) (o : t2_operator) (p : program)
    (V : valid_program p) (P : possible p)
    (Ll : Z.of_nat (length (local p)) < 2 ^ 31) (Lg : Z.of_nat (length (global p)) < 2 ^ 31).

  (** A mask that is there, or not. *)
  Lemma mask_fails k : mask_operator o = true -> ~ extreme o p ->
    (execute cfg o p = Err k <-> k = UnexpectedEof /\
     forall size, mask_bytes (stems p + declared o (length (stack p))) size -> Z.of_nat (length (routine p)) < size).
  Proof.
    intros Em X. destruct P as [P0 P1]. pose proof (declared_nonneg o (length (stack p))) as Dn.
    assert (B : stems p + declared o (length (stack p)) + 7 < 2 ^ 64).
    { destruct (Z.lt_ge_cases (stems p + declared o (length (stack p)) + 7) (2 ^ 64)); auto.
      exfalso. apply X. destruct o; try discriminate; right; auto. }
    set (size := Z.shiftr (stems p + declared o (length (stack p)) + 7) 3).
    pose proof (mask_bytes_shift (stems p + declared o (length (stack p)))) as M. fold size in M.
    destruct (Z.lt_ge_cases (Z.of_nat (length (routine p))) size) as [L|L].
    - rewrite (execute_mask_eof cfg o p size) by auto. split; [|intros [-> _]; reflexivity].
      intros H. split; [congruence|]. intros size' M'. rewrite (mask_bytes_unique _ _ _ M' M). exact L.
    - assert (0 <= size) by (unfold mask_bytes in M; lia).
      assert (E : execute cfg o p = Ok (Yield (Some (o, []))
        (cleared p (stems p + declared o (length (stack p))) (stack p) (skipn (Z.to_nat size) (routine p))))).
      { apply execute_clears with (firstn (Z.to_nat size) (routine p)); auto.
        - apply mask_is; auto.
        - symmetry. apply firstn_skipn.
        - apply longest_mask; auto.
        - rewrite Em, firstn_length. rewrite Nat.min_l by lia. rewrite Z2Nat.id by auto. exact M. }
      rewrite E. split; [discriminate|]. intros [_ H']. specialize (H' size M). lia.
  Qed.

  (** A call that selects nothing. *)
  Lemma call_fails subs : Z.of_nat (length subs) < 2 ^ 31 -> (forall k, call cfg subs p <> Panic k) ->
    (call cfg subs p = Err Other <-> forall st a body, stack p = st ++ [a] -> ~ selects subs a body).
  Proof.
    intros L Q. split.
    - intros H st a body K (v & b & I & B & N & E). apply biased_bias in B. subst b.
      rewrite (call_ok cfg subs p st a v body) in H by auto. discriminate.
    - intros H. destruct (exists_last_or (stack p)) as [K|(st & a & K)]; [apply call_empty; auto|].
      assert (Ba : binary32 a). { destruct V as [Vs _]. rewrite K in Vs. apply Forall_snoc in Vs. apply Vs. }
      destruct (call_other cfg subs p st a K Ba L) as [E|(E & _)]; auto; [|destruct (Q _ E)].
      intros v I R. destruct (nth_error subs (Z.to_nat (v + bias (Z.of_nat (length subs))))) as [body|] eqn:E.
      + apply (H st a body K). exists v, (bias (Z.of_nat (length subs))). split; auto. split; [apply bias_biased|].
        split; [lia|exact E].
      + apply nth_error_None in E. lia.
  Qed.

  (** The other operators fail if they refuse to be executed. *)
  Lemma other_fails k : mask_operator o = false -> ~ extreme o p -> (execute cfg o p = Err k <-> k = Other /\ refuses o p).
  Proof.
    intros Em X. destruct P as [P0 P1].
    assert (Q : forall k, execute cfg o p <> Panic k).
    { intros k' H. apply execute_panic in H as (_ & _ & H); auto. }
    assert (F := execute_fuel cfg o p).
    assert (E : execute cfg o p = Err Other <-> refuses o p).
    2: { split; [intros H; split; [eapply execute_kind; eauto|apply E; rewrite H; f_equal; eapply execute_kind; eauto]|].
         intros [-> R]. apply E. exact R. }
    unfold refuses. destruct (stack_operator o) eqn:So.
    { split.
      - intros H. right; right; right; left. split; auto. intros st C. apply (computes_effect cfg) in C.
        rewrite execute_stack, C in H by auto. discriminate.
      - intros H. assert (N : forall after, ~ computes o (stack p) after).
        { destruct H as [->|[->|[->|[[_ H]|[[[H|H] _]|[[[->| ->] _]|[[-> _]|[-> _]]]]]]]]; auto; try discriminate;
            destruct o; discriminate. }
        rewrite execute_stack in * by auto. unfold with_stack in *.
        destruct (effect cfg o (stack p)) as [st|k'|k'|] eqn:Ef; cbn [bind] in *.
        + apply effect_computes in Ef; auto; [|apply V]. destruct (N _ Ef).
        + f_equal. eapply effect_kind; eauto.
        + destruct (Q k' eq_refl).
        + destruct (F eq_refl). }
    destruct (path_operator o || stem_operator o) eqn:Ps.
    { apply orb_true_iff in Ps.
      assert (B : stems p + declared o (length (stack p)) < 2 ^ 64).
      { destruct (Z.lt_ge_cases (stems p + declared o (length (stack p))) (2 ^ 64)); auto.
        destruct Ps as [Ps|Ps].
        - exfalso. destruct o; try discriminate; cbn in *; lia.
        - exfalso. apply X. destruct o; try discriminate; left; auto. }
      pose proof (alternatives_described o ltac:(destruct Ps; [apply path_is|apply stem_is]; auto)) as D.
      split.
      - intros H. right; right; right; right; left. split; auto.
        destruct (clear_cases (alternatives_of o) o p D) as [(surplus & operands & L)|N]; [|exact N]. exfalso.
        destruct Ps as [Ep|Es].
        + rewrite execute_path, (clear_ok _ _ _ _ _ D L) in H by auto. discriminate.
        + assert (E : execute cfg o p = (let* n := add_u64 cfg (stems p) (Z.shiftr (Z.of_nat (length (stack p))) 1) in
            clear o (alternatives_of o) (set_stems p n))) by (destruct o; try discriminate; reflexivity).
          pose proof (declared_nonneg o (length (stack p))).
          rewrite E, (declared_pairs o), add_u64_small in H by (auto; lia). cbn [bind] in H.
          rewrite (clear_ok _ _ _ surplus operands D) in H by auto. discriminate.
      - intros H. apply execute_starves; auto.
        destruct H as [->|[->|[->|[[H _]|[[_ H]|[[[->| ->] _]|[[-> _]|[-> _]]]]]]]]; auto; try discriminate;
          destruct Ps; discriminate. }
    apply orb_false_iff in Ps as [Ep Es].
    assert (Cl : forall subs, Z.of_nat (length subs) < 2 ^ 31 ->
      execute cfg o p = (let* p := call cfg subs p in Ok (Again p)) ->
      (execute cfg o p = Err Other <-> forall st a body, stack p = st ++ [a] -> ~ selects subs a body)).
    { intros subs L E. rewrite <- call_fails by (auto; intros k' H; apply (Q k'); rewrite E, H; reflexivity).
      rewrite E. destruct (call cfg subs p); cbn [bind]; split; congruence. }
    unfold subroutine. destruct o; try discriminate.
    - rewrite (Cl (local p)) by auto. split.
      + intros H. do 5 right. left. split; auto. intros st a body K [[_ B]|[B _]]; [|discriminate]. eapply H; eauto.
      + intros [H|[H|[H|[[H _]|[[[H|H] _]|[[_ H]|[[H _]|[H _]]]]]]]]; try discriminate.
        intros st a body K B. apply (H st a body K). auto.
    - cbn [execute]. destruct (callers p) as [|c cs] eqn:Ec; split; auto 10; try discriminate.
      intros [H|[H|[H|[[H _]|[[[H|H] _]|[[[H|H] _]|[[_ H]|[H _]]]]]]]]; discriminate.
    - cbn [execute].
      assert (D : Forall (fun c => c = []) (removelast (routine p :: callers p)) \/
        ~ Forall (fun c => c = []) (removelast (routine p :: callers p))).
      { generalize (removelast (routine p :: callers p)). intros fs. induction fs as [|[|b f] fs IH]; auto.
        - destruct IH as [IH|IH]; [left; constructor; auto|right; intros H; inversion H; auto].
        - right. intros H. inversion H. discriminate. }
      split.
      + intros H. do 7 right. split; auto. destruct D as [D|D]; auto. rewrite (unwind_ok _ _ D) in H. discriminate.
      + intros [H|[H|[H|[[H _]|[[[H|H] _]|[[[H|H] _]|[[H _]|[_ H]]]]]]]]; try discriminate.
        rewrite (unwind_err _ _ H). reflexivity.
    - rewrite (Cl (global p)) by auto. split.
      + intros H. do 5 right. left. split; auto. intros st a body K [[B _]|[_ B]]; [discriminate|]. eapply H; eauto.
      + intros [H|[H|[H|[[H _]|[[[H|H] _]|[[_ H]|[[H _]|[H _]]]]]]]]; try discriminate.
        intros st a body K B. apply (H st a body K). auto.
    - cbn [execute]. split; auto.
    - cbn [execute]. split; auto.
    - cbn [execute]. split; auto.
  Qed.
End Operators.

(** ** Rounds *)

Lemma read_operand_whole b c1 c2 c3 c4 s : t2_first b -> exists x r, read_operand (b :: c1 :: c2 :: c3 :: c4 :: s) = Ok (x, r).
Proof.
  intros F. pose proof (bz_range b) as B. unfold t2_first in F. unfold read_operand. cbn [take_u8 take_u16 take_u32 bind].
  destruct ((0x20 <=? bz b) && (bz b <=? 0xf6)) eqn:C1; [eauto|].
  destruct ((0xf7 <=? bz b) && (bz b <=? 0xfa)) eqn:C2; [eauto|].
  destruct ((0xfb <=? bz b) && (bz b <=? 0xfe)) eqn:C3; [eauto|].
  destruct (bz b =? 0x1c) eqn:C4; [eauto|]. destruct (bz b =? 0xff) eqn:C5; [eauto|]. exfalso.
  apply andb_false_iff in C1, C2, C3. rewrite !Z.leb_gt in *. apply Z.eqb_neq in C4, C5. lia.
Qed.

Lemma read_operand_cut b s k : t2_first b -> read_operand (b :: s) = Err k ->
  k = UnexpectedEof /\ exists u x, u <> [] /\ t2_number ((b :: s) ++ u) x.
Proof.
  intros F H. destruct (read_operand_whole b x00 x00 x00 x00 [] F) as (x0 & r0 & W0).
  assert (W : exists x r, read_operand ((b :: s) ++ [x00; x00; x00; x00]) = Ok (x, r)).
  { destruct s as [|c1 [|c2 [|c3 [|c4 s]]]]; cbn [app]; apply read_operand_whole; auto. }
  destruct W as (x & r & W). apply read_operand_sound in W as (e & E & N).
  destruct (Nat.le_gt_cases (length e) (length (b :: s))) as [L|L].
  - exfalso. assert (exists r', b :: s = e ++ r') as [r' E'].
    { exists (skipn (length e) (b :: s)). rewrite <- (firstn_skipn (length e) (b :: s)) at 1. f_equal.
      apply (f_equal (firstn (length e))) in E. rewrite !firstn_app in E.
      rewrite Nat.sub_diag, firstn_all, app_nil_r in E. replace (length e - length (b :: s))%nat with 0%nat in E by lia.
      cbn [firstn] in E. rewrite app_nil_r in E. exact E. }
    rewrite E', (read_operand_complete _ _ _ N) in H. discriminate.
  - assert (exists u, e = (b :: s) ++ u) as [u ->].
    { exists (skipn (length (b :: s)) e). rewrite <- (firstn_skipn (length (b :: s)) e) at 1. f_equal.
      apply (f_equal (firstn (length (b :: s)))) in E. rewrite !firstn_app in E.
      rewrite Nat.sub_diag, firstn_all, app_nil_r in E. replace (length (b :: s) - length e)%nat with 0%nat in E by lia.
      cbn [firstn] in E. rewrite app_nil_r in E. auto. }
    assert (u <> []) by (intros ->; rewrite app_nil_r in L; lia).
    split; [|eauto]. rewrite (read_operand_eof _ _ _ N) in H by auto. congruence.
Qed.

Lemma push_operands_err fuel : forall st s k, (length s < fuel)%nat -> push_operands fuel st s = Err k ->
  k = UnexpectedEof /\ exists e xs t, s = e ++ t /\ each t2_number e xs /\ (t = [] \/ cut_token t).
Proof.
  induction fuel as [|fuel IH]; intros st s k L H; [lia|]. cbn [push_operands] in H.
  destruct s as [|b s].
  { cbn in H. split; [congruence|]. exists [], [], []. repeat split; auto. constructor. }
  unfold peek_u8 in H. cbn [take_u8 bind] in H.
  destruct (t2_starts_operand (bz b)) eqn:T; [|discriminate]. apply t2_starts_first in T.
  destruct (read_operand (b :: s)) as [[x r]|k'|k'|] eqn:R; cbn [bind] in H; try discriminate.
  - pose proof (read_operand_shorter _ _ _ R). apply read_operand_sound in R as (e0 & E0 & N0).
    apply IH in H as (-> & e & xs & t & -> & E & C); [|lia]. split; auto.
    exists (e0 ++ e), (x :: xs), t. rewrite E0, app_assoc. split; auto. split; auto. constructor; auto.
  - destruct (read_operand_cut _ _ _ T R) as (-> & u & x & U & N). split; [congruence|].
    exists [], [], (b :: s). split; [reflexivity|]. split; [constructor|]. right. split; [discriminate|]. exists u. split; auto. left. eauto.
Qed.

Lemma cut_operator t u o : t <> [] -> u <> [] -> t ++ u = t2_bytes o -> t = [x0c].
Proof.
  intros T U E. destruct t as [|b t]; [congruence|]. destruct u as [|c u]; [congruence|].
  destruct o; cbn in E; destruct t as [|b' [|? t]]; cbn in E; try discriminate; congruence.
Qed.

Lemma operator_err b t k : ~ t2_first b -> read_t2_operator (bz b) (b :: t) = Err k ->
  (k = UnexpectedEof /\ b :: t = [x0c]) \/ (k = Other /\ b :: t <> [x0c] /\ forall o r, b :: t <> t2_bytes o ++ r).
Proof.
  intros N H.
  assert (X : forall o r, b :: t <> t2_bytes o ++ r).
  { intros o r E. destruct (read_t2_operator_complete o r) as (b' & t' & E' & _ & C). rewrite E' in E, C.
    cbn [app] in E, C. injection E as -> ->. congruence. }
  unfold read_t2_operator in H. destruct (Z.eqb_spec (bz b) 12) as [E|E].
  - assert (b = x0c) as -> by (apply bz_inj, E). destruct t as [|c t].
    + left. cbn in H. split; [congruence|reflexivity].
    + right. cbn [take_u16 bind] in H. split; [|split; [discriminate|exact X]].
      unfold t2_operator_from in H. destruct (C1Operation.lookup_code _ _); cbn [bind] in H; congruence.
  - right. cbn [take_u8 bind] in H. split; [|split; [intros K; injection K as -> _; apply E; reflexivity|exact X]].
    unfold t2_operator_from in H. destruct (C1Operation.lookup_code _ _); cbn [bind] in H; congruence.
Qed.

(** The bytes behind numbers decide. *)
Lemma step_ahead cfg p xs t : ahead p xs t -> t <> [] -> step cfg p = step cfg (loaded p xs t).
Proof. intros (e & R & E) N. apply step_numbers with e; auto. Qed.

Lemma step_operator cfg p xs o r : ahead p xs (t2_bytes o ++ r) -> step cfg p = execute cfg o (loaded p xs r).
Proof. intros (e & R & E). apply step_code with e; auto. Qed.

Lemma step_stops cfg p xs b t : ahead p xs (b :: t) -> ~ t2_first b -> forall k,
  read_t2_operator (bz b) (b :: t) = Err k -> step cfg p = Err k.
Proof.
  intros A N k H. rewrite (step_ahead cfg p xs (b :: t) A) by discriminate.
  unfold step. cbn [routine loaded set_stack set_routine done]. rewrite push_operands_stop by exact N. cbn [bind].
  rewrite H. reflexivity.
Qed.

Lemma step_cut cfg p xs t : routine p <> [] -> ahead p xs t -> t = [] \/ cut_token t -> step cfg p = Err UnexpectedEof.
Proof.
  intros R A [->|(T & u & U & [(x & N)|(o & E)])].
  - destruct A as (e & E & X). unfold step. destruct (done (routine p)) eqn:D; [destruct (routine p); [congruence|discriminate]|].
    rewrite E, (push_operands_app _ _ X) by lia. reflexivity.
  - rewrite (step_ahead cfg p xs t A T). unfold step. cbn [routine loaded set_stack set_routine].
    destruct t as [|b t]; [congruence|]. destruct (t2_number_first _ _ N) as (b' & e' & E & F). injection E as <- _.
    cbn [done push_operands]. unfold peek_u8. cbn [take_u8 bind].
    destruct (t2_starts_operand (bz b)) eqn:S; [|apply t2_starts_first in F; congruence].
    rewrite (read_operand_eof _ _ _ N U). reflexivity.
  - apply cut_operator in E; auto. subst t. apply step_stops with xs x0c []; auto.
    unfold t2_first. change (bz x0c) with 12. lia.
Qed.

Section Rounds.
  Context (cfg : config) (checks : overflow_checks cfg = true) (p : program)
    (V : valid_program p) (P : possible p)
    (Ll : Z.of_nat (length (local p)) < 2 ^ 31) (Lg : Z.of_nat (length (global p)) < 2 ^ 31).

  Lemma extreme_dec xs e o r : each t2_number e xs -> forall k, step cfg p = Err k -> ahead p xs (t2_bytes o ++ r) ->
    ~ extreme o (loaded p xs r).
  Proof.
    intros E k H A X. rewrite (step_operator _ _ _ _ _ A) in H. rewrite execute_extreme in H by auto. discriminate.
  Qed.

  Lemma step_fails k : step cfg p = Err k <->
    match k with UnexpectedEof => cut_short p | Other => malformed p end.
  Proof.
    split.
    - intros H. assert (R : routine p <> []) by (intros R; rewrite step_empty in H by auto; discriminate).
      assert (D : done (routine p) = false) by (destruct (routine p); [congruence|reflexivity]).
      pose proof H as H'. unfold step in H. rewrite D in H.
      destruct (push_operands _ _ _) as [[[st code] r]|k'| |] eqn:Ep; cbn [bind] in H; try discriminate.
      + apply push_operands_inv in Ep as (e & xs & b & t & E & X & -> & -> & -> & N).
        assert (A : ahead p xs (b :: t)) by (exists e; auto).
        destruct (read_t2_operator (bz b) (b :: t)) as [[o r]|k'| |] eqn:Eo; cbn [bind] in H; try discriminate.
        * apply read_t2_operator_sound in Eo. rewrite Eo in A.
          pose proof (extreme_dec xs e o r X k H' A) as NX.
          rewrite (step_operator _ _ _ _ _ A) in H'. pose proof (loaded_valid p e xs r V X) as V'.
          destruct (mask_operator o) eqn:Em.
          -- apply mask_fails in H' as [-> M]; auto. split; auto. exists xs, (t2_bytes o ++ r). split; auto. right. right.
             exists o, r. repeat split; auto.
          -- apply other_fails in H' as [-> M]; auto. exists xs, (t2_bytes o ++ r). split; auto. right.
             exists o, r. repeat split; auto.
        * injection H as <-. destruct (operator_err _ _ _ N Eo) as [[-> C]|(-> & C & Y)].
          -- split; auto. exists xs, (b :: t). split; auto. right. left. rewrite C. split; [discriminate|].
             exists [x03]. split; [discriminate|]. right. exists T2_And. reflexivity.
          -- exists xs, (b :: t). split; auto. left. split; [discriminate|]. split; [|split; auto].
             ++ intros (_ & u & U & [(x & Nx)|(o & Eu)]).
                ** destruct (t2_number_first _ _ Nx) as (b' & e' & E' & F). injection E' as <- _. auto.
                ** apply cut_operator in Eu; auto. discriminate.
             ++ intros e' x r E' Nx. destruct (t2_number_first _ _ Nx) as (b' & e'' & -> & F). injection E' as -> _. auto.
      + injection H as <-. apply push_operands_err in Ep as (-> & e & xs & t & E & X & C); [|lia].
        split; auto. exists xs, t. split; [exists e; auto|]. tauto.
    - destruct k.
      + intros (R & xs & t & A & [C|[C|(o & r & -> & Em & X & M)]]).
        * eapply step_cut; eauto.
        * eapply step_cut; eauto.
        * rewrite (step_operator _ _ _ _ _ A). destruct A as (e & E & N).
          apply mask_fails; auto.
      + intros (xs & t & A & [(T & C & N & O)|(o & r & -> & X & M)]).
        * destruct t as [|b t]; [congruence|].
          assert (Nb : ~ t2_first b).
          { intros F. pose proof (read_operand_settled (b :: t)) as Q.
            destruct (read_operand (b :: t)) as [[x r]|k| |] eqn:E; try contradiction.
            - apply read_operand_sound in E as (e & E & Nx). apply (N e x r E Nx).
            - destruct (read_operand_cut _ _ _ F E) as (_ & u & x & U & Nx). apply C. split; [discriminate|]. exists u. split; auto. left. eauto. }
          pose proof (read_t2_operator_settled (bz b) (b :: t)) as Q.
          destruct (read_t2_operator (bz b) (b :: t)) as [[o r]|k| |] eqn:E; try contradiction.
          -- apply read_t2_operator_sound in E. destruct (O o r E).
          -- destruct (operator_err _ _ _ Nb E) as [[-> C']|(-> & _)].
             ++ exfalso. apply C. rewrite C'. split; [discriminate|]. exists [x03]. split; [discriminate|]. right. exists T2_And. reflexivity.
             ++ eapply step_stops; eauto.
        * rewrite (step_operator _ _ _ _ _ A). destruct A as (e & E & Nx).
          assert (mask_operator o = false).
          { destruct (mask_operator o) eqn:Em; auto. exfalso. unfold refuses in M.
            destruct o; try discriminate;
              destruct M as [M|[M|[M|[[M _]|[[[M|M] _]|[[[M|M] _]|[[M _]|[M _]]]]]]]]; discriminate. }
          apply other_fails; auto. eapply loaded_valid; eauto.
  Qed.
End Rounds.

(** ** Runs *)

Lemma nexts_trace_err cfg p k : nexts cfg p (Err k) -> exists q, trace cfg p [] q /\ step cfg q = Err k.
Proof.
  intros (_ & f & H). revert p H. induction f as [|f IH]; intros p H; [discriminate|]. cbn [next] in H.
  destruct (step cfg p) as [[y q|q]| | |] eqn:E; cbn [bind] in H; try discriminate.
  - apply IH in H as (q' & T & S). exists q'. split; auto. eapply trace_again; eauto.
  - exists p. split; [constructor|congruence].
Qed.

Lemma runs_trace_err cfg k p : runs cfg p (Err k) <-> exists ops q, trace cfg p ops q /\ step cfg q = Err k.
Proof.
  split.
  - intros (_ & f & H). revert p H. induction f as [|f IH]; intros p H; [discriminate|]. cbn [run] in H.
    destruct (next cfg (S f) p) as [[[x|] q]|k'|k'|] eqn:E; cbn [bind] in H; try discriminate.
    + destruct (run cfg f q) as [[ops q']|k'|k'|] eqn:R; cbn in H; try discriminate. injection H as ->.
      apply IH in R as (ops & q' & T & N). exists (x :: ops), q'. split; auto.
      destruct (nexts_trace cfg p (Some x) q) as (p2 & T2 & S2); [split; [discriminate|eauto]|].
      change (x :: ops) with ([] ++ x :: ops). eapply trace_app; [exact T2|]. eapply trace_emit; eauto.
    + injection H as ->. destruct (nexts_trace_err cfg p k) as (q & T & N); [split; [discriminate|eauto]|]. eauto.
  - intros (ops & q & T & H). apply (trace_runs _ _ _ _ T). exists (Err k). split; [|reflexivity].
    apply runs_err. eapply nexts_err; [exact H|reflexivity].
Qed.

Lemma run_fails cfg code g l k : Z.of_nat (length g) < 2 ^ 31 -> Z.of_nat (length l) < 2 ^ 31 -> overflow_checks cfg = true ->
  (runs cfg (new_program code g l) (Err k) <-> exists ops q, trace cfg (new_program code g l) ops q /\
     match k with UnexpectedEof => cut_short q | Other => malformed q end).
Proof.
  intros Lg Ll O. rewrite runs_trace_err.
  assert (X : forall ops q, trace cfg (new_program code g l) ops q ->
    step cfg q = Err k <-> match k with UnexpectedEof => cut_short q | Other => malformed q end).
  { intros ops q T. pose proof (trace_subs _ _ _ _ T) as [Gq Lq]. apply step_fails; auto.
    - apply (trace_valid _ _ _ _ T (new_valid _ _ _)).
    - apply (trace_possible _ _ _ _ T (new_possible _ _ _)).
    - rewrite Lq. exact Ll.
    - rewrite Gq. exact Lg. }
  split; intros (ops & q & T & H); exists ops, q; (split; [exact T|]); apply (X ops q T); exact H.
Qed.

(** ** More code *)

Definition final {A} (p : program) (m : outcome A) : Prop :=
  match m with Err Other | Panic _ => True | Err UnexpectedEof => callers p <> [] | _ => False end.

(** The same failure, in another state. *)
Definition same_failure {A} (m m' : outcome A) : Prop :=
  match m with Err k => m' = Err k | Panic k => m' = Panic k | _ => True end.

Lemma clear_failure o l p p' : stack p' = stack p -> width p' = width p -> same_failure (clear o l p) (clear o l p').
Proof.
  intros K W. unfold clear. rewrite K, W. destruct (fold_left _ _ _); [|reflexivity].
  destruct (_ && _); cbn [bind]; [|exact I]. destruct (nth_error _ _); cbn [bind]; [exact I|reflexivity].
Qed.

Lemma unwind_extended t : forall fs r k, unwind r fs = Err k ->
  let (r', fs') := extend t [] r fs in unwind r' fs' = Err k.
Proof.
  induction fs as [|f fs IH]; intros r k H; cbn in *; [discriminate|].
  destruct (done r) eqn:D.
  - apply IH in H. destruct (extend t [] f fs) as [a b]. cbn. rewrite D. exact H.
  - destruct (extend t [] f fs) as [a b]. cbn. rewrite D. exact H.
Qed.

Lemma execute_final t cfg o p : final p (execute cfg o p) -> same_failure (execute cfg o p) (execute cfg o (lift t [] p)).
Proof.
  intros Fi. destruct (stack_operator o) eqn:So.
  { rewrite !execute_stack by auto. unfold with_stack. rewrite lift_stack.
    destruct (effect cfg o (stack p)); cbn; auto. }
  destruct (path_operator o) eqn:Ep.
  { rewrite !execute_path by auto. apply clear_failure; [apply lift_stack|apply lift_width]. }
  destruct (stem_operator o) eqn:Es.
  { assert (E : forall p, execute cfg o p = (let* n := add_u64 cfg (stems p) (Z.shiftr (Z.of_nat (length (stack p))) 1) in
        clear o (alternatives_of o) (set_stems p n))) by (intros; destruct o; try discriminate; reflexivity).
    rewrite !E, lift_stems, lift_stack. destruct (add_u64 _ _ _); cbn [bind]; try reflexivity; try exact I.
    apply clear_failure; cbn [stack width set_stems]; [apply lift_stack|apply lift_width]. }
  destruct (mask_operator o) eqn:Em.
  { assert (E : forall p, execute cfg o p = (let* n := add_u64 cfg (stems p) (Z.shiftr (Z.of_nat (length (stack p))) 1) in
      let* m := add_u64 cfg n 7 in
      let* (_, r) := take_vec cfg 1 take_byte (Z.shiftr m 3) (routine p) in
      clear o (alternatives_of o) (set_routine (set_stems p n) r))) by (intros; destruct o; try discriminate; reflexivity).
    revert Fi. rewrite !E, lift_stems, lift_stack, lift_routine.
    destruct (add_u64 cfg (stems p) _) as [n| | |] eqn:A; cbn [bind]; try reflexivity; try (intros _; exact I).
    destruct (add_u64 cfg n 7) as [m| | |] eqn:B; cbn [bind]; try reflexivity; try (intros _; exact I).
    apply add_u64_range in B. pose proof (mask_size _ B) as Sz. rewrite take_vec_byte by lia.
    destruct (Z.leb_spec (Z.shiftr m 3) (Z.of_nat (length (routine p)))) as [L|L].
    - intros _. rewrite (take_bytes_more cfg _ (routine p) (tail_of t (callers p))
        (firstn (Z.to_nat (Z.shiftr m 3)) (routine p)) (skipn (Z.to_nat (Z.shiftr m 3)) (routine p))); auto.
      + cbn [bind]. apply clear_failure; cbn [stack width set_stems set_routine]; [apply lift_stack|apply lift_width].
      + rewrite take_vec_byte by lia. destruct (Z.leb_spec (Z.shiftr m 3) (Z.of_nat (length (routine p)))); [reflexivity|lia].
    - cbn [bind final same_failure]. intros Fi. destruct (callers p) as [|c fs]; [congruence|]. cbn [tail_of]. rewrite app_nil_r.
      rewrite take_vec_byte by lia. destruct (Z.leb_spec (Z.shiftr m 3) (Z.of_nat (length (routine p)))); [lia|reflexivity]. }
  assert (Cl : forall subs, same_failure (let* q := call cfg subs p in Ok (Again q)) (let* q := call cfg subs (lift t [] p) in Ok (Again q))).
  { intros subs. unfold call. rewrite lift_stack. destruct (pop_i32 (stack p)) as [[a st]| | |]; cbn [bind]; try reflexivity; try exact I.
    destruct (add_i32 _ _ _); cbn [bind]; try reflexivity; try exact I. destruct (_ || _); [reflexivity|].
    destruct (nth_error _ _); cbn [bind]; [exact I|reflexivity]. }
  destruct o; try discriminate; cbn [execute]; try reflexivity.
  - rewrite lift_local. apply Cl.
  - unfold lift. destruct (callers p) as [|c fs] eqn:Ec; cbn [extend]; [reflexivity|exact I].
  - destruct (unwind (routine p) (callers p)) as [r|k|k|] eqn:U; cbn [bind].
    + destruct (vec_pop _) as [[? ?]|]; [destruct (width _)|]; exact I.
    + apply (unwind_extended t) in U. unfold lift. destruct (extend t [] (routine p) (callers p)) as [a b].
      cbn [routine callers set_frames]. rewrite U. reflexivity.
    + exfalso. clear -U. revert U. generalize (routine p). induction (callers p) as [|c cs IH]; intros r U; cbn in U; [discriminate|].
      destruct (done r); [eauto|discriminate].
    + exact I.
  - rewrite lift_global. apply Cl.
Qed.

Lemma step_final t cfg p : final p (step cfg p) -> same_failure (step cfg p) (step cfg (lift t [] p)).
Proof.
  intros Fi. destruct (step_cases cfg p) as [E|[(e & xs & o & r & X & R)|(k & E)]].
  - rewrite step_empty by auto. exact I.
  - assert (L : step cfg (lift t [] p) = execute cfg o (lift t [] (loaded p xs r))).
    { rewrite (step_code cfg (lift t [] p) e xs o (r ++ tail_of t (callers p))); auto.
      - unfold loaded. rewrite !lift_eq. reflexivity.
      - rewrite lift_routine, R, <- !app_assoc. reflexivity. }
    rewrite (step_code _ _ _ _ _ _ X R) in *. rewrite L. apply execute_final. exact Fi.
  - destruct (callers p) as [|c cs] eqn:Ec; cycle 1.
    { (* in a subroutine the code is the same *)
      assert (Rt : routine (lift t [] p) = routine p) by (rewrite lift_routine, Ec; apply app_nil_r).
      unfold step in *. rewrite Rt. destruct (done (routine p)); [discriminate|].
      rewrite lift_stack. destruct (push_operands _ _ _) as [[[st code] r]|k'| |]; cbn [bind] in *; try exact I; try reflexivity.
      destruct (read_t2_operator code r) as [[o r']|k'| |]; cbn [bind] in *; try exact I; try reflexivity.
      replace (set_stack (set_routine (lift t [] p) r') st) with (lift t [] (set_stack (set_routine p r') st)).
      - apply execute_final. exact Fi.
      - rewrite !lift_eq. cbn [callers routine set_stack set_routine]. rewrite Ec. cbn [tail_of]. rewrite app_nil_r. reflexivity. }
    rewrite E in *. cbn [final same_failure] in *. destruct k; [destruct (Fi Ec)|].
    assert (Rt : routine (lift t [] p) = routine p ++ t) by (rewrite lift_routine, Ec; reflexivity).
    unfold step in E. destruct (done (routine p)) eqn:D; [discriminate|].
    destruct (push_operands _ _ _) as [[[st code] r]|k'| |] eqn:Ep; cbn [bind] in E; try discriminate.
    + apply push_operands_inv in Ep as (e & xs & b & t' & R & X & -> & -> & -> & N).
      destruct (read_t2_operator (bz b) (b :: t')) as [[o r']|k'| |] eqn:Eo; cbn [bind] in E; try discriminate.
      * apply read_t2_operator_sound in Eo. rewrite Eo in R.
        assert (L : step cfg (lift t [] p) = execute cfg o (lift t [] (loaded p xs r'))).
        { rewrite (step_code cfg (lift t [] p) e xs o (r' ++ t)); auto.
          - unfold loaded. rewrite !lift_eq. cbn [callers routine set_stack set_routine]. rewrite Ec. reflexivity.
          - rewrite Rt, R, <- !app_assoc. reflexivity. }
        rewrite L. pose proof (execute_final t cfg o (loaded p xs r')) as F. unfold loaded in *. rewrite E in F. apply F. exact I.
      * injection E as ->. destruct (operator_err _ _ _ N Eo) as [[? _]|(_ & C & _)]; [discriminate|].
        apply step_stops with xs b (t' ++ t); auto.
        -- exists e. rewrite Rt, R, <- app_assoc. auto.
        -- unfold read_t2_operator in *. destruct (Z.eqb_spec (bz b) 12) as [B|B].
           ++ assert (b = x0c) as -> by (apply bz_inj, B). destruct t' as [|c t']; [congruence|]. cbn [app take_u16 bind] in *.
              destruct (t2_operator_from _); cbn [bind] in *; congruence.
           ++ cbn [app take_u8 bind] in *. destruct (t2_operator_from _); cbn [bind] in *; congruence.
    + injection E as ->. apply push_operands_err in Ep as [Ep _]; [discriminate|lia].
Qed.

Lemma lift_new code more g l : lift more [] (new_program code g l) = new_program (code ++ more) g l.
Proof. reflexivity. Qed.

Lemma more_operations cfg code more g l ops q : trace cfg (new_program code g l) ops q ->
  exists q', trace cfg (new_program (code ++ more) g l) ops q' /\ stack q' = stack q /\ stems q' = stems q /\ width q' = width q.
Proof.
  intros T. exists (lift more [] q). rewrite <- lift_new. split; [apply trace_lift; auto|].
  rewrite lift_stack, lift_stems, lift_width. auto.
Qed.

Lemma more_panics cfg code more g l k : runs cfg (new_program code g l) (Panic k) ->
  runs cfg (new_program (code ++ more) g l) (Panic k).
Proof.
  intros H. apply runs_trace_panic in H as (ops & p & T & N). apply nexts_trace_panic in N as (q & T' & H).
  pose proof (trace_app _ _ _ _ _ _ T T') as Tq. apply (trace_lift more []) in Tq. rewrite lift_new in Tq.
  pose proof (step_final more cfg q) as F. rewrite H in F. specialize (F I). cbn in F.
  apply (trace_runs _ _ _ _ Tq). exists (Panic k). split; [|reflexivity]. apply runs_panic. eapply nexts_panic; [exact F|reflexivity].
Qed.

Lemma more_fails cfg code more g l k q : fails_at cfg (new_program code g l) k q -> k = Other \/ callers q <> [] ->
  runs cfg (new_program (code ++ more) g l) (Err k).
Proof.
  intros (ops & T & H) C. apply (trace_lift more []) in T. rewrite lift_new in T.
  pose proof (step_final more cfg q) as F. rewrite H in F. cbn in F. apply runs_trace_err. exists ops, (lift more [] q).
  split; auto. apply F. destruct k; [destruct C; [discriminate|auto]|exact I].
Qed.

Lemma fails_unique cfg p k q k' q' : fails_at cfg p k q -> fails_at cfg p k' q' -> k = k' /\ q = q'.
Proof.
  intros (ops & T & H) (ops' & T' & H'). revert ops' T'.
  induction T as [p|p p' ops q S T IH|p x p' ops q S T IH]; intros ops' T'; inversion T'; subst; try congruence; try (split; congruence).
  - assert (p'0 = p') as -> by congruence. eauto.
  - assert (p'0 = p') as -> by congruence. eauto.
Qed.

(** A continuation for code that is cut short at the outermost level. *)
Lemma step_continues cfg p : callers p = [] -> step cfg p = Err UnexpectedEof ->
  exists more, step cfg (lift more [] p) = Err Other \/
    (exists q, step cfg (lift more [] p) = Ok (Yield None q)) \/
    (exists x q, step cfg (lift more [] p) = Ok (Yield (Some x) q) /\ routine q = []).
Proof.
  intros Ec E. assert (Rt : forall more, routine (lift more [] p) = routine p ++ more) by (intros; rewrite lift_routine, Ec; reflexivity).
  assert (Cs : forall more, callers (lift more [] p) = []) by (intros; rewrite lift_eq, Ec; reflexivity).
  assert (End : forall e xs more, each t2_number e xs -> routine p ++ more = e ++ [x0e] ->
    exists q, step cfg (lift more [] p) = Ok (Yield None q)).
  { intros e xs more X R. rewrite (step_code cfg (lift more [] p) e xs T2_EndChar []); auto; [|rewrite Rt; exact R].
    cbn [execute]. cbn [routine callers loaded set_stack set_routine]. rewrite Cs. cbn [unwind bind]. eauto. }
  unfold step in E. destruct (done (routine p)) eqn:D; [discriminate|].
  destruct (push_operands _ _ _) as [[[st code] r]|k'| |] eqn:Ep; cbn [bind] in E; try discriminate.
  - apply push_operands_inv in Ep as (e & xs & b & t & R & X & -> & -> & -> & N).
    destruct (read_t2_operator (bz b) (b :: t)) as [[o r']|k'| |] eqn:Eo; cbn [bind] in E; try discriminate.
    + apply read_t2_operator_sound in Eo. rewrite Eo in R.
      destruct (mask_operator o) eqn:Em; [|apply execute_kind in E; auto; discriminate].
      assert (Ex : forall p, execute cfg o p = (let* n := add_u64 cfg (stems p) (Z.shiftr (Z.of_nat (length (stack p))) 1) in
        let* m := add_u64 cfg n 7 in
        let* (_, r) := take_vec cfg 1 take_byte (Z.shiftr m 3) (routine p) in
        clear o (alternatives_of o) (set_routine (set_stems p n) r))) by (intros; destruct o; try discriminate; reflexivity).
      rewrite Ex in E. cbn [stems stack routine set_stack set_routine] in E.
      destruct (add_u64 cfg (stems p) _) as [n| | |] eqn:A; cbn [bind] in E; try discriminate; [|destruct (add_u64_kind _ _ _ _ A)].
      destruct (add_u64 cfg n 7) as [m| | |] eqn:B; cbn [bind] in E; try discriminate; [|destruct (add_u64_kind _ _ _ _ B)].
      pose proof (mask_size _ (add_u64_range _ _ _ _ B)) as Sz. set (size := Z.shiftr m 3) in *.
      exists (repeat x00 (Z.to_nat size - length r')). right. right.
      set (more := repeat x00 (Z.to_nat size - length r')).
      rewrite (step_code cfg (lift more [] p) e xs o (r' ++ more)); auto.
      2: { rewrite Rt, R, <- !app_assoc. reflexivity. }
      rewrite Ex. cbn [stems stack routine loaded set_stack set_routine]. rewrite lift_stems, lift_stack, A. cbn [bind]. rewrite B. cbn [bind].
      fold size. rewrite take_vec_byte in * by lia.
      destruct (Z.leb_spec size (Z.of_nat (length r'))) as [L|L].
      { cbn [bind] in E. apply clear_kind in E. discriminate. }
      assert (Lm : length (r' ++ more) = Z.to_nat size) by (unfold more; rewrite app_length, repeat_length; lia).
      destruct (Z.leb_spec size (Z.of_nat (length (r' ++ more)))) as [L'|L']; [|lia].
      rewrite <- Lm, skipn_all. cbn [bind].
      rewrite (clear_ok _ _ _ (stack p ++ xs) [] (alternatives_described o (mask_is _ Em))).
      2: { cbn [stack set_routine set_stems set_stack loaded]. rewrite ?lift_stack. apply longest_mask. exact Em. }
      eexists _, _. split; [reflexivity|]. reflexivity.
    + injection E as ->. destruct (operator_err _ _ _ N Eo) as [[_ C]|(? & _)]; [|discriminate]. injection C as -> ->.
      exists [x02]. left. apply step_stops with xs x0c [x02]; auto.
      exists e. rewrite Rt, R, <- app_assoc. auto.
  - injection E as ->. apply push_operands_err in Ep as (_ & e & xs & t & R & X & C); [|lia].
    destruct C as [->|(T & u & U & [(x & Nx)|(o & Eo)])].
    + exists [x0e]. right. left. apply (End e xs); auto. rewrite R, <- app_assoc. reflexivity.
    + exists (u ++ [x0e]). right. left. apply (End (e ++ t ++ u) (xs ++ [x])).
      * apply each_snoc; auto.
      * rewrite R, <- !app_assoc. reflexivity.
    + apply cut_operator in Eo; auto. subst t.
      exists [x02]. left. apply step_stops with xs x0c [x02]; auto.
      * exists e. rewrite Rt, R, <- app_assoc. auto.
      * unfold t2_first. change (bz x0c) with 12. lia.
Qed.

Lemma continued cfg code g l q : fails_at cfg (new_program code g l) UnexpectedEof q -> callers q = [] ->
  exists more r, runs cfg (new_program (code ++ more) g l) r /\ r <> Err UnexpectedEof.
Proof.
  intros (ops & T & H) C. destruct (step_continues cfg q C H) as (more & X). exists more.
  apply (trace_lift more []) in T. rewrite lift_new in T.
  destruct X as [X|[(q' & X)|(x & q' & X & R)]].
  - exists (Err Other). split; [|discriminate]. apply runs_trace_err. eauto.
  - exists (prefixed ops (Ok ([], q'))). split; [|destruct ops; discriminate]. apply (trace_runs _ _ _ _ T). eexists. split; [|reflexivity].
    apply runs_none. apply (nexts_yield _ _ _ _ _ X). reflexivity.
  - exists (prefixed ops (prefixed [x] (Ok ([], q')))). split; [|discriminate]. apply (trace_runs _ _ _ _ T). eexists. split; [|reflexivity].
    apply (runs_emit _ _ _ _ _ X). eexists. split; [|reflexivity]. apply runs_none.
    apply (nexts_yield _ _ _ _ _ (step_empty cfg q' R)). reflexivity.
Qed.

Lemma more_matters cfg code g l q : fails_at cfg (new_program code g l) UnexpectedEof q ->
  (callers q <> [] <-> forall more, runs cfg (new_program (code ++ more) g l) (Err UnexpectedEof)).
Proof.
  intros F. split.
  - intros C more. eapply more_fails; eauto.
  - intros H C. destruct (continued cfg code g l q F C) as (more & r & R & N). apply N. eapply runs_det; eauto.
Qed.

Lemma more_errors cfg code more g l : runs cfg (new_program code g l) (Err Other) ->
  runs cfg (new_program (code ++ more) g l) (Err Other).
Proof. intros H. apply runs_trace_err in H as (ops & q & T & H). apply (more_fails cfg code more g l Other q); [exists ops|]; auto. Qed.

Lemma more_cut_short cfg code g l : runs cfg (new_program code g l) (Err UnexpectedEof) ->
  exists q, fails_at cfg (new_program code g l) UnexpectedEof q /\
    (callers q <> [] <-> forall more, runs cfg (new_program (code ++ more) g l) (Err UnexpectedEof)).
Proof.
  intros H. apply runs_trace_err in H as (ops & q & T & H). exists q.
  assert (F : fails_at cfg (new_program code g l) UnexpectedEof q) by (exists ops; auto).
  split; auto. apply more_matters. exact F.
Qed.

Lemma next_fails cfg code g l ops p k : Z.of_nat (length g) < 2 ^ 31 -> Z.of_nat (length l) < 2 ^ 31 -> overflow_checks cfg = true ->
  trace cfg (new_program code g l) ops p ->
  (nexts cfg p (Err k) <-> exists q, trace cfg p [] q /\ match k with UnexpectedEof => cut_short q | Other => malformed q end).
Proof.
  intros Lg Ll O T.
  assert (X : forall q, trace cfg p [] q ->
    step cfg q = Err k <-> match k with UnexpectedEof => cut_short q | Other => malformed q end).
  { intros q Tq. pose proof (trace_app _ _ _ _ _ _ T Tq) as T'. pose proof (trace_subs _ _ _ _ T') as [Gq Lq]. apply step_fails; auto.
    - apply (trace_valid _ _ _ _ T' (new_valid _ _ _)).
    - apply (trace_possible _ _ _ _ T' (new_possible _ _ _)).
    - rewrite Lq. exact Ll.
    - rewrite Gq. exact Lg. }
  split.
  - intros H. apply nexts_trace_err in H as (q & Tq & H). exists q. split; auto. apply (X q Tq). exact H.
  - intros (q & Tq & H). apply (trace_nexts cfg p q _ Tq). eapply nexts_err; [apply (X q Tq), H|reflexivity].
Qed.

Lemma run_fails_unchecked cfg code g l k : Z.of_nat (length g) < 2 ^ 31 -> Z.of_nat (length l) < 2 ^ 31 ->
  runs cfg (new_program code g l) (Err k) ->
  (exists ops q, trace dev_profile (new_program code g l) ops q /\
     match k with UnexpectedEof => cut_short q | Other => malformed q end) \/
  (exists k', runs dev_profile (new_program code g l) (Panic k')).
Proof.
  intros Lg Ll H. destruct (profiles_or_panic dev_profile cfg _ _ eq_refl H) as [R|R]; auto. left.
  apply run_fails; auto.
Qed.

(** WordRunFacts: execution where a [usize] has 32 bits. *)
From Verif Require Import Base Float T2Number T2Operation T2Program C1Word T2Word SpecProgram BaseFacts StepFacts ClearFacts ExecutionFacts
  SubroutineFacts ProgramFacts ListingFacts LimitFacts ReferenceFacts WordFacts.
Local Open Scope list_scope.
Local Open Scope Z_scope.

(** ** 64 bits are what the other files assume *)

Lemma wide_execute cfg o p : word_execute 64 cfg o p = execute cfg o p.
Proof. destruct o; reflexivity. Qed.

Lemma wide_step cfg p : word_step 64 cfg p = step cfg p.
Proof.
  unfold word_step, step. destruct (done _); [reflexivity|].
  destruct (push_operands _ _ _) as [[[st code] r]| | |]; cbn [bind]; [|reflexivity..].
  destruct (read_t2_operator _ _) as [[o r']| | |]; cbn [bind]; [|reflexivity..]. apply wide_execute.
Qed.

Lemma wide_next cfg fuel : forall p, word_next 64 cfg fuel p = next cfg fuel p.
Proof.
  induction fuel as [|fuel IH]; intros p; [reflexivity|]. cbn [word_next next]. rewrite wide_step.
  destruct (step cfg p) as [[x q|q]| | |]; cbn [bind]; try reflexivity. apply IH.
Qed.

Lemma wide_run cfg fuel : forall p, word_run 64 cfg fuel p = run cfg fuel p.
Proof.
  induction fuel as [|fuel IH]; intros p; [reflexivity|]. cbn [word_run run]. rewrite wide_next.
  destruct (next cfg (S fuel) p) as [[[x|] q]| | |]; cbn [bind]; try reflexivity. rewrite IH. reflexivity.
Qed.

(** ** 32 bits *)

Definition pairs (st : list f32) : Z := Z.shiftr (Z.of_nat (length st)) 1.

Lemma pairs_half st : 0 <= pairs st /\ 2 * pairs st <= Z.of_nat (length st).
Proof.
  unfold pairs. rewrite Z.shiftr_div_pow2 by lia. change (2 ^ 1) with 2.
  pose proof (Z.mul_div_le (Z.of_nat (length st)) 2 ltac:(lia)). pose proof (Z.div_pos (Z.of_nat (length st)) 2 ltac:(lia) ltac:(lia)). lia.
Qed.

Lemma word_of_small cfg z : 0 <= z < 2 ^ 32 -> word_of 32 cfg z = Ok z.
Proof.
  intros H. unfold word_of. assert (E : (0 <=? z) && (z <? 2 ^ 32) = true).
  { apply andb_true_iff. split; [apply Z.leb_le|apply Z.ltb_lt]; lia. }
  rewrite E. reflexivity.
Qed.

Lemma eighth m : 0 <= m < 2 ^ 32 -> Z.shiftr m 3 < 2 ^ 29.
Proof. intros H. rewrite Z.shiftr_div_pow2 by lia. change (2 ^ 3) with 8. apply Z.div_lt_upper_bound; lia. Qed.

(** While the counter stays low nothing can be noticed. *)
Lemma low_execute cfg o p : 0 <= stems p -> stems p + pairs (stack p) + 7 < 2 ^ 32 -> word_execute 32 cfg o p = execute cfg o p.
Proof.
  intros S0 B. destruct (pairs_half (stack p)) as [P _].
  assert (H1 : word_add 32 cfg (stems p) (pairs (stack p)) = add_u64 cfg (stems p) (pairs (stack p))).
  { rewrite add_u64_small by lia. apply word_of_small. lia. }
  assert (H2 : add_u64 cfg (stems p) (pairs (stack p)) = Ok (stems p + pairs (stack p))) by (apply add_u64_small; lia).
  destruct o; try reflexivity; cbn [word_execute execute]; fold (pairs (stack p)); rewrite H1, H2; cbn [bind]; try reflexivity.
  all: unfold word_add; rewrite word_of_small by lia; rewrite add_u64_small by lia; cbn [bind].
  all: rewrite few_vec by (try lia; apply eighth; lia); reflexivity.
Qed.

Lemma low_step cfg p : 0 <= stems p ->
  (forall st, 2 * pairs st <= Z.of_nat (length (stack p)) + Z.of_nat (length (routine p)) -> stems p + pairs st + 7 < 2 ^ 32) ->
  word_step 32 cfg p = step cfg p.
Proof.
  intros S0 B. unfold word_step, step. destruct (done _); [reflexivity|].
  destruct (push_operands _ _ _) as [[[st code] r]| | |] eqn:E; cbn [bind]; [|reflexivity..].
  destruct (read_t2_operator _ _) as [[o r']| | |]; cbn [bind]; [|reflexivity..].
  apply low_execute; cbn [set_stack set_routine stems stack]; [exact S0|]. apply B.
  enough (H : (length st <= length (stack p) + length (routine p))%nat) by (pose proof (pairs_half st); lia).
  clear B. revert E. generalize (S (length (routine p))). generalize (stack p), (routine p). clear.
  intros st0 s n. revert st0 s. induction n as [|n IH]; intros st0 s E; [discriminate|].
  cbn [push_operands] in E. inv_ok E. destruct (t2_starts_operand a).
  - inv_ok E. destruct a0 as [x r0]. apply read_operand_shorter in H0. apply IH in E. unfold push in E. rewrite app_length in E. cbn in E. lia.
  - injection E as <- <- <-. lia.
Qed.

(** Without subroutines the length of the code keeps it low. *)
Lemma plain_next cfg fuel : forall p, callers p = [] -> local p = [] -> global p = [] -> 0 <= stems p ->
  2 * stems p + Z.of_nat (length (stack p)) + Z.of_nat (length (routine p)) < 2 ^ 32 ->
  word_next 32 cfg fuel p = next cfg fuel p /\
  forall x q, next cfg fuel p = Ok (Some x, q) -> callers q = [] /\ local q = [] /\ global q = [] /\ 0 <= stems q /\
    2 * stems q + Z.of_nat (length (stack q)) + Z.of_nat (length (routine q)) < 2 ^ 32.
Proof.
  induction fuel as [|fuel IH]; intros p C L G S0 B; [split; [reflexivity|discriminate]|].
  cbn [word_next next]. rewrite low_step; [|exact S0|intros st H; pose proof (pairs_half st); lia].
  destruct (step cfg p) as [s| | |] eqn:E; cbn [bind]; try (split; [reflexivity|discriminate]).
  pose proof (step_bounded cfg p s C L G S0 ltac:(lia) E) as K.
  destruct s as [[x|] q|q].
  - split; [reflexivity|]. intros x' q' H. injection H as <- <-. destruct K as (K1 & K2 & K3 & K4 & K5). repeat split; auto; lia.
  - split; [reflexivity|discriminate].
  - destruct K as (K1 & K2 & K3 & K4 & K5). apply IH; auto. lia.
Qed.

Lemma plain_run cfg fuel : forall p, callers p = [] -> local p = [] -> global p = [] -> 0 <= stems p ->
  2 * stems p + Z.of_nat (length (stack p)) + Z.of_nat (length (routine p)) < 2 ^ 32 ->
  word_run 32 cfg fuel p = run cfg fuel p.
Proof.
  induction fuel as [|fuel IH]; intros p C L G S0 B; [reflexivity|].
  destruct (plain_next cfg (S fuel) p C L G S0 B) as [E K]. cbn [word_run run]. rewrite E.
  destruct (next cfg (S fuel) p) as [[[x|] q]| | |] eqn:N; cbn [bind]; try reflexivity.
  destruct (K x q eq_refl) as (K1 & K2 & K3 & K4 & K5). rewrite IH; auto.
Qed.

Lemma plain_code cfg fuel code : Z.of_nat (length code) < 2 ^ 32 ->
  word_run 32 cfg fuel (new_program code [] []) = run cfg fuel (new_program code [] []).
Proof. intros H. apply plain_run; auto; cbn [new_program stems stack routine length]; lia. Qed.

(** ** Checked builds *)

Definition counter (s : stepped) : Z := match s with Yield _ p | Again p => stems p end.

Lemma checked_add cfg a b : overflow_checks cfg = true -> 0 <= a < 2 ^ 32 -> 0 <= b ->
  word_add 32 cfg a b = Panic ArithmeticOverflow \/
  (a + b < 2 ^ 32 /\ word_add 32 cfg a b = Ok (a + b) /\ add_u64 cfg a b = Ok (a + b)).
Proof.
  intros C A B. destruct (Z.ltb_spec (a + b) (2 ^ 32)) as [H|H].
  - right. split; [exact H|]. split; [apply word_of_small; lia|apply add_u64_small; lia].
  - left. unfold word_add, word_of. assert (E : a + b <? 2 ^ 32 = false) by (apply Z.ltb_ge; lia).
    rewrite E, andb_false_r, C. reflexivity.
Qed.

Lemma counter_same cfg o p s : stem_operator o = false -> mask_operator o = false -> execute cfg o p = Ok s -> counter s = stems p.
Proof.
  intros St Ms. destruct s as [[x|] q|q]; intros E; cbn [counter].
    - destruct (path_operator o) eqn:Ep.
      + rewrite execute_path in E by auto. apply clear_stems in E as [-> _]. reflexivity.
      + pose proof (execute_yields _ _ _ _ _ E) as (Q & _). unfold path_or_hint in Q. rewrite Ep, St, Ms in Q. discriminate.
    - destruct o; cbn [execute] in E;
        try (apply clear_stems in E as (_ & ops & E); discriminate);
        try (unfold with_stack in E; inv_ok E; discriminate);
        try (inv_ok E; discriminate); try discriminate.
      + destruct (callers p); discriminate.
      + inv_ok E. injection E as <-. reflexivity.
    - apply execute_again_stems in E. exact E.
Qed.

Lemma checked_execute cfg o p : overflow_checks cfg = true -> 0 <= stems p < 2 ^ 32 ->
  word_execute 32 cfg o p = Panic ArithmeticOverflow \/
  (word_execute 32 cfg o p = execute cfg o p /\ forall s, execute cfg o p = Ok s -> 0 <= counter s < 2 ^ 32).
Proof.
  intros C B. destruct (pairs_half (stack p)) as [P _].
  destruct (stem_operator o) eqn:St; [|destruct (mask_operator o) eqn:Ms].
  - destruct (checked_add cfg (stems p) (pairs (stack p)) C B P) as [E|(H & E1 & E2)].
    + left. destruct o; try discriminate; cbn [word_execute]; fold (pairs (stack p)); rewrite E; reflexivity.
    + right. split.
      * destruct o; try discriminate; cbn [word_execute execute]; fold (pairs (stack p)); rewrite E1, E2; reflexivity.
      * intros s Es. destruct o; try discriminate; cbn [execute] in Es; fold (pairs (stack p)) in Es; rewrite E2 in Es;
          cbn [bind] in Es; destruct s as [x q|q];
          try (unfold clear in Es; destruct (fold_left _ _ _); [inv_ok Es|]; discriminate);
          apply clear_stems in Es as [Es _]; cbn [counter]; rewrite Es; cbn [set_stems stems]; lia.
  - destruct (checked_add cfg (stems p) (pairs (stack p)) C B P) as [E|(H & E1 & E2)].
    + left. destruct o; try discriminate; cbn [word_execute]; fold (pairs (stack p)); rewrite E; reflexivity.
    + destruct (checked_add cfg (stems p + pairs (stack p)) 7 C ltac:(lia) ltac:(lia)) as [E|(H' & E3 & E4)].
      * left. destruct o; try discriminate; cbn [word_execute]; fold (pairs (stack p)); rewrite E1; cbn [bind]; rewrite E; reflexivity.
      * right. split.
        -- destruct o; try discriminate; cbn [word_execute execute]; fold (pairs (stack p)); rewrite E1, E2; cbn [bind];
             rewrite E3, E4; cbn [bind]; rewrite few_vec by (try lia; apply eighth; lia); reflexivity.
        -- intros s Es. destruct o; try discriminate; cbn [execute] in Es; fold (pairs (stack p)) in Es; rewrite E2 in Es;
             cbn [bind] in Es; rewrite E4 in Es; cbn [bind] in Es; inv_ok Es; destruct a as [bs r]; destruct s as [x q|q];
             try (unfold clear in Es; destruct (fold_left _ _ _); [inv_ok Es|]; discriminate);
             apply clear_stems in Es as [Es _]; cbn [counter]; rewrite Es; cbn [set_routine set_stems stems]; lia.
  - right. split; [destruct o; try discriminate; reflexivity|]. intros s E. rewrite (counter_same cfg o p s St Ms E). exact B.
Qed.

Lemma checked_step cfg p : overflow_checks cfg = true -> 0 <= stems p < 2 ^ 32 ->
  word_step 32 cfg p = Panic ArithmeticOverflow \/
  (word_step 32 cfg p = step cfg p /\ forall s, step cfg p = Ok s -> 0 <= counter s < 2 ^ 32).
Proof.
  intros C B. unfold word_step, step. destruct (done _).
  { right. split; [reflexivity|]. intros s E. injection E as <-. exact B. }
  destruct (push_operands _ _ _) as [[[st code] r]| | |]; cbn [bind]; [|right; split; [reflexivity|discriminate]..].
  destruct (read_t2_operator _ _) as [[o r']| | |]; cbn [bind]; [|right; split; [reflexivity|discriminate]..].
  apply checked_execute; auto.
Qed.

Lemma checked_next cfg fuel : overflow_checks cfg = true -> forall p, 0 <= stems p < 2 ^ 32 ->
  word_next 32 cfg fuel p = Panic ArithmeticOverflow \/
  (word_next 32 cfg fuel p = next cfg fuel p /\ forall x q, next cfg fuel p = Ok (x, q) -> 0 <= stems q < 2 ^ 32).
Proof.
  intros C. induction fuel as [|fuel IH]; intros p B; [right; split; [reflexivity|discriminate]|].
  cbn [word_next next]. destruct (checked_step cfg p C B) as [->|[-> K]]; [left; reflexivity|].
  destruct (step cfg p) as [s| | |]; cbn [bind]; [|right; split; [reflexivity|discriminate]..].
  specialize (K s eq_refl). destruct s as [x q|q]; cbn [counter] in K.
  - right. split; [reflexivity|]. intros x' q' E. injection E as <- <-. exact K.
  - apply IH. exact K.
Qed.

Lemma checked_run cfg fuel : overflow_checks cfg = true -> forall p, 0 <= stems p < 2 ^ 32 ->
  word_run 32 cfg fuel p = Panic ArithmeticOverflow \/
  (word_run 32 cfg fuel p = run cfg fuel p /\ forall ops q, run cfg fuel p = Ok (ops, q) -> 0 <= stems q < 2 ^ 32).
Proof.
  intros C. induction fuel as [|fuel IH]; intros p B; [right; split; [reflexivity|discriminate]|].
  cbn [word_run run]. destruct (checked_next cfg (S fuel) C p B) as [->|[-> K]]; [left; reflexivity|].
  destruct (next cfg (S fuel) p) as [[[x|] q]| | |]; cbn [bind]; try (right; split; [reflexivity|discriminate]).
  - specialize (K _ _ eq_refl). destruct (IH q K) as [->|[-> K']]; [left; reflexivity|].
    destruct (run cfg fuel q) as [[ops q']| | |]; cbn [bind]; [|right; split; [reflexivity|discriminate]..].
    right. split; [reflexivity|]. intros ops' q'' E. injection E as <- <-. eauto.
  - right. split; [reflexivity|]. intros ops q' E. injection E as <- <-. eauto.
Qed.

Lemma checked_code cfg fuel code g l : overflow_checks cfg = true ->
  word_run 32 cfg fuel (new_program code g l) = run cfg fuel (new_program code g l) \/
  word_run 32 cfg fuel (new_program code g l) = Panic ArithmeticOverflow.
Proof.
  intros C. destruct (checked_run cfg fuel C (new_program code g l)) as [E|[E _]]; auto. cbn. lia.
Qed.

(** ** All builds, if a checked one with 64 bits succeeds and the counter stays low *)

Lemma counter_adds cfg o p s : overflow_checks cfg = true -> 0 <= stems p -> stem_operator o = true \/ mask_operator o = true ->
  execute cfg o p = Ok s -> counter s = stems p + pairs (stack p).
Proof.
  intros C S0 O E. destruct (pairs_half (stack p)) as [P _]. destruct s as [x q|q].
  - assert (H : exists n r, add_u64 cfg (stems p) (pairs (stack p)) = Ok n /\ exists l, clear o l (set_routine (set_stems p n) r) = Ok (Yield x q)).
    { destruct o; try (destruct O; discriminate); cbn [execute] in E; fold (pairs (stack p)) in E; inv_ok E.
      all: first [exists a, (routine p); split; [exact H|eexists; exact E]
        |inv_ok E; inv_ok E; destruct a1 as [bs r]; exists a, r; split; [exact H|eexists; exact E]]. }
    destruct H as (n & r & A & l & H). destruct (add_u64_inv [] [] cfg _ _ n C S0 P A) as [-> _].
    apply clear_stems in H as [H _]. exact H.
  - exfalso. destruct o; try (destruct O; discriminate); cbn [execute] in E; inv_ok E;
      try (inv_ok E; inv_ok E; destruct a1 as [bs r]); unfold clear in E; destruct (fold_left _ _ _); try discriminate; inv_ok E; discriminate.
Qed.

Lemma within_step cfg cfg' p s : overflow_checks cfg = true -> 0 <= stems p -> step cfg p = Ok s ->
  stems p <= counter s /\ (counter s + 7 < 2 ^ 32 -> word_step 32 cfg' p = Ok s).
Proof.
  intros C S0 E. pose proof (agree_step cfg cfg' C p) as A. unfold agree in A. rewrite E in A. specialize (A I).
  unfold word_step. unfold step in E, A. destruct (done _).
  { injection E as <-. cbn [counter]. split; [lia|reflexivity]. }
  destruct (push_operands _ _ _) as [[[st code] r]| | |]; cbn [bind] in E, A |- *; try discriminate.
  destruct (read_t2_operator _ _) as [[o r']| | |]; cbn [bind] in E, A |- *; try discriminate.
  set (p1 := set_stack (set_routine p r') st) in *. change (stems p) with (stems p1) in *. clearbody p1.
  destruct (pairs_half (stack p1)) as [P _].
  destruct (stem_operator o || mask_operator o)%bool eqn:O.
  - apply orb_true_iff in O. pose proof (counter_adds cfg o p1 s C S0 O E) as K. split; [lia|]. intros B.
    rewrite low_execute by lia. exact A.
  - apply orb_false_iff in O as [St Ms]. pose proof (counter_same cfg o p1 s St Ms E) as K. split; [lia|]. intros _.
    rewrite <- A. destruct o; try discriminate; reflexivity.
Qed.

Lemma within_next cfg cfg' fuel : overflow_checks cfg = true -> forall p x q, 0 <= stems p -> next cfg fuel p = Ok (x, q) ->
  stems p <= stems q /\ (stems q + 7 < 2 ^ 32 -> word_next 32 cfg' fuel p = Ok (x, q)).
Proof.
  intros C. induction fuel as [|fuel IH]; intros p x q S0 E; [discriminate|]. cbn [next] in E. inv_ok E.
  destruct (within_step cfg cfg' p a C S0 H) as [M K]. cbn [word_next]. destruct a as [y p'|p']; cbn [counter] in *.
  - injection E as <- <-. split; [exact M|]. intros B. rewrite K by exact B. reflexivity.
  - apply IH in E as [M' K']; [|lia]. split; [lia|]. intros B. rewrite K by lia. apply K'. exact B.
Qed.

Lemma within_run cfg cfg' fuel : overflow_checks cfg = true -> forall p ops q, 0 <= stems p -> run cfg fuel p = Ok (ops, q) ->
  stems p <= stems q /\ (stems q + 7 < 2 ^ 32 -> word_run 32 cfg' fuel p = Ok (ops, q)).
Proof.
  intros C. induction fuel as [|fuel IH]; intros p ops q S0 E; [discriminate|]. cbn [run] in E. inv_ok E. destruct a as [x p'].
  destruct (within_next cfg cfg' (S fuel) C p x p' S0 H) as [M K]. cbn [word_run]. destruct x as [x|].
  - inv_ok E. destruct a as [ops' q']. injection E as <- <-. apply IH in H0 as [M' K']; [|lia].
    split; [lia|]. intros B. rewrite K by lia. cbn [bind]. rewrite K' by exact B. reflexivity.
  - injection E as <- <-. split; [exact M|]. intros B. rewrite K by exact B. reflexivity.
Qed.

Lemma within_code cfg cfg' fuel code g l ops q : overflow_checks cfg = true ->
  run cfg fuel (new_program code g l) = Ok (ops, q) -> stems q + 7 < 2 ^ 32 ->
  word_run 32 cfg' fuel (new_program code g l) = Ok (ops, q).
Proof. intros C E B. apply (within_run cfg cfg' fuel C) in E as [_ K]; [exact (K B)|cbn; lia]. Qed.

Lemma word_plain cfg fuel code : Z.of_nat (length code) < 2 ^ 32 ->
  word_run 32 cfg fuel (new_program code [] []) = word_run 64 cfg fuel (new_program code [] []).
Proof. rewrite wide_run. apply plain_code. Qed.

Lemma word_within cfg cfg' fuel code g l ops q : overflow_checks cfg = true ->
  word_run 64 cfg fuel (new_program code g l) = Ok (ops, q) -> stems q + 7 < 2 ^ 32 ->
  word_run 32 cfg' fuel (new_program code g l) = Ok (ops, q).
Proof. rewrite wide_run. apply within_code. Qed.

Lemma word_checked cfg fuel code g l : overflow_checks cfg = true ->
  word_run 32 cfg fuel (new_program code g l) = word_run 64 cfg fuel (new_program code g l) \/
  word_run 32 cfg fuel (new_program code g l) = Panic ArithmeticOverflow.
Proof. rewrite wide_run. apply checked_code. Qed.

(** ** All builds and both widths, if a checked build with 32 bits does not panic *)

Section Narrow.
  Context (cfg cfg' : config) (O : overflow_checks cfg = true).

  Lemma narrow_add a b : agree (word_add 32 cfg a b) (word_add 32 cfg' a b).
  Proof. unfold agree, word_add, word_of. destruct (_ && _)%bool; [reflexivity|]. rewrite O. intros []. Qed.

  Lemma narrow_add_range a b n : word_add 32 cfg a b = Ok n -> 0 <= n < 2 ^ 32.
  Proof.
    unfold word_add, word_of. destruct ((0 <=? a + b) && (a + b <? 2 ^ 32))%bool eqn:E; [|rewrite O; discriminate].
    intros H. injection H as <-. apply andb_true_iff in E as [E1 E2]. apply Z.leb_le in E1. apply Z.ltb_lt in E2. lia.
  Qed.

  Lemma narrow_mask m s : 0 <= m < 2 ^ 32 ->
    agree (word_vec 32 cfg 1 take_byte (Z.shiftr m 3) s) (word_vec 32 cfg' 1 take_byte (Z.shiftr m 3) s).
  Proof. intros H. rewrite !few_vec by (try lia; apply eighth; lia). apply agree_mask. lia. Qed.

  Lemma narrow_execute o p : agree (word_execute 32 cfg o p) (word_execute 32 cfg' o p).
  Proof.
    destruct o; cbn [word_execute]; try (apply agree_execute; exact O).
    all: apply agree_bind; [apply narrow_add|]; intros n Hn; try apply agree_refl.
    all: apply agree_bind; [apply narrow_add|]; intros m Hm.
    all: apply agree_bind; [apply narrow_mask; eapply narrow_add_range; eauto|]; intros [bs r] _; apply agree_refl.
  Qed.

  Lemma narrow_step p : agree (word_step 32 cfg p) (word_step 32 cfg' p).
  Proof.
    unfold word_step. destruct (done (routine p)); [apply agree_refl|].
    apply agree_bind; [apply agree_refl|]. intros [[st code] r] _. apply agree_bind; [apply agree_refl|].
    intros [o r'] _. apply narrow_execute.
  Qed.

  Lemma narrow_next f : forall p, agree (word_next 32 cfg f p) (word_next 32 cfg' f p).
  Proof.
    induction f as [|f IH]; intros p; [apply agree_refl|]. cbn [word_next]. apply agree_bind; [apply narrow_step|].
    intros [x q|q] _; [apply agree_refl|apply IH].
  Qed.

  Lemma narrow_run f : forall p, agree (word_run 32 cfg f p) (word_run 32 cfg' f p).
  Proof.
    induction f as [|f IH]; intros p; [apply agree_refl|]. cbn [word_run]. apply agree_bind; [apply narrow_next|].
    intros [[x|] q] _; [|apply agree_refl]. apply agree_bind; [apply IH|]. intros [ops q'] _. apply agree_refl.
  Qed.
End Narrow.

Lemma word_quiet cfg cfg' fuel code g l r : overflow_checks cfg = true ->
  word_run 32 cfg fuel (new_program code g l) = r -> (forall k, r <> Panic k) ->
  word_run 32 cfg' fuel (new_program code g l) = r /\ word_run 64 cfg' fuel (new_program code g l) = r.
Proof.
  intros C E N. assert (Q : quiet r) by (destruct r as [a|e|k|]; cbn [quiet]; auto; destruct (N k); reflexivity). split.
  - rewrite <- E in Q |- *. apply (narrow_run cfg cfg' C). exact Q.
  - rewrite wide_run. destruct (checked_code cfg fuel code g l C) as [F|F]; [|rewrite F in E; subst r; destruct Q].
    rewrite F in E. rewrite <- E in Q |- *. apply (agree_run cfg cfg' C). exact Q.
Qed.

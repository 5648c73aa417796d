(** LimitFacts: the limits that the format sets for programs. *)
From Verif Require Import Base Float T2Operation T2Program BaseFacts SpecProgram SpecSize T2NumberFacts StepFacts ClearFacts
  RunFacts StackFacts EvalFacts ExecutionFacts SubroutineFacts ProgramFacts ListingFacts SizeFacts ReferenceFacts.
Local Open Scope list_scope.
Local Open Scope nat_scope.

Lemma small_numbers b n : (32 <= bz b <= 246)%Z ->
  each t2_number (repeat b n) (repeat (f32_of_i32 (bz b - 139)) n).
Proof.
  intros H. induction n as [|n IH]; [constructor|]. apply (each_cons t2_number [b]); [|exact IH].
  apply number_of_byte, H.
Qed.

(** Many numbers, [abs] and [endchar]. *)
Lemma stack_grows cfg n : exists code ops q q', trace cfg (new_program code [] []) [] q /\ n < length (stack q) /\
  runs cfg (new_program code [] []) (Ok (ops, q')).
Proof.
  assert (E : step cfg (new_program (repeat x8b (S n) ++ t2_bytes T2_Abs ++ t2_bytes T2_EndChar) [] []) =
    Ok (Again (set_stack (new_program (t2_bytes T2_EndChar) [] []) (repeat (f32_of_i32 0) n ++ [f32_abs (f32_of_i32 0)])))).
  { rewrite (step_code cfg _ (repeat x8b (S n)) (repeat (f32_of_i32 0) (S n)) T2_Abs (t2_bytes T2_EndChar)).
    - rewrite execute_stack by reflexivity. cbn [loaded set_stack set_routine stack new_program].
      rewrite app_nil_l. cbn [repeat]. rewrite (repeat_cons n (f32_of_i32 0)), effect_abs. reflexivity.
    - apply (small_numbers x8b). cbn; lia.
    - reflexivity. }
  eexists _, [], _, _. split; [eapply trace_again; [exact E|constructor]|]. split.
  - cbn [set_stack stack]. rewrite app_length, repeat_length. cbn. lia.
  - eapply trace_finishes; [eapply trace_again; [exact E|constructor]|].
    apply (step_endchar cfg _ [] [] []); [reflexivity|constructor|reflexivity].
Qed.

(** The addresses of the subroutines to be called are all on the stack: the first subroutine calls another. *)
Definition passing : list (list byte) := [t2_bytes T2_CallSubr ++ t2_bytes T2_Return; t2_bytes T2_Return].

Lemma passing_calls cfg n : forall p r, local p = passing -> routine p = t2_bytes T2_CallSubr ++ r ->
  stack p = f32_of_i32 (-106) :: repeat (f32_of_i32 (-107)) n ->
  exists q, trace cfg p [] q /\ local q = passing /\ routine q = t2_bytes T2_Return /\ stack q = [] /\
    callers q = repeat (t2_bytes T2_Return) n ++ r :: callers p.
Proof.
  induction n as [|n IH]; intros p r L R St.
  - assert (E : step cfg p = Ok (Again (set_frames (set_stack p []) (t2_bytes T2_Return) (r :: callers p)))).
    { apply (call_transfers cfg p T2_CallSubr passing [] [] r [] (f32_of_i32 (-106))).
      - left. auto.
      - cbn. lia.
      - exact R.
      - constructor.
      - rewrite St. reflexivity.
      - exists (-106)%Z, 107%Z. split; [apply integral_of_i32; lia|]. split; [left; cbn; lia|]. split; [lia|reflexivity]. }
    eexists. split; [eapply trace_again; [exact E|constructor]|]. repeat split. exact L.
  - assert (E : step cfg p = Ok (Again (set_frames (set_stack p (f32_of_i32 (-106) :: repeat (f32_of_i32 (-107)) n))
      (t2_bytes T2_CallSubr ++ t2_bytes T2_Return) (r :: callers p)))).
    { apply (call_transfers cfg p T2_CallSubr passing [] [] r _ (f32_of_i32 (-107))).
      - left. auto.
      - cbn. lia.
      - exact R.
      - constructor.
      - rewrite St, app_nil_r, <- (Nat.add_1_r n), repeat_app. reflexivity.
      - exists (-107)%Z, 107%Z. split; [apply integral_of_i32; lia|]. split; [left; cbn; lia|]. split; [lia|reflexivity]. }
    set (p1 := set_frames _ _ _) in E. destruct (IH p1 (t2_bytes T2_Return) L eq_refl eq_refl) as (q & T & Lq & Rq & Sq & Cq).
    exists q. split; [eapply trace_again; eauto|]. repeat split; auto.
    rewrite Cq. cbn [p1 set_frames callers set_stack]. rewrite <- (Nat.add_1_r n), repeat_app, <- app_assoc. reflexivity.
Qed.

Lemma passing_returns cfg n : forall p r, routine p = t2_bytes T2_Return -> callers p = repeat (t2_bytes T2_Return) n ++ [r] ->
  exists q, trace cfg p [] q /\ routine q = r /\ callers q = [].
Proof.
  induction n as [|n IH]; intros p r R C; cbn [repeat app] in C.
  - eexists. split.
    { eapply trace_again; [|constructor]. rewrite (step_code cfg p [] [] T2_Return []) by (constructor || exact R).
      cbn [execute loaded set_stack set_routine callers]. rewrite C. reflexivity. }
    split; reflexivity.
  - assert (E : step cfg p = Ok (Again (set_frames (loaded p [] []) (t2_bytes T2_Return) (repeat (t2_bytes T2_Return) n ++ [r])))).
    { rewrite (step_code cfg p [] [] T2_Return []) by (constructor || exact R).
      cbn [execute]. unfold loaded at 1. cbn [set_stack set_routine callers]. rewrite C. reflexivity. }
    destruct (IH _ r (eq_refl : routine (set_frames (loaded p [] []) (t2_bytes T2_Return) (repeat (t2_bytes T2_Return) n ++ [r])) = _) eq_refl)
      as (q & T & Rq & Cq).
    exists q. split; [eapply trace_again; eauto|]. auto.
Qed.

Lemma depth_grows cfg n : exists code l ops q q', trace cfg (new_program code [] l) [] q /\ n < length (callers q) /\
  runs cfg (new_program code [] l) (Ok (ops, q')).
Proof.
  set (e := x21 :: repeat x20 n). set (xs := f32_of_i32 (-106) :: repeat (f32_of_i32 (-107)) n).
  set (r := t2_bytes T2_EndChar).
  assert (E : each t2_number e xs).
  { apply (each_cons t2_number [x21]); [apply (number_of_byte x21); cbn; lia|]. apply (small_numbers x20). cbn; lia. }
  set (p := new_program (e ++ t2_bytes T2_CallSubr ++ r) [] passing).
  assert (S : step cfg p = step cfg (loaded p xs (t2_bytes T2_CallSubr ++ r))).
  { rewrite (step_code cfg p e xs T2_CallSubr r E eq_refl).
    rewrite (step_code cfg (loaded p xs (t2_bytes T2_CallSubr ++ r)) [] [] T2_CallSubr r) by (constructor || reflexivity).
    f_equal. unfold loaded. cbn. rewrite app_nil_r. reflexivity. }
  destruct (passing_calls cfg n (loaded p xs (t2_bytes T2_CallSubr ++ r)) r eq_refl eq_refl eq_refl) as (q & T & Lq & Rq & Sq & Cq).
  assert (Cq' : callers q = repeat (t2_bytes T2_Return) n ++ [r]) by exact Cq.
  destruct (passing_returns cfg n q r Rq Cq') as (q2 & T2 & R2 & C2).
  assert (Tp : trace cfg p [] q).
  { inversion T as [p0 E0|p0 p1 ops0 q0 H T'|]; subst.
    - exfalso. apply (f_equal (@length _)) in Cq'. cbn in Cq'. rewrite app_length in Cq'. cbn in Cq'. lia.
    - eapply trace_again; [rewrite S; exact H|exact T']. }
  eexists _, _, [], q, _. split; [exact Tp|]. split.
  - rewrite Cq', app_length, repeat_length. cbn. lia.
  - eapply trace_finishes; [change (@nil t2_operation) with (@nil t2_operation ++ []); eapply trace_app; [exact Tp|exact T2]|].
    apply (step_endchar cfg _ [] [] []); [exact C2|constructor|rewrite R2; reflexivity].
Qed.

(** One operator declares them all. *)
Lemma stems_grow cfg n : (Z.of_nat n < 2 ^ 63)%Z -> exists code ops q,
  runs cfg (new_program code [] []) (Ok (ops, q)) /\ (Z.of_nat n < stems q)%Z.
Proof.
  intros Hn. set (m := 2 * S n).
  assert (D : declared T2_HStem m = Z.of_nat (S n)).
  { unfold declared. cbn [stem_operator orb]. unfold m. rewrite Nat2Z.inj_mul, Z.mul_comm. apply Z.div_mul. lia. }
  set (p := new_program (repeat x8b m ++ t2_bytes T2_HStem ++ t2_bytes T2_EndChar) [] []).
  set (xs := repeat (f32_of_i32 0) m).
  assert (E : each t2_number (repeat x8b m) xs) by (apply (small_numbers x8b); cbn; lia).
  assert (L : longest T2_HStem xs [] xs).
  { split; [reflexivity|]. split.
    - cbn. unfold xs. rewrite repeat_length. unfold m. exists n. lia.
    - intros k _ Hk. exact Hk. }
  assert (S1 : step cfg p = Ok (Yield (Some (T2_HStem, xs)) (cleared (loaded p xs (t2_bytes T2_EndChar))
    (stems p + declared T2_HStem m) [] (t2_bytes T2_EndChar)))).
  { rewrite (step_code cfg p _ _ T2_HStem (t2_bytes T2_EndChar) E eq_refl).
    assert (Lm : length (stack (loaded p xs (t2_bytes T2_EndChar))) = m) by exact (repeat_length _ _).
    rewrite <- Lm. apply (execute_clears cfg T2_HStem (loaded p xs (t2_bytes T2_EndChar)) [] xs []); try reflexivity; auto.
    rewrite Lm, D. cbn [loaded p new_program stems set_stack set_routine]. lia. }
  set (p1 := cleared _ _ _ _) in S1.
  eexists _, _, _. split.
  - eapply trace_finishes; [eapply trace_emit; [exact S1|constructor]|].
    apply (step_endchar cfg p1 [] [] []); [reflexivity|constructor|reflexivity].
  - cbn [stems p1 cleared]. rewrite D. cbn [p new_program stems]. lia.
Qed.

(** Without subroutines the code bounds them all. *)
Lemma step_bounded cfg p s : callers p = [] -> local p = [] -> global p = [] -> (0 <= stems p)%Z ->
  (2 * stems p + Z.of_nat (length (stack p)) + Z.of_nat (length (routine p)) < 2 ^ 64)%Z ->
  step cfg p = Ok s ->
  match s with
  | Yield (Some _) q | Again q =>
      callers q = [] /\ local q = [] /\ global q = [] /\ (0 <= stems q)%Z /\
      (2 * stems q + Z.of_nat (length (stack q)) + Z.of_nat (length (routine q)) <=
       2 * stems p + Z.of_nat (length (stack p)) + Z.of_nat (length (routine p)))%Z
  | Yield None _ => True
  end.
Proof.
  intros C L G S0 B H. pose proof (step_subs _ _ _ H) as SB.
  apply step_inv in H as [[_ ->]|(e & xs & o & r & E & R & H)]; [exact I|].
  pose proof (each_consumes_length _ _ _ t2_number_consumes E) as Le.
  assert (Lo : 1 <= length (t2_bytes o)).
  { pose proof (t2_bytes_not_nil o). destruct (t2_bytes o); [congruence|]. cbn. lia. }
  assert (K : length xs + 1 + length r <= length (routine p)) by (rewrite R, !app_length; lia).
  destruct s as [[x|] q|q]; [| exact I |].
  - destruct SB as [SG SL]. rewrite SL, SG.
    pose proof (execute_yields _ _ _ _ _ H) as (P & _ & surplus & _ & Sq & _ & Cq & _ & _ & Rq).
    cbn [loaded set_stack set_routine callers] in Cq. rewrite Cq, Sq.
    pose proof (declared_nonneg o (length (stack (loaded p xs r)))) as D0.
    assert (D1 : (2 * declared o (length (stack (loaded p xs r))) <= Z.of_nat (length (stack p) + length xs))%Z).
    { cbn [loaded set_stack set_routine stack]. rewrite app_length. unfold declared.
      destruct (stem_operator o || mask_operator o); [|lia]. apply Z.mul_div_le. lia. }
    assert (Rl : length (routine q) <= length r).
    { destruct (mask_operator o); [destruct Rq as (mask & Rq)|]; cbn [loaded set_stack set_routine routine] in Rq;
        [rewrite Rq, app_length; lia|rewrite Rq; lia]. }
    assert (Es : stems q = (stems p + declared o (length (stack (loaded p xs r))))%Z).
    { assert (Ss : stems (loaded p xs r) = stems p) by reflexivity. rewrite <- Ss.
      apply (execute_yield_stems _ _ _ _ _ H); rewrite Ss; lia. }
    rewrite Es. cbn [length]. repeat split; auto; lia.
  - destruct SB as [SG SL]. rewrite SL, SG.
    pose proof (execute_again_stems _ _ _ _ H) as Es. cbn [loaded set_stack set_routine stems] in Es. rewrite Es.
    apply execute_again in H as [(So & st & Ef & ->)|[(Ho & H)|(_ & c & cs & C' & ->)]].
    + apply effect_length in Ef; auto. cbn [loaded set_stack set_routine stack routine callers] in *.
      rewrite app_length in Ef. repeat split; auto; lia.
    + exfalso. apply call_inv in H as (st & code & I & _). cbn in I. rewrite L, G in I. destruct o; destruct I.
    + cbn [loaded set_stack set_routine callers] in C'. congruence.
Qed.

Lemma bounded cfg code ops q : (Z.of_nat (length code) < 2 ^ 64)%Z -> trace cfg (new_program code [] []) ops q ->
  callers q = [] /\ (0 <= stems q)%Z /\ (2 * stems q + Z.of_nat (length (stack q)) <= Z.of_nat (length code))%Z.
Proof.
  intros B T.
  enough (H : forall p ops q, trace cfg p ops q -> callers p = [] -> local p = [] -> global p = [] -> (0 <= stems p)%Z ->
    (2 * stems p + Z.of_nat (length (stack p)) + Z.of_nat (length (routine p)) < 2 ^ 64)%Z ->
    callers q = [] /\ (0 <= stems q)%Z /\
    (2 * stems q + Z.of_nat (length (stack q)) <= 2 * stems p + Z.of_nat (length (stack p)) + Z.of_nat (length (routine p)))%Z).
  { apply H in T; auto; cbn [new_program stems stack routine length] in *; try lia. }
  clear. intros p ops q. induction 1 as [p|p p' ops q H T IH|p x p' ops q H T IH]; intros C L G S0 B.
  - repeat split; auto; lia.
  - destruct (step_bounded _ _ _ C L G S0 B H) as (C' & L' & G' & S' & B').
    destruct (IH C' L' G' S' ltac:(lia)) as (? & ? & ?). repeat split; auto; lia.
  - destruct (step_bounded _ _ _ C L G S0 B H) as (C' & L' & G' & S' & B').
    destruct (IH C' L' G' S' ltac:(lia)) as (? & ? & ?). repeat split; auto; lia.
Qed.

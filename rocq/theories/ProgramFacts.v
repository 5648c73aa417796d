(** ProgramFacts: the properties of character strings, assembled. *)
From Verif Require Import Base Float T2Number T2Operation T2Program BaseFacts SpecProgram T2NumberFacts T2OperatorFacts StepFacts ClearFacts RunFacts
  ListingFacts FloatFacts EvalFacts IntegralFacts StackFacts ExecutionFacts SubroutineFacts.
From Coq Require Import Reals Lra.
From Flocq Require Import Core BinarySingleNaN.
Local Open Scope list_scope.
Local Open Scope Z_scope.

(** ** Operands *)

Lemma next_operands cfg p o operands p' : nexts cfg p (Ok (Some (o, operands), p')) ->
  legal_count o (length operands) /\
  exists q e xs r surplus, trace cfg p [] q /\ routine q = e ++ t2_bytes o ++ r /\ each t2_number e xs /\
    longest o (stack q ++ xs) surplus operands.
Proof.
  intros H. apply nexts_trace in H as (q & T & H).
  apply step_inv in H as [[_ H]|(e & xs & o' & r & E & R & H)]; [discriminate|].
  apply execute_yields in H as (_ & F & surplus & L & _). cbn in F. subst o'. split; [apply L|].
  exists q, e, xs, r, surplus. auto.
Qed.

Lemma next_passes cfg p o e xs mask r surplus operands : path_or_hint o = true ->
  routine p = e ++ t2_bytes o ++ mask ++ r -> each t2_number e xs -> longest o (stack p ++ xs) surplus operands ->
  (if mask_operator o then mask_bytes (stems p + declared o (length (stack p ++ xs))) (Z.of_nat (length mask)) else mask = []) ->
  0 <= stems p -> stems p + declared o (length (stack p ++ xs)) + 7 < 2 ^ 64 ->
  exists q, nexts cfg p (Ok (Some (o, operands), q)) /\
    routine q = r /\ callers q = callers p /\ stack q = [] /\ stems q = stems p + declared o (length (stack p ++ xs)).
Proof.
  intros P R E L M S0 S1. eexists. split.
  - eapply nexts_yield; [|reflexivity]. rewrite (step_code _ _ _ _ _ _ E R).
    apply (execute_clears cfg o (loaded p xs (mask ++ r)) surplus operands mask r); auto.
  - cbn. auto.
Qed.

Lemma next_starves cfg p o e xs r : path_operator o = true \/ stem_operator o = true ->
  routine p = e ++ t2_bytes o ++ r -> each t2_number e xs ->
  (forall m, legal_count o m -> (length (stack p ++ xs) < m)%nat) ->
  0 <= stems p -> stems p + declared o (length (stack p ++ xs)) < 2 ^ 64 ->
  nexts cfg p (Err Other).
Proof.
  intros P R E L S0 S1. eapply nexts_err; [|reflexivity]. rewrite (step_code _ _ _ _ _ _ E R).
  apply execute_starves; auto.
Qed.

Lemma next_emits cfg p o operands p' : nexts cfg p (Ok (Some (o, operands), p')) ->
  path_or_hint o = true /\ stack p' = [].
Proof.
  intros H. apply nexts_trace in H as (q & T & H).
  apply step_inv in H as [[_ H]|(e & xs & o' & r & E & R & H)]; [discriminate|].
  apply execute_yields in H as (P & F & surplus & L & K & _). cbn in F. subst o'. auto.
Qed.

Lemma trace_emits cfg p ops q : trace cfg p ops q ->
  Forall (fun op => path_or_hint (fst op) = true /\ legal_count (fst op) (length (snd op))) ops.
Proof.
  induction 1 as [p|p p' ops q H T IH|p x p' ops q H T IH]; auto. constructor; auto.
  apply step_inv in H as [[_ H]|(e & xs & o & r & E & R & H)]; [discriminate|].
  apply execute_yields in H as (P & <- & surplus & (_ & L & _) & _). auto.
Qed.

Lemma runs_trace cfg p ops q : runs cfg p (Ok (ops, q)) ->
  exists p', trace cfg p ops p' /\ step cfg p' = Ok (Yield None q).
Proof.
  intros (_ & f & H). revert p ops H. induction f as [|f IH]; intros p ops H; [discriminate|]. cbn [run] in H.
  inv_ok H. destruct a as [[x|] p1].
  - inv_ok H. destruct a as [ops' q']. injection H as <- <-. apply IH in H1 as (p' & T & S). exists p'. split; auto.
    destruct (nexts_trace cfg p (Some x) p1) as (p2 & T2 & S2); [split; [discriminate|eauto]|].
    change (x :: ops') with ([] ++ x :: ops'). eapply trace_app; [exact T2|]. eapply trace_emit; eauto.
  - injection H as <- <-. destruct (nexts_trace cfg p None p1) as (p2 & T2 & S2); [split; [discriminate|eauto]|].
    exists p2. auto.
Qed.

Lemma run_emits cfg p ops q : runs cfg p (Ok (ops, q)) ->
  Forall (fun op => path_or_hint (fst op) = true /\ legal_count (fst op) (length (snd op))) ops.
Proof. intros H. apply runs_trace in H as (p' & T & _). eapply trace_emits; eauto. Qed.

(** ** Masks *)

Lemma mask_skipped cfg code g l n q o e xs mask r : history cfg (new_program code g l) n q ->
  mask_operator o = true -> routine q = e ++ t2_bytes o ++ mask ++ r -> each t2_number e xs ->
  mask_bytes (n + Z.of_nat (length (stack q ++ xs)) / 2) (Z.of_nat (length mask)) ->
  n + Z.of_nat (length (stack q ++ xs)) / 2 + 7 < 2 ^ 64 ->
  exists q', nexts cfg q (Ok (Some (o, []), q')) /\ routine q' = r /\ callers q' = callers q.
Proof.
  intros H M R E B N.
  assert (D : declared o (length (stack q ++ xs)) = Z.of_nat (length (stack q ++ xs)) / 2).
  { unfold declared. rewrite M, orb_true_r. reflexivity. }
  pose proof (declared_nonneg o (length (stack q ++ xs))) as Dn. pose proof (history_nonneg _ _ _ _ H) as Hn.
  pose proof (history_stems _ _ _ _ H) as Hs. cbn in Hs. specialize (Hs ltac:(lia) ltac:(lia)).
  destruct (next_passes cfg q o e xs mask r (stack q ++ xs) []) as (q' & Hq & Rq & Cq & _); auto using mask_is, longest_mask.
  - rewrite M, D, Hs. exact B.
  - lia.
  - lia.
  - exists q'. auto.
Qed.

Lemma mask_short cfg code g l n q o e xs r size : history cfg (new_program code g l) n q ->
  mask_operator o = true -> routine q = e ++ t2_bytes o ++ r -> each t2_number e xs ->
  mask_bytes (n + Z.of_nat (length (stack q ++ xs)) / 2) size -> Z.of_nat (length r) < size ->
  n + Z.of_nat (length (stack q ++ xs)) / 2 + 7 < 2 ^ 64 -> nexts cfg q (Err UnexpectedEof).
Proof.
  intros H M R E B L N.
  assert (D : declared o (length (stack q ++ xs)) = Z.of_nat (length (stack q ++ xs)) / 2).
  { unfold declared. rewrite M, orb_true_r. reflexivity. }
  pose proof (declared_nonneg o (length (stack q ++ xs))) as Dn. pose proof (history_nonneg _ _ _ _ H) as Hn.
  pose proof (history_stems _ _ _ _ H) as Hs. cbn in Hs. specialize (Hs ltac:(lia) ltac:(lia)).
  eapply nexts_err; [|reflexivity]. rewrite (step_code _ _ _ _ _ _ E R).
  apply execute_mask_eof with size; auto.
  - change (0 <= stems q). lia.
  - change (stems q + declared o (length (stack q ++ xs)) + 7 < 2 ^ 64). lia.
  - change (mask_bytes (stems q + declared o (length (stack q ++ xs))) size). rewrite D, Hs. exact B.
Qed.

(** ** Width *)

Lemma exists_last_or {A} (l : list A) : l = [] \/ exists s x, l = s ++ [x].
Proof. destruct l as [|a l]; [auto|]. right. destruct (@exists_last _ (a :: l)) as (s & x & E); [discriminate|]. eauto. Qed.
(** Rounds that go on do not touch the width. *)
Lemma step_again_width cfg p q : step cfg p = Ok (Again q) -> width q = width p.
Proof.
  intros H. apply step_inv in H as [[_ H]|(e & xs & o & r & E & R & H)]; [discriminate|].
  apply execute_again in H as [(_ & st & _ & ->)|[(_ & H)|(_ & c & cs & _ & ->)]]; auto.
  apply call_inv in H as (st & code & _ & ->). reflexivity.
Qed.

Lemma trace_silent_width cfg p q : trace cfg p [] q -> width q = width p.
Proof.
  intros T. remember [] as ops eqn:Eo. induction T as [p|p p1 ops q H T IH|]; [auto| |discriminate].
  rewrite IH by auto. eapply step_again_width; eauto.
Qed.

Lemma width_after_spec w surplus w' : w' = width_after w surplus ->
  w <> None /\ w' = w \/ w = None /\ (surplus = [] /\ w' = None \/ exists s x, surplus = s ++ [x] /\ w' = Some x).
Proof.
  intros ->. destruct w as [w|]; [left; split; [discriminate|reflexivity]|]. right. split; auto.
  destruct (exists_last_or surplus) as [->|(s & x & ->)]; [left; auto|]. right. exists s, x. split; auto.
  unfold width_after, last_error. rewrite app_length, nth_error_app2 by (cbn; lia).
  replace (length s + length [x] - 1 - length s)%nat with 0%nat by (cbn; lia). reflexivity.
Qed.

Lemma next_width cfg p o operands p' : nexts cfg p (Ok (Some (o, operands), p')) ->
  width p <> None /\ width p' = width p \/
  width p = None /\ exists q e xs r surplus,
    trace cfg p [] q /\ routine q = e ++ t2_bytes o ++ r /\ each t2_number e xs /\
    longest o (stack q ++ xs) surplus operands /\
    (surplus = [] /\ width p' = None \/ exists s w, surplus = s ++ [w] /\ width p' = Some w).
Proof.
  intros H. apply nexts_trace in H as (q & T & H). pose proof (trace_silent_width _ _ _ T) as Wq.
  apply step_inv in H as [[_ H]|(e & xs & o' & r & E & R & H)]; [discriminate|].
  apply execute_yields in H as (_ & F & surplus & L & _ & W & _). cbn in F. subst o'.
  cbn [width loaded set_stack set_routine] in W. rewrite Wq in W.
  apply width_after_spec in W as [[A B]|[A B]]; [left; auto|]. right. split; auto.
  exists q, e, xs, r, surplus. auto.
Qed.

Lemma next_end_width cfg p p' : nexts cfg p (Ok (None, p')) ->
  width p' = width p \/
  width p = None /\ exists q e xs r s w,
    trace cfg p [] q /\ routine q = e ++ t2_bytes T2_EndChar ++ r /\ each t2_number e xs /\
    stack q ++ xs = s ++ [w] /\ width p' = Some w.
Proof.
  intros H. apply nexts_trace in H as (q & T & H). pose proof (trace_silent_width _ _ _ T) as Wq.
  apply step_inv in H as [[_ H]|(e & xs & o & r & E & R & H)].
  - left. assert (p' = q) by congruence. subst. exact Wq.
  - apply execute_none in H as (-> & r' & _ & ->). cbn [width stack loaded set_stack set_routine]. rewrite Wq.
    destruct (width p) as [w|] eqn:Wp; [left; destruct (vec_pop _) as [[? ?]|]; reflexivity|].
    destruct (exists_last_or (stack q ++ xs)) as [Es|(s & w & Es)]; rewrite Es.
    + left. reflexivity.
    + right. split; auto. exists q, e, xs, r, s, w. rewrite vec_pop_app. auto.
Qed.

Lemma width_kept cfg p x p' w : width p = Some w -> nexts cfg p (Ok (x, p')) -> width p' = Some w.
Proof.
  intros W H. apply nexts_trace in H as (q & T & H).
  assert (A : forall a b, step cfg a = Ok b -> width a = Some w -> width (match b with Yield _ q => q | Again q => q end) = Some w).
  { clear. intros a b H W. apply step_inv in H as [[_ ->]|(e & xs & o & r & E & R & H)]; [exact W|].
    destruct b as [[x|] q|q].
    - apply execute_yields in H as (_ & _ & s & _ & _ & Wd & _). cbn in Wd. rewrite W in Wd. exact Wd.
    - apply execute_none in H as (_ & r' & _ & ->). cbn. rewrite W. destruct (vec_pop _) as [[? ?]|]; reflexivity.
    - apply execute_again in H as [(_ & st & _ & ->)|[(_ & H)|(_ & c & cs & _ & ->)]]; auto.
      apply call_inv in H as (st & code & _ & ->). exact W. }
  assert (Wq : width q = Some w).
  { clear H. remember [] as ops eqn:Eo. induction T as [p|p p1 ops q H T IH|]; [auto| |discriminate].
    apply IH; auto. exact (A _ _ H W). }
  exact (A _ _ H Wq).
Qed.

(** A listing that starts with [x]. *)
Lemma width_listing cfg code e x xs surplus surpluses ops last g l :
  each item_encoding code (x :: xs) -> results (x :: xs) (surplus :: surpluses) ops ->
  each t2_number e last -> masks_fit 0 (x :: xs) -> Z.of_nat (length code) + 7 < 2 ^ 64 ->
  (length surplus <= 1)%nat ->
  (surplus = [] \/ stem_operator (item_operator x) = true \/ mask_operator (item_operator x) = true \/
   item_operator x = T2_RMoveTo \/ item_operator x = T2_HMoveTo \/ item_operator x = T2_VMoveTo) ->
  Forall (fun s => s = []) surpluses -> last = [] ->
  exists q, runs cfg (new_program (code ++ e ++ t2_bytes T2_EndChar) g l) (Ok (ops, q)) /\
    width q = specified_width (item_operator x) (item_numbers x).
Proof.
  intros X H E M B Sh O N ->.
  pose proof (fold_stems_length _ _ X 0) as F.
  eexists. split.
  - apply (listing_runs cfg code e (x :: xs) (surplus :: surpluses) ops [] (new_program (code ++ e ++ t2_bytes T2_EndChar) g l) []); auto.
    all: cbn [new_program stems]; try reflexivity; lia.
  - cbn [width new_program]. inversion H; subst. rewrite (specified_first x surplus op) by auto.
    change ((surplus :: surpluses) ++ [[]]) with (surplus :: (surpluses ++ [[]])).
    rewrite width_after_first; [reflexivity|]. apply Forall_app. split; auto.
Qed.

Lemma width_first cfg code x xs surplus surpluses ops g l :
  each item_encoding code (x :: xs) -> results (x :: xs) (surplus :: surpluses) ops ->
  masks_fit 0 (x :: xs) -> Z.of_nat (length code) + 7 < 2 ^ 64 ->
  (length surplus <= 1)%nat ->
  (surplus = [] \/ stem_operator (item_operator x) = true \/ mask_operator (item_operator x) = true \/
   item_operator x = T2_RMoveTo \/ item_operator x = T2_HMoveTo \/ item_operator x = T2_VMoveTo) ->
  Forall (fun s => s = []) surpluses ->
  exists q, runs cfg (new_program (code ++ t2_bytes T2_EndChar) g l) (Ok (ops, q)) /\
    width q = specified_width (item_operator x) (item_numbers x).
Proof. intros. eapply (width_listing cfg code [] x xs surplus surpluses ops []); eauto. constructor. Qed.

Lemma width_endchar cfg e last g l : each t2_number e last -> (length last <= 1)%nat ->
  exists q, runs cfg (new_program (e ++ t2_bytes T2_EndChar) g l) (Ok ([], q)) /\
    width q = specified_width T2_EndChar last.
Proof.
  intros E L. eexists. split.
  - apply (listing_runs cfg [] e [] [] [] last (new_program (e ++ t2_bytes T2_EndChar) g l) []); auto; try constructor; cbn; try lia.
  - cbn. unfold specified_width. destruct last as [|y [|? ?]]; try reflexivity. cbn in L. lia.
Qed.

(** ** Round trip *)

Lemma round_trip cfg code xs g l : each item_encoding code xs ->
  Forall (fun x => path_or_hint (item_operator x) = true /\ legal_count (item_operator x) (length (item_numbers x))) xs ->
  masks_fit 0 xs -> Z.of_nat (length code) + 7 < 2 ^ 64 ->
  exists q, runs cfg (new_program (code ++ t2_bytes T2_EndChar) g l) (Ok (map stated xs, q)) /\
    width q = None /\ routine q = [] /\ callers q = [] /\ nexts cfg q (Ok (None, q)).
Proof.
  intros X L M B. pose proof (fold_stems_length _ _ X 0) as F.
  assert (R : results xs (map (fun _ => []) xs) (map stated xs)).
  { clear -L. induction L as [|x xs [P L] H IH]; cbn; constructor; auto. split; auto. split; auto.
    cbn. split; auto. }
  eexists. split; [|split; [|split; [|split]]].
  - apply (listing_runs cfg code [] xs (map (fun _ => []) xs) (map stated xs) [] (new_program (code ++ t2_bytes T2_EndChar) g l) []); auto; try constructor.
    all: cbn [new_program stems]; try reflexivity; lia.
  - cbn [width new_program]. apply width_after_none. apply Forall_app. split; [|auto].
    clear. induction xs; constructor; auto.
  - reflexivity.
  - reflexivity.
  - eapply nexts_yield; [|reflexivity]. apply step_empty. reflexivity.
Qed.

(** ** Expressions *)

Lemma expressions_next cfg e xs p s r : each expression_encoding e xs -> s <> [] -> routine p = e ++ s ->
  nexts cfg p r <-> nexts cfg (loaded p (map evaluate xs) s) r.
Proof. intros E N R. apply leads_nexts, (expressions_leads cfg e xs E p s N R). Qed.

Lemma expressions_passed cfg e xs p o r : each expression_encoding e xs -> stack p = [] ->
  routine p = e ++ t2_bytes o ++ r -> path_operator o = true -> legal_count o (length xs) ->
  0 <= stems p -> stems p + 7 < 2 ^ 64 ->
  exists q, nexts cfg p (Ok (Some (o, map evaluate xs), q)) /\ routine q = r /\ stack q = [].
Proof.
  intros E K R P L S0 S1.
  destruct (next_passes cfg (loaded p (map evaluate xs) (t2_bytes o ++ r)) o [] [] [] r [] (map evaluate xs)) as (q & N & Rq & _ & Kq & _).
  - apply path_is. auto.
  - reflexivity.
  - constructor.
  - unfold loaded. cbn [stack set_stack set_routine]. rewrite K, app_nil_r. split; [reflexivity|]. cbn [app]. rewrite map_length. split; auto.
  - destruct o; try discriminate; reflexivity.
  - exact S0.
  - replace (declared o _) with 0 by (destruct o; try discriminate; reflexivity). cbn [loaded stems set_stack set_routine]. lia.
  - exists q. split; auto. apply (expressions_next cfg e xs p (t2_bytes o ++ r)); auto. pose proof (t2_bytes_not_nil o). destruct (t2_bytes o); [congruence|discriminate].
Qed.

(** ** Stack operators *)

Lemma transforms_effect cfg o before after : stack_operator o = true -> effect cfg o before = Ok after ->
  transforms cfg o before after.
Proof.
  intros S E p e xs r R N B. rewrite (step_code _ _ _ _ _ _ N R), execute_stack by auto.
  unfold loaded. cbn [stack set_stack]. rewrite B, E. reflexivity.
Qed.

Lemma rejects_effect cfg o before : stack_operator o = true -> effect cfg o before = Err Other -> rejects cfg o before.
Proof.
  intros S E p e xs r R N B. rewrite (step_code _ _ _ _ _ _ N R), execute_stack by auto.
  unfold loaded. cbn [stack set_stack]. rewrite B, E. reflexivity.
Qed.

Lemma effect_roll cfg st : effect cfg T2_Roll st = roll cfg st.
Proof. unfold effect, execute, with_stack. cbn [stack]. destruct (roll cfg st); reflexivity. Qed.

Lemma transforms_dup cfg st x : transforms cfg T2_Dup (st ++ [x]) (st ++ [x; x]).
Proof. apply transforms_effect; auto using effect_dup. Qed.
Lemma transforms_exch cfg st x y : transforms cfg T2_Exch (st ++ [x; y]) (st ++ [y; x]).
Proof. apply transforms_effect; auto using effect_exch. Qed.
Lemma transforms_drop cfg st x : transforms cfg T2_Drop (st ++ [x]) st.
Proof. apply transforms_effect; auto using effect_drop. Qed.
Lemma transforms_index cfg st i n x : integral i n -> - 2 ^ 31 <= n < 2 ^ 31 ->
  nth_error (rev st) (Z.to_nat n) = Some x -> transforms cfg T2_Index (st ++ [i]) (st ++ [x]).
Proof. intros. apply transforms_effect; auto. eapply effect_index; eauto. Qed.
Lemma rejects_index cfg st i n : integral i n -> - 2 ^ 31 <= n < 2 ^ 31 -> (length st <= Z.to_nat n)%nat ->
  rejects cfg T2_Index (st ++ [i]).
Proof. intros. apply rejects_effect; auto. eapply effect_index_deep; eauto. Qed.
Lemma transforms_roll cfg deep xs n j J : integral n (Z.of_nat (length xs)) -> integral j J ->
  Z.of_nat (length xs) < 2 ^ 31 -> - 2 ^ 31 < J < 2 ^ 31 ->
  exists ys, rotated J xs ys /\ transforms cfg T2_Roll (deep ++ xs ++ [n; j]) (deep ++ ys).
Proof.
  intros In Ij Ln Lj. destruct (roll_ok cfg deep xs n j n J In Ij Ln Lj eq_refl) as (ys & E & R).
  exists ys. split; auto. apply transforms_effect; auto. rewrite effect_roll. exact E.
Qed.
Lemma rejects_roll cfg st n j N J : integral n N -> integral j J -> - 2 ^ 31 <= J <= 2 ^ 31 ->
  - 2 ^ 31 <= N < 2 ^ 31 -> N < 0 \/ Z.of_nat (length st) < N -> rejects cfg T2_Roll (st ++ [n; j]).
Proof. intros. apply rejects_effect; auto. rewrite effect_roll. eapply roll_span; eauto. Qed.
Lemma rejects_short cfg o st : stack_operator o = true -> (length st < arity o)%nat -> rejects cfg o st.
Proof. intros. apply rejects_effect; auto using effect_short. Qed.

Lemma rejects_fraction cfg st j : binary32 j -> (forall v, - 2 ^ 31 <= v <= 2 ^ 31 -> ~ integral j v) ->
  rejects cfg T2_Index (st ++ [j]) /\ rejects cfg T2_Roll (st ++ [j]).
Proof.
  intros B N. split; apply rejects_effect; auto.
  - unfold effect, execute, with_stack. cbn [stack]. rewrite (pop_i32_other _ _ B N). reflexivity.
  - rewrite effect_roll. unfold roll. rewrite (pop_i32_other _ _ B N). reflexivity.
Qed.

Definition least_i32 : f32 := Eval vm_compute in f32_of_i32 (- 2 ^ 31).
Definition small_int (v : Z) : f32 := f32_of_i32 v.

Lemma least_integral : integral least_i32 (- 2 ^ 31).
Proof.
  split; [reflexivity|]. split; [reflexivity|]. unfold least_i32. rewrite value_finite, bpow_IZR, <- mult_IZR by lia. reflexivity.
Qed.

Lemma integral_of_i32 v : Z.abs v < 2 ^ 24 -> integral (f32_of_i32 v) v.
Proof. intros H. destruct (f32_of_i32_exact v H). split; [apply f32_of_i32_valid|auto]. Qed.

(** Three elements rotated by the least 32-bit integer. *)
Lemma roll_refuted cfg : exists deep xs n j J,
  integral n (Z.of_nat (length xs)) /\ integral j J /\ - 2 ^ 31 <= J < 2 ^ 31 /\
  forall ys, rotated J xs ys -> ~ transforms cfg T2_Roll (deep ++ xs ++ [n; j]) (deep ++ ys).
Proof.
  set (a := f32_of_i32 1). set (b := f32_of_i32 2). set (c := f32_of_i32 3).
  exists [], [a; b; c], c, least_i32, (- 2 ^ 31).
  split; [apply integral_of_i32; cbn; lia|]. split; [apply least_integral|]. split; [lia|].
  intros ys R T.
  set (p := {| routine := t2_bytes T2_Roll; callers := []; global := []; local := []; stack := [a; b; c; c; least_i32]; stems := 0; width := None |}).
  specialize (T p [] [] [] eq_refl (each_nil _) eq_refl).
  rewrite (step_code cfg p [] [] T2_Roll [] (each_nil _) eq_refl), execute_stack in T by reflexivity.
  change (stack (loaded p [] [])) with [a; b; c; c; least_i32] in T. rewrite effect_roll in T.
  destruct R as [_ R].
  destruct cfg as [oc da pre]. destruct oc.
  - vm_compute in T. discriminate.
  - assert (Er : roll {| overflow_checks := false; debug_assertions := da; preallocates := pre |} [a; b; c; c; least_i32] = Ok [a; b; c])
      by (vm_compute; reflexivity).
    rewrite Er in T. cbn [with_stack bind] in T. assert (Ey : ys = [a; b; c]) by (injection T as <-; reflexivity).
    specialize (R 0%nat a eq_refl). rewrite Ey in R. vm_compute in R. discriminate.
Qed.

Lemma roll_of_least cfg p e xs r st n j N : routine p = e ++ t2_bytes T2_Roll ++ r -> each t2_number e xs ->
  stack p ++ xs = st ++ [n; j] -> stands_for n N -> 0 < N <= Z.of_nat (length st) -> stands_for j (- 2 ^ 31) ->
  step cfg p = if overflow_checks cfg then Panic ArithmeticOverflow else Ok (Again (set_stack (set_routine p r) st)).
Proof.
  intros R E K Sn L Sj. rewrite (step_code _ _ _ _ _ _ E R). cbn [execute]. unfold with_stack.
  change (stack (loaded p xs r)) with (stack p ++ xs). rewrite K, (roll_least cfg _ _ _ _ Sn L Sj).
  destruct (overflow_checks cfg); reflexivity.
Qed.

(** ** Calls *)

Lemma call_transfers cfg p o subs e xs r st a code : calls o p subs -> Z.of_nat (length subs) < 2 ^ 31 ->
  routine p = e ++ t2_bytes o ++ r -> each t2_number e xs -> stack p ++ xs = st ++ [a] -> selects subs a code ->
  step cfg p = Ok (Again (set_frames (set_stack p st) code (r :: callers p))).
Proof.
  intros C L R E K (v & b & I & B & N & H). apply biased_bias in B. subst b.
  rewrite (step_code _ _ _ _ _ _ E R).
  destruct C as [[-> ->]|[-> ->]]; cbn [execute];
    (change (call cfg ?l (loaded p xs r)) with (call cfg l (loaded p xs r)));
    cbn [loaded local global set_stack set_routine];
    rewrite (call_ok cfg _ _ st a v code) by (auto; lia); reflexivity.
Qed.

Lemma call_given cfg code0 g l ops p o subs e xs r st a code : trace cfg (new_program code0 g l) ops p ->
  o = T2_CallSubr /\ subs = l \/ o = T2_CallGSubr /\ subs = g -> Z.of_nat (length subs) < 2 ^ 31 ->
  routine p = e ++ t2_bytes o ++ r -> each t2_number e xs -> stack p ++ xs = st ++ [a] -> selects subs a code ->
  step cfg p = Ok (Again (set_frames (set_stack p st) code (r :: callers p))).
Proof.
  intros T C. apply call_transfers. apply trace_subs in T as [G L]. cbn [new_program global local] in G, L.
  unfold calls. rewrite G, L. exact C.
Qed.

Lemma call_rejects cfg p o subs e xs r st a : calls o p subs -> Z.of_nat (length subs) < 2 ^ 31 ->
  routine p = e ++ t2_bytes o ++ r -> each t2_number e xs -> stack p ++ xs = st ++ [a] -> binary32 a ->
  (forall code, ~ selects subs a code) ->
  (overflow_checks cfg = true -> forall v b, stands_for a v -> biased (Z.of_nat (length subs)) b -> v + b < 2 ^ 31) ->
  step cfg p = Err Other.
Proof.
  intros C L R E K B N Q. rewrite (step_code _ _ _ _ _ _ E R).
  assert (H : call cfg subs (loaded p xs r) = Err Other \/
    call cfg subs (loaded p xs r) = Panic ArithmeticOverflow /\ overflow_checks cfg = true /\
    exists v, stands_for a v /\ 2 ^ 31 <= v + bias (Z.of_nat (length subs))).
  { apply call_other with st; auto. intros v I G.
    destruct (nth_error subs (Z.to_nat (v + bias (Z.of_nat (length subs))))) as [c|] eqn:En.
    - apply (N c). exists v, (bias (Z.of_nat (length subs))). repeat split; try apply I; auto using bias_biased; lia.
    - apply nth_error_None in En. lia. }
  destruct C as [[-> ->]|[-> ->]]; cbn [execute]; cbn [local global loaded set_stack set_routine] in *;
    (destruct H as [H|(H & O & v & I & G)]; [rewrite H; reflexivity|]; specialize (Q O v _ I (bias_biased _)); lia).
Qed.

Lemma call_overflows cfg p o subs e xs r st a v b : calls o p subs -> Z.of_nat (length subs) < 2 ^ 31 ->
  routine p = e ++ t2_bytes o ++ r -> each t2_number e xs -> stack p ++ xs = st ++ [a] ->
  stands_for a v -> biased (Z.of_nat (length subs)) b -> 2 ^ 31 <= v + b ->
  step cfg p = if overflow_checks cfg then Panic ArithmeticOverflow else Err Other.
Proof.
  intros C L R E K I B G. apply biased_bias in B. subst b. rewrite (step_code _ _ _ _ _ _ E R).
  destruct C as [[-> ->]|[-> ->]]; cbn [execute]; cbn [local global loaded set_stack set_routine] in *;
    rewrite (call_overflow cfg _ (loaded p xs r) st a v K I L G); destruct (overflow_checks cfg); reflexivity.
Qed.

Lemma call_refuted : exists p o subs e xs r st a, calls o p subs /\ routine p = e ++ t2_bytes o ++ r /\
  each t2_number e xs /\ stack p ++ xs = st ++ [a] /\ binary32 a /\ (forall code, ~ selects subs a code) /\
  step dev_profile p = Panic ArithmeticOverflow.
Proof.
  set (a := f32_of_i32 (2 ^ 31 - 1)).
  exists {| routine := t2_bytes T2_CallSubr; callers := []; global := []; local := []; stack := [a]; stems := 0; width := None |},
    T2_CallSubr, [], [], [], [], [], a.
  split; [left; auto|]. split; [reflexivity|]. split; [constructor|]. split; [reflexivity|]. split; [apply f32_of_i32_valid|].
  split; [|vm_compute; reflexivity].
  intros code (v & b & _ & _ & _ & H). destruct (Z.to_nat (v + b)); discriminate.
Qed.

Lemma inline cfg p o subs e xs st a pre junk c ops q ys : calls o p subs -> Z.of_nat (length subs) < 2 ^ 31 ->
  routine p = e ++ t2_bytes o ++ c -> each t2_number e xs -> stack p ++ xs = st ++ [a] ->
  selects subs a (pre ++ t2_bytes T2_Return ++ junk) ->
  trace cfg (alone (set_stack p st) pre) ops q -> callers q = [] -> each t2_number (routine q) ys ->
  c <> [] \/ routine q = [] ->
  forall r, runs cfg p r <-> runs cfg (set_stack (set_routine p (pre ++ c)) st) r.
Proof.
  intros C L R E K S T Cq Eq N r.
  rewrite (runs_again _ _ _ _ (call_transfers cfg p o subs e xs c st a _ C L R E K S)).
  apply (inline_runs cfg (set_stack p st) c pre junk (routine q) ys ops q r Cq eq_refl Eq N T).
Qed.

Lemma each_snoc {A} (enc : list byte -> A -> Prop) e1 xs e2 x : each enc e1 xs -> enc e2 x -> each enc (e1 ++ e2) (xs ++ [x]).
Proof.
  intros H K. apply each_app; auto. rewrite <- (app_nil_r e2). constructor; auto. constructor.
Qed.

Lemma inline_in_place cfg p o subs args xs number a pre junk c ops q ys : calls o p subs -> Z.of_nat (length subs) < 2 ^ 31 ->
  routine p = args ++ number ++ t2_bytes o ++ c -> each t2_number args xs -> t2_number number a ->
  selects subs a (pre ++ t2_bytes T2_Return ++ junk) ->
  trace cfg (alone (set_stack p (stack p ++ xs)) pre) ops q -> callers q = [] -> each t2_number (routine q) ys ->
  c <> [] \/ routine q = [] /\ pre <> [] ->
  forall r, runs cfg p r <-> runs cfg (set_routine p (args ++ pre ++ c)) r.
Proof.
  intros C L R E Ea S T Cq Eq N r.
  rewrite (inline cfg p o subs (args ++ number) (xs ++ [a]) (stack p ++ xs) a pre junk c ops q ys); auto.
  - symmetry. apply (runs_same cfg). rewrite (step_numbers cfg (set_routine p (args ++ pre ++ c)) args xs (pre ++ c)); auto.
    destruct N as [N|[_ N]]; [destruct pre; [exact N|discriminate]|destruct pre; [congruence|discriminate]].
  - rewrite <- app_assoc. exact R.
  - apply each_snoc; auto.
  - apply app_assoc.
  - tauto.
Qed.

(** ** The end *)

Lemma endchar_ends cfg p e xs r : routine p = e ++ t2_bytes T2_EndChar ++ r -> each t2_number e xs ->
  Forall (fun c => c = []) (removelast (r :: callers p)) ->
  exists q, nexts cfg p (Ok (None, q)) /\ routine q = last (r :: callers p) [] /\ callers q = [].
Proof.
  intros R E F. eexists. split.
  - eapply nexts_yield; [|reflexivity]. rewrite (step_code _ _ _ _ _ _ E R). cbn [execute].
    cbn [routine callers loaded set_stack set_routine]. rewrite (unwind_ok _ _ F). cbn [bind]. reflexivity.
  - split; reflexivity.
Qed.

Lemma endchar_fails cfg p e xs r : routine p = e ++ t2_bytes T2_EndChar ++ r -> each t2_number e xs ->
  ~ Forall (fun c => c = []) (removelast (r :: callers p)) -> nexts cfg p (Err Other).
Proof.
  intros R E F. eapply nexts_err; [|reflexivity]. rewrite (step_code _ _ _ _ _ _ E R). cbn [execute].
  cbn [routine callers loaded set_stack set_routine]. rewrite (unwind_err _ _ F). reflexivity.
Qed.

Lemma for_good_refuted cfg : exists code q x q', nexts cfg (new_program code [] []) (Ok (None, q)) /\ nexts cfg q (Ok (Some x, q')).
Proof.
  exists [x0e; x8b; x16]. eexists _, _, _. split.
  - split; [discriminate|]. exists 1%nat. vm_compute. reflexivity.
  - split; [discriminate|]. exists 1%nat. vm_compute. reflexivity.
Qed.

Lemma for_good cfg p : routine p = [] -> forall r, nexts cfg p r <-> r = Ok (None, p).
Proof. intros R r. apply nexts_yield, step_empty, R. Qed.

Lemma trailing_bytes cfg code g l ops q e xs r t : trace cfg (new_program code g l) ops q -> callers q = [] ->
  routine q = e ++ t2_bytes T2_EndChar ++ r -> each t2_number e xs ->
  exists f f', runs cfg (new_program code g l) (Ok (ops, f)) /\
    runs cfg (new_program (code ++ t) g l) (Ok (ops, f')) /\ width f' = width f.
Proof.
  intros T C R E.
  pose proof (trace_lift t [] _ _ _ _ T) as T'. rewrite !lift_alone in T' by auto.
  eexists _, _. split; [|split].
  - apply (trace_runs _ _ _ _ T). eexists. split; [apply runs_none; eapply nexts_yield; [apply (step_endchar cfg q e xs r C E R)|reflexivity]|].
    cbn. rewrite app_nil_r. reflexivity.
  - apply (trace_runs _ _ _ _ T'). eexists. split.
    + apply runs_none. eapply nexts_yield; [|reflexivity].
      apply (step_endchar cfg (set_frames q (routine q ++ t) []) e xs (r ++ t)); auto.
      cbn [routine set_frames]. rewrite R, <- !app_assoc. reflexivity.
    + cbn. rewrite app_nil_r. reflexivity.
  - reflexivity.
Qed.

(** ** Operators that are not implemented *)

Lemma unsupported cfg p o e xs r : o = T2_Random \/ o = T2_Put \/ o = T2_Get ->
  routine p = e ++ t2_bytes o ++ r -> each t2_number e xs -> nexts cfg p (Err Other).
Proof.
  intros O R E. eapply nexts_err; [|reflexivity]. rewrite (step_code _ _ _ _ _ _ E R).
  destruct O as [->|[->| ->]]; reflexivity.
Qed.

Lemma return_alone cfg p e xs r : callers p = [] -> routine p = e ++ t2_bytes T2_Return ++ r -> each t2_number e xs ->
  nexts cfg p (Err Other).
Proof.
  intros C R E. eapply nexts_err; [|reflexivity]. rewrite (step_code _ _ _ _ _ _ E R).
  cbn [execute callers loaded set_stack set_routine]. rewrite C. reflexivity.
Qed.

Lemma reserved cfg p e xs b t : routine p = e ++ b :: t -> each t2_number e xs ->
  ~ (bz b = 28 \/ 32 <= bz b) -> (forall o r, b :: t <> t2_bytes o ++ r) ->
  exists k, nexts cfg p (Err k).
Proof.
  intros R E N H. assert (Nb : ~ t2_first b) by exact N.
  pose proof (step_numbers cfg p e xs (b :: t) E ltac:(discriminate) R) as Es.
  assert (X : exists k, step cfg p = Err k).
  { rewrite Es. unfold step. cbn [routine loaded set_stack set_routine done].
    cbn [length]. rewrite push_operands_stop by exact Nb. cbn [bind].
    pose proof (read_t2_operator_settled (bz b) (b :: t)) as Q.
    destruct (read_t2_operator (bz b) (b :: t)) as [[o r]|k|k|] eqn:Er; cbn in Q; try contradiction.
    - apply read_t2_operator_sound in Er. destruct (H o r Er).
    - exists k. reflexivity. }
  destruct X as [k X]. exists k. eapply nexts_err; [exact X|reflexivity].
Qed.

(** ** Termination *)

Definition self_call : list byte := [x20; x0a].

Lemma loops cfg fuel cs st :
  next cfg fuel {| routine := self_call; callers := cs; global := []; local := [self_call]; stack := st; stems := 0; width := None |} = OutOfFuel.
Proof.
  revert cs. induction fuel as [|fuel IH]; intros cs; [reflexivity|]. cbn [next].
  assert (T : t2_number [x20] (f32_of_i32 (-107))).
  { exists (IZR (-107)). split; [apply (t2_one_byte x20); vm_compute; split; discriminate|]. apply f32_of_i32_correct. }
  rewrite (call_transfers cfg _ T2_CallSubr [self_call] [x20] [f32_of_i32 (-107)] [] st (f32_of_i32 (-107)) self_call).
  - cbn [bind]. apply IH.
  - left. auto.
  - cbn. lia.
  - reflexivity.
  - change [x20] with ([x20] ++ []). constructor; [exact T|constructor].
  - reflexivity.
  - exists (-107), 107. split; [apply integral_of_i32; cbn; lia|]. split; [left; cbn; lia|]. split; [lia|reflexivity].
Qed.

Lemma terminates_refuted cfg : exists code local, forall fuel, next cfg fuel (new_program code [] local) = OutOfFuel.
Proof. exists self_call, [self_call]. intros fuel. apply loops. Qed.

Lemma terminates cfg code g l b d : Forall (fun c => (length c <= b)%nat) g -> Forall (fun c => (length c <= b)%nat) l ->
  (exists r, r <> OutOfFuel /\ run cfg (S (length code * S b ^ d)) (new_program code g l) = r) \/
  (exists ops q, trace cfg (new_program code g l) ops q /\ (d < length (callers q))%nat).
Proof.
  intros G L. destruct (run_terminates cfg b d (S (length code * S b ^ d)) (new_program code g l)) as [H|H].
  - split; auto.
  - cbn. lia.
  - rewrite left_new. lia.
  - auto.
  - left. eauto.
Qed.

(** A program that halts, by its rounds. *)
Inductive halts (cfg : config) : program -> Prop :=
| halts_here p : (forall q, step cfg p <> Ok (Again q)) -> (forall x q, step cfg p <> Ok (Yield (Some x) q)) -> halts cfg p
| halts_again p q : step cfg p = Ok (Again q) -> halts cfg q -> halts cfg p
| halts_emit p x q : step cfg p = Ok (Yield (Some x) q) -> halts cfg q -> halts cfg p.

Lemma next_halts cfg f : forall p r, next cfg f p = r -> r <> OutOfFuel ->
  (forall x q, r = Ok (Some x, q) -> halts cfg q) -> halts cfg p.
Proof.
  induction f as [|f IH]; intros p r H N Q; [cbn in H; congruence|]. cbn [next] in H.
  destruct (step cfg p) as [[[x|] q|q]|k|k|] eqn:E; cbn [bind] in H; try (apply halts_here; congruence).
  - apply (halts_emit cfg p x q); auto. apply (Q x q). congruence.
  - apply (halts_again cfg p q); auto. apply (IH q r); auto.
Qed.

Lemma runs_halts cfg p r : runs cfg p r -> halts cfg p.
Proof.
  intros (N & f & H). revert p r N H. induction f as [|f IH]; intros p r N H; [cbn in H; congruence|]. cbn [run] in H.
  destruct (next cfg (S f) p) as [[x q]|k|k|] eqn:E; cbn [bind] in H.
  - apply (next_halts cfg (S f) p _ E); [discriminate|]. intros x' q' K. assert (x = Some x' /\ q = q') as [-> ->] by (split; congruence).
    apply (IH q' (run cfg f q')); auto. intros O. rewrite O in H. cbn in H. congruence.
  - apply (next_halts cfg (S f) p _ E); discriminate.
  - apply (next_halts cfg (S f) p _ E); discriminate.
  - congruence.
Qed.

Lemma halts_depth cfg p : halts cfg p -> exists d, forall ops q, trace cfg p ops q -> (length (callers q) <= d)%nat.
Proof.
  induction 1 as [p A Y|p p' E H [d IH]|p x p' E H [d IH]].
  - exists (length (callers p)). intros ops q T. destruct T as [|? ? ? ? E|? ? ? ? ? E]; [lia|destruct (A _ E)|destruct (Y _ _ E)].
  - exists (Nat.max (length (callers p)) d). intros ops q T. destruct T as [|? p2 ops q E2 T|? ? ? ? ? E2]; [lia| |congruence].
    assert (p2 = p') by congruence. subst p2. specialize (IH _ _ T). lia.
  - exists (Nat.max (length (callers p)) d). intros ops q T. destruct T as [|? ? ? ? E2|? y p2 ops q E2 T]; [lia|congruence|].
    assert (p2 = p') by congruence. subst p2. specialize (IH _ _ T). lia.
Qed.

Lemma longest_code (cs : list (list byte)) : exists b, Forall (fun c => (length c <= b)%nat) cs.
Proof.
  induction cs as [|c cs [b IH]]; [exists 0%nat; constructor|]. exists (Nat.max (length c) b).
  constructor; [lia|]. eapply Forall_impl; [|exact IH]. cbn. lia.
Qed.

Lemma diverges cfg code g l : (forall r, ~ runs cfg (new_program code g l) r) <->
  forall d, exists ops q, trace cfg (new_program code g l) ops q /\ (d < length (callers q))%nat.
Proof.
  split.
  - intros N d. destruct (longest_code (g ++ l)) as [b B]. apply Forall_app in B as [Bg Bl].
    destruct (terminates cfg code g l b d Bg Bl) as [(r & O & H)|H]; auto.
    destruct (N r). split; eauto.
  - intros D r R. apply runs_halts, halts_depth in R as [d R]. destruct (D d) as (ops & q & T & L).
    specialize (R _ _ T). lia.
Qed.

Lemma terminates_alone cfg code : exists r, r <> OutOfFuel /\ run cfg (S (length code)) (new_program code [] []) = r.
Proof.
  destruct (terminates cfg code [] [] 0 0 (Forall_nil _) (Forall_nil _)) as [H|(ops & q & T & D)].
  - cbn [Nat.pow] in H. rewrite Nat.mul_1_r in H. exact H.
  - apply trace_depth in T; auto. cbn in T. lia.
Qed.

(** ** Panics *)

Lemma new_valid code g l : valid_program (new_program code g l).
Proof. split; [constructor|discriminate]. Qed.
Lemma new_possible code g l : possible (new_program code g l).
Proof. unfold possible. cbn. lia. Qed.

Lemma panics cfg code g l ops p k : Z.of_nat (length g) < 2 ^ 31 -> Z.of_nat (length l) < 2 ^ 31 ->
  trace cfg (new_program code g l) ops p ->
  (nexts cfg p (Panic k) <-> k = ArithmeticOverflow /\ overflow_checks cfg = true /\
   exists q e xs o r, trace cfg p [] q /\ routine q = e ++ t2_bytes o ++ r /\ each t2_number e xs /\ extreme o (loaded q xs r)).
Proof.
  intros Lg Ll T.
  assert (St : forall q, trace cfg p [] q -> step cfg q = Panic k <-> k = ArithmeticOverflow /\ overflow_checks cfg = true /\
    exists e xs o r, routine q = e ++ t2_bytes o ++ r /\ each t2_number e xs /\ extreme o (loaded q xs r)).
  { intros q Tq. pose proof (trace_app _ _ _ _ _ _ T Tq) as T'. pose proof (trace_subs _ _ _ _ T') as [Gq Lq]. apply step_panic.
    - apply (trace_valid _ _ _ _ T' (new_valid _ _ _)).
    - apply (trace_possible _ _ _ _ T' (new_possible _ _ _)).
    - rewrite Lq. exact Ll.
    - rewrite Gq. exact Lg. }
  split.
  - intros N. apply nexts_trace_panic in N as (q & Tq & H). apply (St q Tq) in H as (-> & O & e & xs & o & r & X).
    split; auto. split; auto. exists q, e, xs, o, r. tauto.
  - intros (-> & O & q & e & xs & o & r & Tq & X). apply (trace_nexts cfg p q _ Tq). eapply nexts_panic; [|reflexivity].
    apply (St q Tq). split; auto. split; auto. exists e, xs, o, r. exact X.
Qed.

Lemma runs_trace_panic cfg k p : runs cfg p (Panic k) -> exists ops q, trace cfg p ops q /\ nexts cfg q (Panic k).
Proof.
  intros (_ & f & H). revert p H. induction f as [|f IH]; intros p H; [discriminate|]. cbn [run] in H.
    destruct (next cfg (S f) p) as [[[x|] q]|k'|k'|] eqn:E; cbn [bind] in H; try discriminate.
    - destruct (run cfg f q) as [[ops q']|k'|k'|] eqn:R; cbn in H; try discriminate. injection H as ->.
      apply IH in R as (ops & q' & T & N). exists (x :: ops), q'. split; auto.
      destruct (nexts_trace cfg p (Some x) q) as (p2 & T2 & S2); [split; [discriminate|eauto]|].
      change (x :: ops) with ([] ++ x :: ops). eapply trace_app; [exact T2|]. eapply trace_emit; eauto.
    - injection H as ->. exists [], p. split; [constructor|]. split; [discriminate|eauto].
Qed.

Lemma run_panics cfg code g l k : Z.of_nat (length g) < 2 ^ 31 -> Z.of_nat (length l) < 2 ^ 31 ->
  (runs cfg (new_program code g l) (Panic k) <-> k = ArithmeticOverflow /\ overflow_checks cfg = true /\
   exists ops q e xs o r, trace cfg (new_program code g l) ops q /\
     routine q = e ++ t2_bytes o ++ r /\ each t2_number e xs /\ extreme o (loaded q xs r)).
Proof.
  intros Lg Ll. split.
  - intros H. apply runs_trace_panic in H as (ops & p & T & N).
    apply (panics cfg code g l ops p k Lg Ll T) in N as (-> & O & q & e & xs & o & r & Tq & X).
    split; auto. split; auto. exists (ops ++ []), q, e, xs, o, r. split; auto. eapply trace_app; eauto.
  - intros (-> & O & ops & q & e & xs & o & r & T & X).
    apply (trace_runs _ _ _ _ T). exists (Panic ArithmeticOverflow). split; [|reflexivity]. apply runs_panic.
    apply (panics cfg code g l ops q _ Lg Ll T). split; auto. split; auto. exists q, e, xs, o, r. split; [constructor|exact X].
Qed.

Lemma no_panics cfg code g l r : Z.of_nat (length g) < 2 ^ 31 -> Z.of_nat (length l) < 2 ^ 31 ->
  overflow_checks cfg = false -> runs cfg (new_program code g l) r -> forall k, r <> Panic k.
Proof.
  intros Lg Ll O H k ->. apply run_panics in H as (_ & O' & _); auto. congruence.
Qed.

(** 3 1 -32768 256 mul 256 mul roll *)
Definition rolling : list byte := [x8c; x8d; x8e; x8e; x1c; x80; x00; xf7; x94; x0c; x18; xf7; x94; x0c; x18; x0c; x1e; x0e].

Lemma panics_refuted : exists code, nexts dev_profile (new_program code [] []) (Panic ArithmeticOverflow).
Proof. exists rolling. split; [discriminate|]. exists 9%nat. vm_compute. reflexivity. Qed.

(** ** Build profiles *)

Lemma profiles cfg cfg' p r : overflow_checks cfg = true -> runs cfg p r -> (forall k, r <> Panic k) -> runs cfg' p r.
Proof.
  intros O (N & f & H) Q. split; auto. exists f. rewrite <- H. apply (agree_run cfg cfg' O f p).
  rewrite H. destruct r as [| |k|]; try exact I. destruct (Q k eq_refl).
Qed.

(** ** Widths that are not as specified *)

Lemma number_of_byte b : 32 <= bz b <= 246 -> t2_number [b] (f32_of_i32 (bz b - 139)).
Proof. intros B. eexists. split; [apply t2_one_byte, B|]. apply f32_of_i32_correct. Qed.

Lemma numbers_of_bytes (bs : list byte) : Forall (fun b => 32 <= bz b <= 246) bs ->
  each t2_number bs (map (fun b => f32_of_i32 (bz b - 139)) bs).
Proof.
  induction 1 as [|b bs B _ IH]; [constructor|]. change (b :: bs) with ([b] ++ bs). constructor; [apply number_of_byte, B|exact IH].
Qed.

(** 5 1 2 hintmask, 1 hmoveto 7 1 hmoveto, and 5 1 2 3 4 endchar *)
Lemma width_mask_refuted cfg : exists e numbers mask ops q,
  each t2_number e numbers /\ length mask = 1%nat /\
  runs cfg (new_program (e ++ t2_bytes T2_HintMask ++ mask ++ t2_bytes T2_EndChar) [] []) (Ok (ops, q)) /\
  width q <> specified_width T2_HintMask numbers.
Proof.
  exists [x90; x8c; x8d], (map (fun b => f32_of_i32 (bz b - 139)) [x90; x8c; x8d]), [x80]. eexists _, _.
  split; [apply numbers_of_bytes; repeat constructor; vm_compute; discriminate|]. split; [reflexivity|]. split.
  - split; [discriminate|]. exists 3%nat. destruct cfg as [[] [] []]; vm_compute; reflexivity.
  - vm_compute. discriminate.
Qed.

Lemma width_later_refuted cfg : exists e1 n1 e2 n2 ops q,
  each t2_number e1 n1 /\ each t2_number e2 n2 /\ legal_count T2_HMoveTo (length n1) /\
  runs cfg (new_program (e1 ++ t2_bytes T2_HMoveTo ++ e2 ++ t2_bytes T2_HMoveTo ++ t2_bytes T2_EndChar) [] []) (Ok (ops, q)) /\
  specified_width T2_HMoveTo n1 = None /\ width q <> None.
Proof.
  exists [x8c], (map (fun b => f32_of_i32 (bz b - 139)) [x8c]), [x92; x8c], (map (fun b => f32_of_i32 (bz b - 139)) [x92; x8c]).
  eexists _, _.
  split; [apply numbers_of_bytes; repeat constructor; vm_compute; discriminate|].
  split; [apply numbers_of_bytes; repeat constructor; vm_compute; discriminate|]. split; [reflexivity|]. split; [|split; [reflexivity|]].
  - split; [discriminate|]. exists 4%nat. destruct cfg as [[] [] []]; vm_compute; reflexivity.
  - vm_compute. discriminate.
Qed.

Lemma width_accent_refuted cfg : exists e numbers q,
  each t2_number e numbers /\ length numbers = 5%nat /\
  runs cfg (new_program (e ++ t2_bytes T2_EndChar) [] []) (Ok ([], q)) /\
  width q <> specified_width T2_EndChar numbers.
Proof.
  exists [x90; x8c; x8d; x8e; x8f], (map (fun b => f32_of_i32 (bz b - 139)) [x90; x8c; x8d; x8e; x8f]). eexists.
  split; [apply numbers_of_bytes; repeat constructor; vm_compute; discriminate|]. split; [reflexivity|]. split.
  - split; [discriminate|]. exists 1%nat. destruct cfg as [[] [] []]; vm_compute; reflexivity.
  - vm_compute. discriminate.
Qed.

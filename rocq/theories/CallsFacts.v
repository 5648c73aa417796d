(** CallsFacts: subroutines that are not called do not matter. *)
From Coq Require Import Reals.
From Verif Require Import Base Float T2Number T2Operation T2Program BaseFacts SpecProgram T2NumberFacts StepFacts
  RunFacts EvalFacts IntegralFacts StackFacts ExecutionFacts SubroutineFacts ProgramFacts ArithmeticFacts SpecCalls.
Local Open Scope list_scope.
Local Open Scope Z_scope.

Section Tables.
Context (cfg : config) (g l : list (list byte)).
Local Notation swap := (with_subroutines g l).

Definition swapped (s : stepped) : stepped :=
  match s with Yield x p => Yield x (swap p) | Again p => Again (swap p) end.
Definition map_outcome {A B} (f : A -> B) (m : outcome A) : outcome B :=
  match m with Ok x => Ok (f x) | Err k => Err k | Panic k => Panic k | OutOfFuel => OutOfFuel end.

Lemma bind_map {A B C} (m : outcome A) (f : A -> outcome B) (h : B -> C) (k : A -> outcome C) :
  (forall x, m = Ok x -> k x = map_outcome h (f x)) -> bind m k = map_outcome h (bind m f).
Proof. intros H. destruct m; cbn; auto. Qed.

Lemma with_stack_swap p m : with_stack (swap p) m = map_outcome swapped (with_stack p m).
Proof. destruct m; reflexivity. Qed.

Lemma clear_swap o a p : clear o a (swap p) = map_outcome swapped (clear o a p).
Proof.
  unfold clear. cbn [stack with_subroutines]. destruct (fold_left _ _ _); [|reflexivity].
  apply bind_map. intros w _. reflexivity.
Qed.

Lemma stems_swap p n : set_stems (swap p) n = swap (set_stems p n).
Proof. reflexivity. Qed.
Lemma stems_routine_swap p n r : set_routine (set_stems (swap p) n) r = swap (set_routine (set_stems p n) r).
Proof. reflexivity. Qed.

Lemma execute_swap o p : o <> T2_CallSubr -> o <> T2_CallGSubr ->
  execute cfg o (swap p) = map_outcome swapped (execute cfg o p).
Proof.
  intros N1 N2. destruct o; try congruence; unfold execute; try apply clear_swap; try apply with_stack_swap; try reflexivity;
    try (apply bind_map; intros; rewrite stems_swap; apply clear_swap);
    try (apply bind_map; intros; apply bind_map; intros; apply bind_map; intros [? ?] _; rewrite stems_routine_swap; apply clear_swap).
  - cbn [callers with_subroutines]. destruct (callers p); reflexivity.
  - apply bind_map. intros r _. reflexivity.
Qed.

Lemma selects_or table a : binary32 a -> Z.of_nat (length table) < 2 ^ 31 ->
  (exists code, selects table a code) \/
  (forall v, integral a v -> ~ 0 <= v + bias (Z.of_nat (length table)) < Z.of_nat (length table)).
Proof.
  intros B L. pose proof (bias_range (Z.of_nat (length table))) as Bb.
  destruct (pop_i32 ([] ++ [a])) as [[v st]|k|k|] eqn:E.
  - destruct (pop_i32_accepts _ _ _ B E) as (u & I & R).
    destruct (Z_le_dec 0 (u + bias (Z.of_nat (length table)))) as [H|H].
    2: { right. intros w W. rewrite (integral_unique _ _ _ W I). lia. }
    destruct (nth_error table (Z.to_nat (u + bias (Z.of_nat (length table))))) as [code|] eqn:N.
    + left. exists code, u, (bias (Z.of_nat (length table))). auto using bias_biased.
    + apply nth_error_None in N. right. intros w W. rewrite (integral_unique _ _ _ W I). lia.
  - right. intros w W H. rewrite (pop_i32_integral [] _ _ W) in E by lia. discriminate.
  - right. intros w W H. rewrite (pop_i32_integral [] _ _ W) in E by lia. discriminate.
  - right. intros w W H. rewrite (pop_i32_integral [] _ _ W) in E by lia. discriminate.
Qed.

Lemma unselected table a : (forall v, integral a v -> ~ 0 <= v + bias (Z.of_nat (length table)) < Z.of_nat (length table)) ->
  forall code, ~ selects table a code.
Proof.
  intros H code (v & b & I & B & N & E). apply biased_bias in B. subst b. apply (H v I).
  split; auto. assert (Z.to_nat (v + bias (Z.of_nat (length table))) < length table)%nat by (apply nth_error_Some; congruence). lia.
Qed.

Lemma call_swap table table' p st a : stack p = st ++ [a] -> binary32 a ->
  Z.of_nat (length table) < 2 ^ 31 -> Z.of_nat (length table') < 2 ^ 31 ->
  selects_alike table table' a -> (overflow_checks cfg = true -> overflows_alike table table' a) ->
  call cfg table' (swap p) = map_outcome swap (call cfg table p).
Proof.
  intros K B L L' Al Ov. destruct (selects_or table a B L) as [(code & Sc)|N].
  - pose proof (proj1 (Al code) Sc) as Sc'. destruct Sc as (v & b & I & Bb & Nn & E). destruct Sc' as (v' & b' & I' & Bb' & Nn' & E').
    apply biased_bias in Bb. apply biased_bias in Bb'. subst b b'.
    rewrite (call_ok cfg table p st a v code), (call_ok cfg table' (swap p) st a v' code) by auto. reflexivity.
  - pose proof (unselected _ _ N) as U. destruct (selects_or table' a B L') as [(code & Sc)|N'].
    { exfalso. apply (U code). apply Al, Sc. }
    destruct (call_other cfg table p st a K B L N) as [E|(E & C & v & V & O)];
      destruct (call_other cfg table' (swap p) st a K B L' N') as [E'|(E' & C' & v' & V' & O')]; rewrite E, E'; try reflexivity.
    + exfalso. specialize (Ov C' v' _ _ V' (bias_biased _) (bias_biased _)).
      assert (F : 2 ^ 31 <= v' + bias (Z.of_nat (length table))) by lia.
      rewrite (call_overflow cfg table p st a v' K V' L F), C' in E. discriminate.
    + exfalso. specialize (Ov C v _ _ V (bias_biased _) (bias_biased _)).
      assert (F : 2 ^ 31 <= v + bias (Z.of_nat (length table'))) by lia.
      rewrite (call_overflow cfg table' (swap p) st a v K V L' F), C in E'. discriminate.
Qed.

(** For calls that succeed the overflow does not matter. *)
Lemma call_swap_ok table table' p q : Forall binary32 (stack p) ->
  Z.of_nat (length table) < 2 ^ 31 -> Z.of_nat (length table') < 2 ^ 31 ->
  (forall st a code, stack p = st ++ [a] -> selects table a code -> selects table' a code) ->
  call cfg table p = Ok q -> call cfg table' (swap p) = Ok (swap q).
Proof.
  intros V L L' Al H. destruct (pop_i32 (stack p)) as [[v0 st0]|k|k|] eqn:P; try (unfold call in H; rewrite P in H; discriminate).
  destruct (stands_for_pop _ _ _ V P) as (a & K & _). assert (B : binary32 a) by (rewrite K in V; apply Forall_snoc in V; tauto).
  destruct (selects_or table a B L) as [(code & Sc)|N].
  - pose proof (Al _ _ _ K Sc) as Sc'. destruct Sc as (v & b & I & Bb & Nn & E). destruct Sc' as (v' & b' & I' & Bb' & Nn' & E').
    apply biased_bias in Bb. apply biased_bias in Bb'. subst b b'.
    rewrite (call_ok cfg table p st0 a v code) in H by auto. injection H as <-.
    rewrite (call_ok cfg table' (swap p) st0 a v' code) by auto. reflexivity.
  - destruct (call_other cfg table p st0 a K B L N) as [E|(E & _)]; congruence.
Qed.

Lemma empty_call table p : stack p = [] -> call cfg table p = Err Other.
Proof. intros E. unfold call. rewrite E. reflexivity. Qed.

Context (Lg : Z.of_nat (length g) < 2 ^ 31) (Ll : Z.of_nat (length l) < 2 ^ 31).

(** What holds of the operands of calls, in terms of a state. *)
Definition fair (q : program) : Prop :=
  forall o e xs r st a, routine q = e ++ t2_bytes o ++ r -> each t2_number e xs -> stack q ++ xs = st ++ [a] ->
    (o = T2_CallSubr -> selects_alike (local q) l a /\ (overflow_checks cfg = true -> overflows_alike (local q) l a)) /\
    (o = T2_CallGSubr -> selects_alike (global q) g a /\ (overflow_checks cfg = true -> overflows_alike (global q) g a)).

Lemma loaded_swap p xs r : loaded (swap p) xs r = swap (loaded p xs r).
Proof. reflexivity. Qed.

Lemma step_swap q : valid_program q -> Z.of_nat (length (global q)) < 2 ^ 31 -> Z.of_nat (length (local q)) < 2 ^ 31 ->
  fair q -> step cfg (swap q) = map_outcome swapped (step cfg q).
Proof.
  intros V Hg Hl F. destruct (routine q) as [|b0 s0] eqn:R0.
  { rewrite !step_empty by auto. reflexivity. }
  assert (D0 : (exists e xs o r, each t2_number e xs /\ routine q = e ++ t2_bytes o ++ r) \/
    (exists k, step cfg q = Err k /\ step cfg (swap q) = Err k)).
  { unfold step. cbn [routine stack with_subroutines]. rewrite R0. cbn [done]. rewrite <- R0.
    pose proof (push_operands_settled (S (length (routine q))) (stack q) (routine q) ltac:(lia)) as St.
    destruct (push_operands _ _ _) as [[[st code] r]|k| |] eqn:E; try contradiction.
    2: { right. exists k. auto. }
    apply push_operands_inv in E as (e & xs & b & t & -> & X & -> & -> & -> & N).
    cbn [bind]. pose proof (read_t2_operator_settled (bz b) (b :: t)) as So.
    destruct (read_t2_operator (bz b) (b :: t)) as [[o r]|k| |] eqn:Eo; try contradiction.
    - left. apply read_t2_operator_sound in Eo. exists e, xs, o, r. rewrite Eo. auto.
    - right. exists k. auto. }
  destruct D0 as [(e & xs & o & r & X & E)|(k & E & E')]; [|rewrite E, E'; reflexivity].
  rewrite (step_code cfg q _ _ _ _ X E), (step_code cfg (swap q) _ _ _ _ X E), loaded_swap.
    assert (D : {o = T2_CallSubr \/ o = T2_CallGSubr} + {o <> T2_CallSubr /\ o <> T2_CallGSubr})
      by (destruct o; try (left; tauto); right; split; discriminate).
    destruct D as [C|[N1 N2]]; [|apply execute_swap; auto].
    pose proof (loaded_valid q e xs r V X) as [Vs _].
    destruct (stack (loaded q xs r)) as [|y ys] eqn:Es.
    { destruct C as [-> | ->]; cbn [execute]; rewrite !empty_call by exact Es; reflexivity. }
    destruct (@exists_last _ (y :: ys)) as (st & a & K); [discriminate|]. rewrite K in Vs, Es.
    assert (B : binary32 a) by (apply Forall_snoc in Vs; tauto).
    destruct (F o e xs r st a E X Es) as [F1 F2]. destruct C as [-> | ->]; cbn [execute].
    + destruct (F1 eq_refl) as [A1 A2]. change (local (swap (loaded q xs r))) with l.
      rewrite (call_swap (local (loaded q xs r)) l _ st a); auto. destruct (call cfg _ _); reflexivity.
    + destruct (F2 eq_refl) as [A1 A2]. change (global (swap (loaded q xs r))) with g.
      rewrite (call_swap (global (loaded q xs r)) g _ st a); auto. destruct (call cfg _ _); reflexivity.
Qed.

Lemma next_swap fuel : forall q, valid_program q -> Z.of_nat (length (global q)) < 2 ^ 31 -> Z.of_nat (length (local q)) < 2 ^ 31 ->
  (forall ops q', trace cfg q ops q' -> fair q') ->
  next cfg fuel (swap q) = outcome_with g l (next cfg fuel q).
Proof.
  induction fuel as [|fuel IH]; intros q V Hg Hl F; cbn [next]; [reflexivity|].
  rewrite step_swap by (auto; eapply F; constructor).
  destruct (step cfg q) as [[x p'|p']|k|k|] eqn:E; cbn [map_outcome swapped bind]; try reflexivity.
  pose proof (trace_again cfg q p' [] p' E (trace_stop _ _)) as T.
  pose proof (trace_subs _ _ _ _ T) as [Eg El]. apply IH.
  - apply (trace_valid _ _ _ _ T V).
  - congruence.
  - congruence.
  - intros ops q' T'. apply (F ops). eapply trace_again; eauto.
Qed.

Lemma next_traces fuel : forall q x p', next cfg fuel q = Ok (Some x, p') -> trace cfg q [x] p'.
Proof.
  induction fuel as [|fuel IH]; intros q x p' H; cbn [next] in H; [discriminate|].
  destruct (step cfg q) as [[y q'|q']|k|k|] eqn:E; cbn [bind] in H; try discriminate.
  - injection H as -> ->. eapply trace_emit; eauto. constructor.
  - eapply trace_again; eauto.
Qed.

Lemma run_swap fuel : forall q, valid_program q -> Z.of_nat (length (global q)) < 2 ^ 31 -> Z.of_nat (length (local q)) < 2 ^ 31 ->
  (forall ops q', trace cfg q ops q' -> fair q') ->
  run cfg fuel (swap q) = outcome_with g l (run cfg fuel q).
Proof.
  induction fuel as [|fuel IH]; intros q V Hg Hl F; [reflexivity|]. cbn [run].
  rewrite next_swap by auto.
  destruct (next cfg (S fuel) q) as [[[x|] p']|k|k|] eqn:E; cbn [outcome_with bind]; try reflexivity.
  apply next_traces in E as T.
  pose proof (trace_subs _ _ _ _ T) as [Eg El]. rewrite IH.
  - destruct (run cfg fuel p') as [[ops p'']|k|k|]; reflexivity.
  - apply (trace_valid _ _ _ _ T V).
  - congruence.
  - congruence.
  - intros ops q' T'. eapply F. eapply trace_app; eauto.
Qed.

(** The same for executions that succeed. *)
Definition fair_ok (q : program) : Prop :=
  forall o e xs r st a code, routine q = e ++ t2_bytes o ++ r -> each t2_number e xs -> stack q ++ xs = st ++ [a] ->
    (o = T2_CallSubr -> selects (local q) a code -> selects l a code) /\
    (o = T2_CallGSubr -> selects (global q) a code -> selects g a code).

Lemma step_swap_ok q s : valid_program q -> Z.of_nat (length (global q)) < 2 ^ 31 -> Z.of_nat (length (local q)) < 2 ^ 31 ->
  fair_ok q -> step cfg q = Ok s -> step cfg (swap q) = Ok (swapped s).
Proof.
  intros V Hg Hl F H. apply step_inv in H as [[R ->]|(e & xs & o & r & X & E & H)].
  { apply step_empty. exact R. }
  rewrite (step_code cfg (swap q) _ _ _ _ X E), loaded_swap.
  assert (D : {o = T2_CallSubr \/ o = T2_CallGSubr} + {o <> T2_CallSubr /\ o <> T2_CallGSubr})
    by (destruct o; try (left; tauto); right; split; discriminate).
  destruct D as [C|[N1 N2]]; [|rewrite execute_swap, H by auto; reflexivity].
  pose proof (loaded_valid q e xs r V X) as [Vs _]. destruct C as [-> | ->]; cbn [execute] in *.
  - destruct (call cfg (local (loaded q xs r)) (loaded q xs r)) as [p'|k|k|] eqn:Ec; try discriminate. injection H as <-.
    change (local (swap (loaded q xs r))) with l. erewrite call_swap_ok; [reflexivity| | | | |exact Ec]; auto.
    intros st a code K. apply (F T2_CallSubr e xs r st a code); auto.
  - destruct (call cfg (global (loaded q xs r)) (loaded q xs r)) as [p'|k|k|] eqn:Ec; try discriminate. injection H as <-.
    change (global (swap (loaded q xs r))) with g. erewrite call_swap_ok; [reflexivity| | | | |exact Ec]; auto.
    intros st a code K. apply (F T2_CallGSubr e xs r st a code); auto.
Qed.

Lemma trace_swap_ok q ops q' : trace cfg q ops q' ->
  valid_program q -> Z.of_nat (length (global q)) < 2 ^ 31 -> Z.of_nat (length (local q)) < 2 ^ 31 ->
  (forall ops' q'', trace cfg q ops' q'' -> fair_ok q'') -> trace cfg (swap q) ops (swap q').
Proof.
  induction 1 as [p|p p' ops q E T IH|p x p' ops q E T IH]; intros V Hg Hl F; [constructor| |].
  - pose proof (trace_again cfg p p' [] p' E (trace_stop _ _)) as T1. pose proof (trace_subs _ _ _ _ T1) as [Eg El].
    eapply trace_again; [apply (step_swap_ok p (Again p') V Hg Hl); auto; eapply F; constructor|].
    apply IH; [apply (trace_valid _ _ _ _ T1 V)|congruence|congruence|].
    intros ops' q'' T'. apply (F ops'). eapply trace_again; eauto.
  - pose proof (trace_emit cfg p x p' [] p' E (trace_stop _ _)) as T1. pose proof (trace_subs _ _ _ _ T1) as [Eg El].
    eapply trace_emit; [apply (step_swap_ok p (Yield (Some x) p') V Hg Hl); auto; eapply F; constructor|].
    apply IH; [apply (trace_valid _ _ _ _ T1 V)|congruence|congruence|].
    intros ops' q'' T'. apply (F (x :: ops')). eapply trace_emit; eauto.
Qed.

Lemma next_swap_ok fuel : forall q x p', valid_program q -> Z.of_nat (length (global q)) < 2 ^ 31 -> Z.of_nat (length (local q)) < 2 ^ 31 ->
  (forall ops q', trace cfg q ops q' -> fair_ok q') ->
  next cfg fuel q = Ok (x, p') -> next cfg fuel (swap q) = Ok (x, swap p').
Proof.
  induction fuel as [|fuel IH]; intros q x p' V Hg Hl F H; cbn [next] in *; [discriminate|].
  destruct (step cfg q) as [[y q'|q']|k|k|] eqn:E; cbn [bind] in H; try discriminate;
    rewrite (step_swap_ok q _ V Hg Hl) with (2 := E) by (eapply F; constructor); cbn [swapped bind].
  - injection H as -> ->. reflexivity.
  - pose proof (trace_again cfg q q' [] q' E (trace_stop _ _)) as T. pose proof (trace_subs _ _ _ _ T) as [Eg El].
    apply IH; [apply (trace_valid _ _ _ _ T V)|congruence|congruence| |exact H].
    intros ops' q'' T'. apply (F ops'). eapply trace_again; eauto.
Qed.

Lemma run_swap_ok fuel : forall q ops p', valid_program q -> Z.of_nat (length (global q)) < 2 ^ 31 -> Z.of_nat (length (local q)) < 2 ^ 31 ->
  (forall ops q', trace cfg q ops q' -> fair_ok q') ->
  run cfg fuel q = Ok (ops, p') -> run cfg fuel (swap q) = Ok (ops, swap p').
Proof.
  induction fuel as [|fuel IH]; intros q ops p' V Hg Hl F H; [discriminate|]. cbn [run] in *.
  destruct (next cfg (S fuel) q) as [[[x|] q']|k|k|] eqn:E; cbn [bind] in H; try discriminate;
    rewrite (next_swap_ok _ _ _ _ V Hg Hl F E); cbn [bind].
  - destruct (run cfg fuel q') as [[ops' q'']|k|k|] eqn:R; try discriminate. injection H as <- <-.
    apply next_traces in E as T. pose proof (trace_subs _ _ _ _ T) as [Eg El].
    rewrite (IH q' ops' q''); [reflexivity|apply (trace_valid _ _ _ _ T V)|congruence|congruence| |exact R].
    intros ops0 q0 T'. eapply F. eapply trace_app; eauto.
  - injection H as <- <-. reflexivity.
Qed.
End Tables.

Lemma uncalled cfg code g l g' l' :
  Z.of_nat (length g) < 2 ^ 31 -> Z.of_nat (length l) < 2 ^ 31 ->
  Z.of_nat (length g') < 2 ^ 31 -> Z.of_nat (length l') < 2 ^ 31 ->
  (forall a, comes_to cfg (new_program code g l) T2_CallSubr a ->
     selects_alike l l' a /\ (overflow_checks cfg = true -> overflows_alike l l' a)) ->
  (forall a, comes_to cfg (new_program code g l) T2_CallGSubr a ->
     selects_alike g g' a /\ (overflow_checks cfg = true -> overflows_alike g g' a)) ->
  forall fuel,
    next cfg fuel (new_program code g' l') = outcome_with g' l' (next cfg fuel (new_program code g l)) /\
    run cfg fuel (new_program code g' l') = outcome_with g' l' (run cfg fuel (new_program code g l)).
Proof.
  intros Hg Hl Hg' Hl' Al Ag fuel.
  change (new_program code g' l') with (with_subroutines g' l' (new_program code g l)).
  assert (F : forall ops q, trace cfg (new_program code g l) ops q -> fair cfg g' l' q).
  { intros ops q T o e xs r st a E X K. pose proof (trace_subs _ _ _ _ T) as [Eg El].
    cbn [new_program global local] in Eg, El. rewrite Eg, El.
    split; intros ->; [apply Al|apply Ag]; exists ops, q, e, xs, r, st; auto. }
  split; [apply next_swap|apply run_swap]; auto using new_valid.
Qed.

Lemma uncalled_ok cfg code g l g' l' :
  Z.of_nat (length g) < 2 ^ 31 -> Z.of_nat (length l) < 2 ^ 31 ->
  Z.of_nat (length g') < 2 ^ 31 -> Z.of_nat (length l') < 2 ^ 31 ->
  (forall a body, comes_to cfg (new_program code g l) T2_CallSubr a -> selects l a body -> selects l' a body) ->
  (forall a body, comes_to cfg (new_program code g l) T2_CallGSubr a -> selects g a body -> selects g' a body) ->
  forall ops q,
    (trace cfg (new_program code g l) ops q ->
     trace cfg (new_program code g' l') ops (with_subroutines g' l' q)) /\
    (runs cfg (new_program code g l) (Ok (ops, q)) ->
     runs cfg (new_program code g' l') (Ok (ops, with_subroutines g' l' q))).
Proof.
  intros Hg Hl Hg' Hl' Al Ag ops q.
  change (new_program code g' l') with (with_subroutines g' l' (new_program code g l)).
  assert (F : forall ops q, trace cfg (new_program code g l) ops q -> fair_ok g' l' q).
  { clear ops q. intros ops q T o e xs r st a body E X K. pose proof (trace_subs _ _ _ _ T) as [Eg El].
    cbn [new_program global local] in Eg, El. rewrite Eg, El.
    split; intros ->; [apply Al|apply Ag]; exists ops, q, e, xs, r, st; auto. }
  split; [intros T; apply trace_swap_ok; auto using new_valid|].
  intros (_ & fuel & R). split; [discriminate|]. exists fuel. apply run_swap_ok; auto using new_valid.
Qed.

Lemma selects_appended table more b a code :
  biased (Z.of_nat (length table)) b -> biased (Z.of_nat (length (table ++ more))) b ->
  selects table a code -> selects (table ++ more) a code.
Proof.
  intros B B' (v & c & I & C & N & E). exists v, b. apply biased_bias in B. apply biased_bias in C. subst c. rewrite <- B in *.
  repeat split; auto; try apply I. rewrite nth_error_app1; auto. apply nth_error_Some. congruence.
Qed.

Lemma appended_ok cfg code g l more more' b b' :
  Z.of_nat (length (g ++ more)) < 2 ^ 31 -> Z.of_nat (length (l ++ more')) < 2 ^ 31 ->
  biased (Z.of_nat (length g)) b -> biased (Z.of_nat (length (g ++ more))) b ->
  biased (Z.of_nat (length l)) b' -> biased (Z.of_nat (length (l ++ more'))) b' ->
  forall ops q,
    (trace cfg (new_program code g l) ops q ->
     trace cfg (new_program code (g ++ more) (l ++ more')) ops (with_subroutines (g ++ more) (l ++ more') q)) /\
    (runs cfg (new_program code g l) (Ok (ops, q)) ->
     runs cfg (new_program code (g ++ more) (l ++ more')) (Ok (ops, with_subroutines (g ++ more) (l ++ more') q))).
Proof.
  intros Hg Hl B1 B2 B3 B4. rewrite app_length in Hg, Hl. apply uncalled_ok; try (rewrite ?app_length; lia).
  - intros a body _. apply selects_appended with b'; auto.
  - intros a body _. apply selects_appended with b; auto.
Qed.

Lemma callfree cfg code g l g' l' :
  Z.of_nat (length g) < 2 ^ 31 -> Z.of_nat (length l) < 2 ^ 31 ->
  Z.of_nat (length g') < 2 ^ 31 -> Z.of_nat (length l') < 2 ^ 31 ->
  (forall a, ~ comes_to cfg (new_program code g l) T2_CallSubr a) ->
  (forall a, ~ comes_to cfg (new_program code g l) T2_CallGSubr a) ->
  forall fuel,
    next cfg fuel (new_program code g' l') = outcome_with g' l' (next cfg fuel (new_program code g l)) /\
    run cfg fuel (new_program code g' l') = outcome_with g' l' (run cfg fuel (new_program code g l)).
Proof. intros Hg Hl Hg' Hl' N1 N2. apply uncalled; auto; intros a C; exfalso; [apply (N1 a)|apply (N2 a)]; auto. Qed.

(** ** Concrete programs *)

Lemma comes_now q e xs o r : routine q = e ++ t2_bytes o ++ r -> each t2_number e xs ->
  exists code, push_operands (S (length (routine q))) (stack q) (routine q) = Ok ((stack q ++ xs, code), t2_bytes o ++ r) /\
    read_t2_operator code (t2_bytes o ++ r) = Ok (o, r).
Proof.
  intros R X. destruct (read_t2_operator_complete o r) as (b & t & Eb & N & RO). exists (bz b). split; auto.
  rewrite R, (push_operands_app _ _ X) by lia. rewrite Eb. cbn [app]. rewrite push_operands_stop by auto. reflexivity.
Qed.

(** The operators that a state comes to, with the top of the stack, satisfy a test; so do those of
    all the states after it. *)
Definition tested (test : t2_operator -> f32 -> bool) (q : program) : bool :=
  match push_operands (S (length (routine q))) (stack q) (routine q) with
  | Ok ((st, code), s) =>
      match read_t2_operator code s, vec_pop st with
      | Ok (o, _), Some (a, _) => test o a
      | _, _ => true
      end
  | _ => true
  end.
Fixpoint all_tested (cfg : config) (test : t2_operator -> f32 -> bool) (fuel : nat) (q : program) : bool :=
  match fuel with
  | O => false
  | S fuel =>
      tested test q &&
      match step cfg q with
      | Ok (Again q') | Ok (Yield (Some _) q') => all_tested cfg test fuel q'
      | _ => true
      end
  end.

Lemma all_tested_trace cfg test p ops q : trace cfg p ops q -> forall fuel, all_tested cfg test fuel p = true -> tested test q = true.
Proof.
  induction 1 as [p|p p' ops q E T IH|p x p' ops q E T IH]; intros [|fuel] H; cbn [all_tested] in H; try discriminate;
    apply andb_prop in H as [H1 H2]; auto; rewrite E in H2; eauto.
Qed.

Lemma tested_comes cfg test fuel p o a : all_tested cfg test fuel p = true -> comes_to cfg p o a -> test o a = true.
Proof.
  intros H (ops & q & e & xs & r & st & T & R & X & K). pose proof (all_tested_trace _ _ _ _ _ T _ H) as Tq.
  destruct (comes_now q e xs o r R X) as (code & P & Q). unfold tested in Tq. rewrite P, Q, K, vec_pop_app in Tq. exact Tq.
Qed.

(** With one more subroutine, -107 is the number of another one. *)
Definition boundary : list (list byte) := [x8c; x16; x0b] :: repeat [x0b] 1238.

Lemma appended_changes cfg : exists code l more ops q ops' q',
  runs cfg (new_program code [] l) (Ok (ops, q)) /\
  runs cfg (new_program code [] (l ++ more)) (Ok (ops', q')) /\ ops <> ops'.
Proof.
  exists [x20; x0a; x0e], boundary, [[x0b]], [(T2_HMoveTo, [f32_of_i32 1])]. eexists. exists []. eexists.
  split; [|split].
  - split; [discriminate|]. exists 8%nat. destruct cfg as [[] [] []]; vm_compute; reflexivity.
  - split; [discriminate|]. exists 8%nat. destruct cfg as [[] [] []]; vm_compute; reflexivity.
  - discriminate.
Qed.

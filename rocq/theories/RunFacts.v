(** RunFacts: rounds, calls of [next], and executions. *)
From Verif Require Import Base Float T2Operation T2Program BaseFacts SpecProgram StepFacts ClearFacts.
Local Open Scope Z_scope.

(** ** The kinds of operators *)

(** What such an operator does to the stack. *)
Definition effect (cfg : config) (o : t2_operator) (st : list f32) : outcome (list f32) :=
  match execute cfg o {| routine := []; callers := []; global := []; local := []; stack := st; stems := 0; width := None |} with
  | Ok (Again p) => Ok (stack p)
  | Ok (Yield _ p) => Ok (stack p)
  | Err k => Err k
  | Panic k => Panic k
  | OutOfFuel => OutOfFuel
  end.

Lemma execute_stack cfg o p : stack_operator o = true ->
  execute cfg o p = with_stack p (effect cfg o (stack p)).
Proof.
  intros H. unfold effect.
  destruct o; try discriminate; cbn [execute stack]; unfold with_stack;
    match goal with |- bind ?m _ = _ => destruct m; reflexivity end.
Qed.

Lemma execute_again cfg o p p' : execute cfg o p = Ok (Again p') ->
  (stack_operator o = true /\ exists st, effect cfg o (stack p) = Ok st /\ p' = set_stack p st) \/
  ((o = T2_CallSubr \/ o = T2_CallGSubr) /\
   call cfg (match o with T2_CallSubr => local p | _ => global p end) p = Ok p') \/
  (o = T2_Return /\ exists c cs, callers p = c :: cs /\ p' = set_frames p c cs).
Proof.
  intros H. destruct (stack_operator o) eqn:S.
  - left. split; auto. rewrite execute_stack in H by auto. unfold with_stack in H. inv_ok H.
    injection H as <-. eauto.
  - right. destruct (path_or_hint o) eqn:P.
    { exfalso. revert H. unfold path_or_hint in P.
      assert (C : forall l q, clear o l q <> Ok (Again p')).
      { intros l q. unfold clear. destruct (fold_left _ _ _); [|discriminate].
        destruct (Nat.ltb 0 n && _); cbn; [|discriminate]. destruct (nth_error _ _); discriminate. }
      destruct o; try discriminate; cbn [execute]; intros H;
        try (apply C in H; contradiction);
        repeat (inv_ok H; try match type of H with context [let (_, _) := ?a in _] => destruct a end);
        apply C in H; contradiction. }
    destruct o; try discriminate; cbn [execute] in H.
    + left. split; auto. inv_ok H. injection H as <-. auto.
    + right. split; auto. destruct (callers p) as [|c cs]; [discriminate|]. injection H as <-. eauto.
    + inv_ok H. discriminate.
    + left. split; auto. inv_ok H. injection H as <-. auto.
Qed.

Lemma execute_none cfg o p p' : execute cfg o p = Ok (Yield None p') ->
  o = T2_EndChar /\ exists r, unwind (routine p) (callers p) = Ok r /\
    p' = set_width (set_frames p r [])
      (match vec_pop (stack p), width p with Some (top, _), None => Some top | _, w => w end).
Proof.
  intros H. destruct (path_or_hint o) eqn:P.
  { exfalso. revert H. unfold path_or_hint in P.
    assert (C : forall l q, clear o l q <> Ok (Yield None p')).
    { intros l q. unfold clear. destruct (fold_left _ _ _); [|discriminate].
      destruct (Nat.ltb 0 n && _); cbn; [|discriminate]. destruct (nth_error _ _); discriminate. }
    destruct o; try discriminate; cbn [execute]; intros H;
      try (apply C in H; contradiction);
      repeat (inv_ok H; try match type of H with context [let (_, _) := ?a in _] => destruct a end);
      apply C in H; contradiction. }
  destruct (stack_operator o) eqn:S.
  { rewrite execute_stack in H by auto. unfold with_stack in H. inv_ok H. discriminate. }
  destruct o; try discriminate; cbn [execute] in H.
  - inv_ok H. discriminate.
  - destruct (callers p); discriminate.
  - split; auto. inv_ok H. injection H as <-. eauto.
  - inv_ok H. discriminate.
Qed.

Lemma call_inv cfg subs p p' : call cfg subs p = Ok p' ->
  exists st code, In code subs /\ p' = set_frames (set_stack p st) code (routine p :: callers p).
Proof.
  unfold call. intros H. inv_ok H. destruct a as [a st]. inv_ok H.
  destruct ((a0 <? 0) || _); [discriminate|]. destruct (nth_error subs _) eqn:E; [|discriminate].
  injection H as <-. exists st, l. split; auto. eapply nth_error_In; eauto.
Qed.

(** ** More fuel *)

Lemma next_more cfg f : forall f' p r, next cfg f p = r -> r <> OutOfFuel -> (f <= f')%nat -> next cfg f' p = r.
Proof.
  induction f as [|f IH]; intros f' p r H N L; [cbn in H; congruence|].
  destruct f' as [|f']; [lia|]. cbn [next] in *. destruct (step cfg p) as [[x q|q]| | |]; cbn [bind] in *; auto.
  apply IH; auto. lia.
Qed.

Lemma run_more cfg f : forall f' p r, run cfg f p = r -> r <> OutOfFuel -> (f <= f')%nat -> run cfg f' p = r.
Proof.
  induction f as [|f IH]; intros f' p r H N L; [cbn in H; congruence|].
  destruct f' as [|f']; [lia|]. cbn [run] in *.
  destruct (next cfg (S f) p) as [[x q]| | |] eqn:E; cbn [bind] in *; try congruence.
  - rewrite (next_more _ _ (S f') _ _ E) by (discriminate || lia). cbn [bind].
    destruct x as [x|]; auto. destruct (run cfg f q) as [[ops q']| | |] eqn:R; cbn [bind] in *; try congruence;
      rewrite (IH f' q _ R) by (discriminate || lia); auto.
  - rewrite (next_more _ _ (S f') _ _ E) by (discriminate || lia). auto.
  - rewrite (next_more _ _ (S f') _ _ E) by (discriminate || lia). auto.
Qed.

Lemma nexts_det cfg p r r' : nexts cfg p r -> nexts cfg p r' -> r = r'.
Proof.
  intros (N & f & E) (N' & f' & E'). destruct (Nat.le_ge_cases f f') as [L|L].
  - rewrite (next_more _ _ _ _ _ E N L) in E'. auto.
  - rewrite (next_more _ _ _ _ _ E' N' L) in E. auto.
Qed.

Lemma runs_det cfg p r r' : runs cfg p r -> runs cfg p r' -> r = r'.
Proof.
  intros (N & f & E) (N' & f' & E'). destruct (Nat.le_ge_cases f f') as [L|L].
  - rewrite (run_more _ _ _ _ _ E N L) in E'. auto.
  - rewrite (run_more _ _ _ _ _ E' N' L) in E. auto.
Qed.

(** ** Rounds and calls of [next] *)

Lemma next_same cfg f p p' : step cfg p = step cfg p' -> next cfg f p = next cfg f p'.
Proof. intros E. destruct f; auto. cbn [next]. rewrite E. reflexivity. Qed.

Lemma run_same cfg f p p' : step cfg p = step cfg p' -> run cfg f p = run cfg f p'.
Proof. intros E. destruct f; auto. cbn [run]. rewrite (next_same _ _ _ _ E). reflexivity. Qed.

Lemma nexts_same cfg p p' r : step cfg p = step cfg p' -> nexts cfg p r <-> nexts cfg p' r.
Proof.
  intros E. unfold nexts. split; intros (N & f & H); (split; [auto|]); exists f;
    [rewrite <- (next_same _ _ _ _ E)|rewrite (next_same _ _ _ _ E)]; auto.
Qed.

Lemma runs_same cfg p p' r : step cfg p = step cfg p' -> runs cfg p r <-> runs cfg p' r.
Proof.
  intros E. unfold runs. split; intros (N & f & H); (split; [auto|]); exists f;
    [rewrite <- (run_same _ _ _ _ E)|rewrite (run_same _ _ _ _ E)]; auto.
Qed.

Lemma nexts_again cfg p p' r : step cfg p = Ok (Again p') -> nexts cfg p r <-> nexts cfg p' r.
Proof.
  intros E. unfold nexts. split; intros (N & f & H); (split; [auto|]).
  - destruct f as [|f]; [cbn in H; congruence|]. cbn [next] in H. rewrite E in H. exists f. exact H.
  - exists (S f). cbn [next]. rewrite E. exact H.
Qed.

Lemma nexts_yield cfg p x p' r : step cfg p = Ok (Yield x p') -> nexts cfg p r <-> r = Ok (x, p').
Proof.
  intros E. unfold nexts. split.
  - intros (N & f & H). destruct f as [|f]; [cbn in H; congruence|]. cbn [next] in H. rewrite E in H. auto.
  - intros ->. split; [discriminate|]. exists 1%nat. cbn [next]. rewrite E. reflexivity.
Qed.

Lemma nexts_err cfg p k r : step cfg p = Err k -> nexts cfg p r <-> r = Err k.
Proof.
  intros E. unfold nexts. split.
  - intros (N & f & H). destruct f as [|f]; [cbn in H; congruence|]. cbn [next] in H. rewrite E in H. auto.
  - intros ->. split; [discriminate|]. exists 1%nat. cbn [next]. rewrite E. reflexivity.
Qed.

Lemma nexts_panic cfg p k r : step cfg p = Panic k -> nexts cfg p r <-> r = Panic k.
Proof.
  intros E. unfold nexts. split.
  - intros (N & f & H). destruct f as [|f]; [cbn in H; congruence|]. cbn [next] in H. rewrite E in H. auto.
  - intros ->. split; [discriminate|]. exists 1%nat. cbn [next]. rewrite E. reflexivity.
Qed.

(** ** Executions *)

(** Operations in front of those of an execution. *)
Definition prefixed (xs : list t2_operation) (r : outcome (list t2_operation * program)) :=
  match r with Ok (ops, q) => Ok (xs ++ ops, q) | Err k => Err k | Panic k => Panic k | OutOfFuel => OutOfFuel end.

Lemma runs_next cfg p x q r : nexts cfg p (Ok (Some x, q)) -> runs cfg q r -> runs cfg p (prefixed [x] r).
Proof.
  intros (_ & f & E) (N & g & R). split; [destruct r as [[ops q']| | |]; cbn; congruence|].
  exists (S (f + g)). cbn [run]. rewrite (next_more _ _ (S (f + g)) _ _ E) by (discriminate || lia). cbn [bind].
  rewrite (run_more _ _ (f + g)%nat _ _ R) by (auto || lia). destruct r as [[ops q']| | |]; reflexivity.
Qed.

Lemma runs_none cfg p q : nexts cfg p (Ok (None, q)) -> runs cfg p (Ok ([], q)).
Proof.
  intros (_ & f & E). split; [discriminate|]. exists (S f). cbn [run].
  rewrite (next_more _ _ (S f) _ _ E) by (discriminate || lia). reflexivity.
Qed.

Lemma runs_err cfg p k : nexts cfg p (Err k) -> runs cfg p (Err k).
Proof.
  intros (_ & f & E). split; [discriminate|]. exists (S f). cbn [run].
  rewrite (next_more _ _ (S f) _ _ E) by (discriminate || lia). reflexivity.
Qed.

Lemma runs_panic cfg p k : nexts cfg p (Panic k) -> runs cfg p (Panic k).
Proof.
  intros (_ & f & E). split; [discriminate|]. exists (S f). cbn [run].
  rewrite (next_more _ _ (S f) _ _ E) by (discriminate || lia). reflexivity.
Qed.

Lemma runs_inv cfg p r : runs cfg p r ->
  (exists x q r', nexts cfg p (Ok (Some x, q)) /\ runs cfg q r' /\ r = prefixed [x] r') \/
  (exists q, nexts cfg p (Ok (None, q)) /\ r = Ok ([], q)) \/
  (exists k, nexts cfg p (Err k) /\ r = Err k) \/ (exists k, nexts cfg p (Panic k) /\ r = Panic k).
Proof.
  intros (N & f & H). destruct f as [|f]; [cbn in H; congruence|]. cbn [run] in H.
  destruct (next cfg (S f) p) as [[[x|] q]|k|k|] eqn:E; cbn [bind] in H; try congruence.
  - left. exists x, q, (run cfg f q). split; [split; [discriminate|eauto]|].
    destruct (run cfg f q) as [[ops q']|k|k|] eqn:R; cbn in H; subst r; try congruence;
      (split; [split; [discriminate|eauto]|reflexivity]).
  - right. left. exists q. split; [split; [discriminate|eauto]|auto].
  - right. right. left. exists k. split; [split; [discriminate|eauto]|auto].
  - right. right. right. exists k. split; [split; [discriminate|eauto]|auto].
Qed.

Lemma runs_again cfg p p' r : step cfg p = Ok (Again p') -> runs cfg p r <-> runs cfg p' r.
Proof.
  intros E. split; intros H.
  - apply runs_inv in H as [(x & q & r' & H & R & ->)|[(q & H & ->)|[(k & H & ->)|(k & H & ->)]]];
      apply (nexts_again _ _ _ _ E) in H; eauto using runs_next, runs_none, runs_err, runs_panic.
  - apply runs_inv in H as [(x & q & r' & H & R & ->)|[(q & H & ->)|[(k & H & ->)|(k & H & ->)]]];
      apply (nexts_again _ _ _ _ E) in H; eauto using runs_next, runs_none, runs_err, runs_panic.
Qed.

Lemma runs_emit cfg p x p' r : step cfg p = Ok (Yield (Some x) p') ->
  runs cfg p r <-> exists r', runs cfg p' r' /\ r = prefixed [x] r'.
Proof.
  intros E. split.
  - intros H. apply runs_inv in H as [(y & q & r' & H & R & ->)|[(q & H & ->)|[(k & H & ->)|(k & H & ->)]]];
      apply (nexts_yield _ _ _ _ _ E) in H; inversion H; subst; eauto.
  - intros (r' & R & ->). eapply runs_next; eauto. apply (nexts_yield _ _ _ _ _ E). reflexivity.
Qed.

Lemma prefixed_app xs ys r : prefixed xs (prefixed ys r) = prefixed (xs ++ ys) r.
Proof. destruct r as [[ops q]| | |]; cbn; auto. rewrite app_assoc. reflexivity. Qed.

Lemma prefixed_nil r : prefixed [] r = r.
Proof. destruct r as [[ops q]| | |]; reflexivity. Qed.

Lemma trace_runs cfg p ops q : trace cfg p ops q -> forall r,
  runs cfg p r <-> exists r', runs cfg q r' /\ r = prefixed ops r'.
Proof.
  induction 1 as [p|p p' ops q S T IH|p x p' ops q S T IH]; intros r.
  - split; [intros H; exists r; rewrite prefixed_nil; auto|]. intros (r' & R & ->). rewrite prefixed_nil. auto.
  - rewrite (runs_again _ _ _ _ S). apply IH.
  - rewrite (runs_emit _ _ _ _ _ S). split.
    + intros (r' & R & ->). apply IH in R as (r'' & R & ->). exists r''. split; auto.
      rewrite prefixed_app. reflexivity.
    + intros (r' & R & ->). exists (prefixed ops r'). split; [apply IH; eauto|].
      rewrite prefixed_app. reflexivity.
Qed.

Lemma trace_app cfg p ops q ops' q' : trace cfg p ops q -> trace cfg q ops' q' -> trace cfg p (ops ++ ops') q'.
Proof. induction 1; intros T; cbn; auto; [eapply trace_again|eapply trace_emit]; eauto. Qed.

Lemma trace_nexts cfg p q r : trace cfg p [] q -> nexts cfg p r <-> nexts cfg q r.
Proof.
  intros T. remember [] as ops eqn:E. induction T as [p|p p' ops q S T IH|]; [reflexivity| |discriminate].
  rewrite (nexts_again _ _ _ _ S). auto.
Qed.

(** A result of [next] comes from a last round. *)
Lemma nexts_trace cfg p x p' : nexts cfg p (Ok (x, p')) ->
  exists q, trace cfg p [] q /\ step cfg q = Ok (Yield x p').
Proof.
  intros (_ & f & H). revert p H. induction f as [|f IH]; intros p H; [discriminate|]. cbn [next] in H.
  destruct (step cfg p) as [[y q|q]| | |] eqn:E; cbn [bind] in H; try discriminate.
  - injection H as -> ->. exists p. split; auto. constructor.
  - apply IH in H as (q' & T & S). exists q'. split; auto. econstructor; eauto.
Qed.

Lemma nexts_trace_panic cfg p k : nexts cfg p (Panic k) -> exists q, trace cfg p [] q /\ step cfg q = Panic k.
Proof.
  intros (_ & f & H). revert p H. induction f as [|f IH]; intros p H; [discriminate|]. cbn [next] in H.
  destruct (step cfg p) as [[y q|q]| | |] eqn:E; cbn [bind] in H; try discriminate.
  - apply IH in H as (q' & T & S). exists q'. split; auto. econstructor; eauto.
  - exists p. split; [constructor|congruence].
Qed.

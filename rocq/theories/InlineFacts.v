(** InlineFacts: subroutines can be inlined, renumbered and moved. *)
From Coq Require Import Reals.
From Verif Require Import Base Float T2Number T2Operation T2Program BaseFacts SpecProgram T2NumberFacts StepFacts
  RunFacts FloatFacts EvalFacts IntegralFacts StackFacts ClearFacts ExecutionFacts SubroutineFacts ProgramFacts FailureFacts
  CallsFacts SpecNest SpecRewrite RewriteFacts BoundFacts SpecInline.
Local Open Scope list_scope.
Local Open Scope Z_scope.

Section Inline.
Context (cfg : config) (k : nat) (Bk : Z.of_nat k < 2 ^ 60).
Context (g l g' l' : list (list byte)).
Context (Bg : Z.of_nat (length g) < 2 ^ 31) (Bl : Z.of_nat (length l) < 2 ^ 31).
Context (Bg' : Z.of_nat (length g') < 2 ^ 31) (Bl' : Z.of_nat (length l') < 2 ^ 31).
Context (bodies : list byte -> list byte -> Prop).
Notation rewritten := (rewritten cfg k g l g' l' bodies).
Context (Bodies : forall b b', bodies b b' -> rewritten b [] b').

(** ** States *)

(** The callers, with those that have been inlined. *)
Inductive framed : list (list byte) -> list (list byte) -> Prop :=
| framed_nil : framed [] []
| framed_cons c returns c' outer outer' :
    rewritten c returns c' -> framed outer outer' -> framed (c :: returns ++ outer) (c' :: outer').

(** What the programs have in common. *)
Record common (p p' : program) : Prop := {
  com_global : global p = g;
  com_local : local p = l;
  com_global' : global p' = g';
  com_local' : local p' = l';
  com_stack : stack p = stack p';
  com_stems : stems p = stems p';
  com_width : width p = width p'
}.

Definition linked (p p' : program) : Prop :=
  exists returns outer, callers p = returns ++ outer /\ rewritten (routine p) returns (routine p') /\
    framed outer (callers p') /\ common p p'.

Definition linked_results (r r' : outcome stepped) : Prop :=
  match r, r' with
  | Ok (Again q), Ok (Again q') => linked q q'
  | Ok (Yield (Some x) q), Ok (Yield (Some x') q') => x = x' /\ linked q q'
  | Ok (Yield None q), Ok (Yield None q') => width q = width q'
  | Err e, Err e' => e = e'
  | Panic e, Panic e' => e = e'
  | OutOfFuel, OutOfFuel => True
  | _, _ => False
  end.

Lemma with_stack_linked p p' m : linked p p' -> linked_results (with_stack p m) (with_stack p' m).
Proof.
  intros (returns & outer & C & R & F & []). destruct m; cbn; auto. exists returns, outer. repeat split; auto.
Qed.

Lemma clear_linked o a p p' : linked p p' -> linked_results (clear o a p) (clear o a p').
Proof.
  intros (returns & outer & C & R & F & []). unfold clear. rewrite <- com_stack0. destruct (fold_left _ _ _) as [?|]; [|reflexivity].
  rewrite <- com_width0. match goal with |- linked_results (bind ?m _) _ => destruct m; cbn end; auto.
  split; auto. exists returns, outer. repeat split; auto.
Qed.

Lemma plain_linked o p p' : plain_operator o = true -> linked p p' -> linked_results (execute cfg o p) (execute cfg o p').
Proof.
  intros M T. assert (K : stack p = stack p') by (destruct T as (? & ? & _ & _ & _ & []); auto).
  assert (N : stems p = stems p') by (destruct T as (? & ? & _ & _ & _ & []); auto).
  destruct o; try discriminate M; unfold execute;
    rewrite <- ?K; try (apply clear_linked; exact T); try (apply with_stack_linked; exact T); try reflexivity;
    rewrite <- N; destruct (add_u64 cfg _ _); cbn [bind linked_results]; auto; apply clear_linked;
    destruct T as (returns & outer & C & R & F & []); exists returns, outer; repeat split; auto.
Qed.

Lemma number_nonempty e x c : t2_number e x -> e ++ c <> [].
Proof. intros N E. symmetry in E. exact (nothing_number _ _ _ N E). Qed.
Lemma operator_nonempty o c : t2_bytes o ++ c <> [].
Proof. intros E. symmetry in E. exact (nothing_operator _ _ E). Qed.
Lemma numbers_nonempty e x xs : each t2_number e (x :: xs) -> e <> [].
Proof. intros E. inversion E; subst. eapply number_nonempty; eauto. Qed.

Lemma rewritten_empty returns c' : rewritten [] returns c' -> c' = [].
Proof.
  intros R. remember (@nil byte) as c eqn:E. destruct R; auto; exfalso;
    try (match goal with H : each _ ?e (_ :: _), E : ?e = [] |- _ => exact (numbers_nonempty _ _ _ H E) end);
    try (match goal with H : t2_number ?e _, E : ?e ++ _ = [] |- _ => exact (number_nonempty _ _ _ H E) end);
    try (exact (operator_nonempty _ _ E)).
  apply app_eq_nil in E as [_ E]. congruence.
Qed.

Lemma unwind_stuck r c cs : r <> [] -> unwind r (c :: cs) = Err Other.
Proof. destruct r; [congruence|]. reflexivity. Qed.

(** If the left side unwinds, so does the right. *)
Lemma unwind_skip rs c cs r0 : forall r, unwind r (rs ++ c :: cs) = Ok r0 -> r = [] /\ unwind c cs = Ok r0.
Proof.
  induction rs as [|x rs IH]; intros r H; cbn in H; destruct r; try discriminate; [auto|].
  destruct (IH _ H) as [_ U]. auto.
Qed.

Lemma framed_unwind outer outer' : framed outer outer' -> forall r r' rs r0, (r = [] -> r' = []) ->
  unwind r (rs ++ outer) = Ok r0 -> exists r1, unwind r' outer' = Ok r1.
Proof.
  induction 1 as [|c returns c' outer outer' R F IH]; intros r r' rs r0 E U.
  - exists r'. reflexivity.
  - apply unwind_skip in U as [-> U]. rewrite (E eq_refl). cbn. apply (IH c c' returns r0); auto.
    intros ->. apply rewritten_empty in R. exact R.
Qed.

(** ** Rounds *)

Lemma cleanly_again p q : ends_cleanly cfg p -> step cfg p = Ok (Again q) -> ends_cleanly cfg q.
Proof. intros M H ops q' st T. apply (M ops). eapply trace_again; eauto. Qed.
Lemma cleanly_emit p x q : ends_cleanly cfg p -> step cfg p = Ok (Yield (Some x) q) -> ends_cleanly cfg q.
Proof. intros M H ops q' st T. apply (M (x :: ops)). eapply trace_emit; eauto. Qed.

Lemma cleanly_past u st r : works cfg u st r -> forall p c st', c <> [] -> routine p = u ++ c -> stack p = st -> r = Ok st' ->
  ends_cleanly cfg p -> ends_cleanly cfg (past p c st').
Proof.
  induction 1 as [st|e x v st r N W IH|o v st st1 r So Re W IH|o v st r So Re F]; intros p c st' Nc R K Er M.
  - injection Er as <-. replace (past p c st) with p; auto. unfold past. destruct p; cbn in *; subst; reflexivity.
  - rewrite <- app_assoc in R. assert (E : each t2_number e [x]) by (rewrite <- (app_nil_r e); repeat constructor; auto).
    assert (Nv : v ++ c <> []) by (destruct v; [exact Nc|discriminate]).
    pose proof (step_numbers cfg p e [x] (v ++ c) E Nv R) as St.
    apply (IH (loaded p [x] (v ++ c)) c st' Nc eq_refl); auto.
    { cbn [loaded stack set_stack]. rewrite K. reflexivity. }
    intros ops q st0 T A. inversion T as [p0 E0 E1|p0 p1 ops0 q0 H T0|p0 y p1 ops0 q0 H T0]; subst.
    + destruct A as (e1 & xs & r1 & R1 & E1 & K1). cbn [loaded routine set_stack set_routine stack] in R1, K1.
      rewrite <- St. apply (M [] p st0); [constructor|]. exists (e ++ e1), (x :: xs), r1. rewrite R, R1, app_assoc. split; [reflexivity|].
      split; [constructor; auto|]. rewrite K1, <- app_assoc. reflexivity.
    + apply (M ops q st0); auto. eapply trace_again; [rewrite St; exact H|auto].
    + apply (M (y :: ops0) q st0); auto. eapply trace_emit; [rewrite St; exact H|auto].
  - rewrite <- app_assoc in R.
    assert (St : step cfg p = Ok (Again (past p (v ++ c) st1))).
    { exact (Re p [] [] (v ++ c) R (each_nil _) ltac:(rewrite app_nil_r; exact K)). }
    apply (IH (past p (v ++ c) st1) c st' Nc eq_refl eq_refl Er). eapply cleanly_again; eauto.
  - exfalso. eapply F; eauto.
Qed.

(** What is known of the left program. *)
Definition fair (p : program) : Prop := valid_program p /\ possible p /\ masks_of cfg k p /\ ends_cleanly cfg p.

Lemma fair_again p q : fair p -> step cfg p = Ok (Again q) -> fair q.
Proof.
  intros (V & P & M & C) H. split; [exact (step_valid _ _ _ V H)|]. split; [exact (step_possible _ _ _ P H)|].
  split; [eapply masks_again; eauto|eapply cleanly_again; eauto].
Qed.
Lemma fair_emit p x q : fair p -> step cfg p = Ok (Yield (Some x) q) -> fair q.
Proof.
  intros (V & P & M & C) H. split; [apply (step_valid _ _ _ V H)|]. split; [exact (step_possible _ _ _ P H)|].
  split; [eapply masks_emit; eauto|eapply cleanly_emit; eauto].
Qed.
Lemma fair_past u p c st : works cfg u (stack p) (Ok st) -> c <> [] -> routine p = u ++ c -> fair p -> fair (past p c st).
Proof.
  intros W N E (V & P & M & C). split; [split; [eapply works_valid; eauto; apply V|apply V]|]. split; [exact P|].
  split; [eapply masks_past; eauto|eapply cleanly_past; eauto].
Qed.

(** [n] rounds of the left program are followed by the right one, and the other way around. *)
Definition forth (n : nat) (p p' : program) : Prop :=
  forall ops h, goes cfg n p ops h -> exists m h', goes cfg m p' ops h' /\ halts_alike h h'.
Definition back (n : nat) (p p' : program) : Prop :=
  forall ops h, goes cfg n p' ops h -> exists m h', goes cfg m p ops h' /\ halts_alike h h'.
Definition both (n : nat) (p p' : program) : Prop := forth n p p' /\ back n p p'.

Lemma alike_pending : halts_alike Pending Pending.
Proof. exact I. Qed.

Lemma both_step n p p' : (forall m q q', (m < n)%nat -> linked q q' -> fair q -> both m q q') -> fair p ->
  linked_results (step cfg p) (step cfg p') -> both n p p'.
Proof.
  intros IH Fp T. split; intros ops h G.
  - inversion G as [|n' ? q H|n' ? e H|n' ? e H|n' ? q ? ? H Gq|n' ? x q ops' ? H Gq]; subst.
    + exists 0%nat, Pending. split; [constructor|exact I].
    + rewrite H in T. destruct (step cfg p') as [[[x|] q'|q']|e|e|] eqn:E'; cbn in T; try contradiction.
      exists 1%nat, (Ended q'). split; [constructor; auto|exact T].
    + rewrite H in T. destruct (step cfg p') as [[[x|] q'|q']|e'|e'|] eqn:E'; cbn in T; try contradiction. subst e'.
      exists 1%nat, (Raised e). split; [constructor; auto|reflexivity].
    + rewrite H in T. destruct (step cfg p') as [[[x|] q'|q']|e'|e'|] eqn:E'; cbn in T; try contradiction. subst e'.
      exists 1%nat, (Panicked e). split; [constructor; auto|reflexivity].
    + rewrite H in T. destruct (step cfg p') as [[[x|] q'|q']|e'|e'|] eqn:E'; cbn in T; try contradiction.
      destruct (IH n' q q' ltac:(lia) T (fair_again _ _ Fp H)) as [Fo _].
      destruct (Fo _ _ Gq) as (m & h' & G' & A). exists (S m), h'. split; auto. eapply goes_again; eauto.
    + rewrite H in T. destruct (step cfg p') as [[[y|] q'|q']|e'|e'|] eqn:E'; cbn in T; try contradiction. destruct T as [<- T].
      destruct (IH n' q q' ltac:(lia) T (fair_emit _ _ _ Fp H)) as [Fo _].
      destruct (Fo _ _ Gq) as (m & h' & G' & A). exists (S m), h'. split; auto. eapply goes_emit; eauto.
  - inversion G as [|n' ? q H|n' ? e H|n' ? e H|n' ? q ? ? H Gq|n' ? x q ops' ? H Gq]; subst.
    + exists 0%nat, Pending. split; [constructor|exact I].
    + rewrite H in T. destruct (step cfg p) as [[[x|] q'|q']|e|e|] eqn:E'; cbn in T; try contradiction.
      exists 1%nat, (Ended q'). split; [constructor; auto|]. cbn. auto.
    + rewrite H in T. destruct (step cfg p) as [[[x|] q'|q']|e'|e'|] eqn:E'; cbn in T; try contradiction. subst e'.
      exists 1%nat, (Raised e). split; [constructor; auto|reflexivity].
    + rewrite H in T. destruct (step cfg p) as [[[x|] q'|q']|e'|e'|] eqn:E'; cbn in T; try contradiction. subst e'.
      exists 1%nat, (Panicked e). split; [constructor; auto|reflexivity].
    + rewrite H in T. destruct (step cfg p) as [[[x|] q'|q']|e'|e'|] eqn:E'; cbn in T; try contradiction.
      destruct (IH n' q' q ltac:(lia) T (fair_again _ _ Fp E')) as [_ Ba].
      destruct (Ba _ _ Gq) as (m & h' & G' & A). exists (S m), h'. split; auto. eapply goes_again; eauto.
    + rewrite H in T. destruct (step cfg p) as [[[y|] q'|q']|e'|e'|] eqn:E'; cbn in T; try contradiction. destruct T as [<- T].
      destruct (IH n' q' q ltac:(lia) T (fair_emit _ _ _ Fp E')) as [_ Ba].
      destruct (Ba _ _ Gq) as (m & h' & G' & A). exists (S m), h'. split; auto. eapply goes_emit; eauto.
Qed.

(** The left program alone makes a step. *)
Lemma both_left n p q p' : step cfg p = Ok (Again q) -> (forall m, (m <= n)%nat -> both m q p') -> both n p p'.
Proof.
  intros H IH. split; intros ops h G.
  - inversion G as [|n' ? q' H'|n' ? e H'|n' ? e H'|n' ? q' ? ? H' Gq|n' ? x q' ops' ? H' Gq]; subst; try congruence.
    + exists 0%nat, Pending. split; [constructor|exact I].
    + rewrite H in H'. injection H' as <-. destruct (IH n' ltac:(lia)) as [Fo _]. exact (Fo _ _ Gq).
  - destruct (IH n ltac:(lia)) as [_ Ba]. destruct (Ba _ _ G) as (m & h' & G' & A). exists (S m), h'. split; auto.
    eapply goes_again; eauto.
Qed.

(** Both are past a piece of code. *)
Lemma both_past n u v p p' c c' : alike cfg u v -> c <> [] -> c' <> [] -> routine p = u ++ c -> routine p' = v ++ c' ->
  stack p = stack p' -> fair p ->
  (forall m st, (m <= n)%nat -> works cfg u (stack p) (Ok st) -> both m (past p c st) (past p' c' st)) -> both n p p'.
Proof.
  intros (U & W & Al) N N' E E' K (V & _) IH.
  assert (Vs : Forall binary32 (stack p)) by apply V.
  split; intros ops h G.
  - destruct (pass cfg u U p c n ops h N E G) as [[-> ->]|(r & Wu & X)].
    { exists 0%nat, Pending. split; [constructor|exact I]. }
    pose proof (proj1 (Al _ Vs r) Wu) as Wv.
    pose proof (enter cfg v _ _ Wv p' c' N' E' (eq_sym K)) as En.
    destruct r as [st|e|e|]; [| | |contradiction].
    + destruct X as (m & Lm & Gm). destruct (IH m st Lm Wu) as [Fo _]. destruct (Fo _ _ Gm) as (m' & h' & G' & Ah).
      destruct (En _ _ _ G') as (m2 & G2). exists m2, h'. auto.
    + destruct X as [-> ->]. destruct En as (m & Gm). exists m, (Raised e). split; [auto|reflexivity].
    + destruct X as [-> ->]. destruct En as (m & Gm). exists m, (Panicked e). split; [auto|reflexivity].
  - destruct (pass cfg v W p' c' n ops h N' E' G) as [[-> ->]|(r & Wv & X)].
    { exists 0%nat, Pending. split; [constructor|exact I]. }
    rewrite <- K in Wv. pose proof (proj2 (Al _ Vs r) Wv) as Wu.
    pose proof (enter cfg u _ _ Wu p c N E eq_refl) as En.
    destruct r as [st|e|e|]; [| | |contradiction].
    + destruct X as (m & Lm & Gm). destruct (IH m st Lm Wu) as [_ Ba]. destruct (Ba _ _ Gm) as (m' & h' & G' & Ah).
      destruct (En _ _ _ G') as (m2 & G2). exists m2, h'. auto.
    + destruct X as [-> ->]. destruct En as (m & Gm). exists m, (Raised e). split; [auto|reflexivity].
    + destruct X as [-> ->]. destruct En as (m & Gm). exists m, (Panicked e). split; [auto|reflexivity].
Qed.

(** ** Steps *)

Lemma called_step p o a e body c : Z.of_nat (length (global p)) < 2 ^ 31 -> Z.of_nat (length (local p)) < 2 ^ 31 ->
  t2_number e a -> called (global p) (local p) o a body ->
  routine p = e ++ t2_bytes o ++ c -> step cfg p = Ok (Again (set_frames p body (c :: callers p))).
Proof.
  intros Gp Lp N C R.
  assert (E : each t2_number e [a]) by (rewrite <- (app_nil_r e); repeat constructor; auto).
  assert (X : exists subs, SpecProgram.calls o p subs /\ Z.of_nat (length subs) < 2 ^ 31 /\ selects subs a body).
  { destruct C as [[-> C]|[-> C]]; [exists (local p)|exists (global p)]; split; auto; [left|right]; auto. }
  destruct X as (subs & Cs & L & Sl).
  rewrite (call_transfers cfg p o subs e [a] c (stack p) a body Cs L R E eq_refl Sl).
  destruct p; reflexivity.
Qed.

Lemma number_call_fails subs p st e a : Z.of_nat (length subs) < 2 ^ 31 -> stack p = st ++ [a] -> t2_number e a ->
  (forall body, ~ selects subs a body) -> call cfg subs p = Err Other.
Proof.
  intros L K N Sl. pose proof (t2_number_finite _ _ N) as [B _].
  destruct (selects_or subs a B L) as [(body & X)|U]; [destruct (Sl _ X)|].
  destruct (call_other cfg subs p st a K B L U) as [E|(_ & _ & v & (u & (_ & _ & I) & R & ->) & O)]; auto. exfalso.
  destruct (t2_number_bound _ _ N) as [_ V]. rewrite I in V. rewrite <- abs_IZR in V.
  assert (Hu : Z.abs u <= 32768) by (apply le_IZR; exact V).
  pose proof (bias_range (Z.of_nat (length subs))). lia.
Qed.

Lemma failed_step p o a e c : Z.of_nat (length (global p)) < 2 ^ 31 -> Z.of_nat (length (local p)) < 2 ^ 31 ->
  t2_number e a -> In o [T2_CallSubr; T2_CallGSubr] -> (forall body, ~ called (global p) (local p) o a body) ->
  routine p = e ++ t2_bytes o ++ c -> step cfg p = Err Other.
Proof.
  intros Gp Lp N O C R.
  assert (E : each t2_number e [a]) by (rewrite <- (app_nil_r e); repeat constructor; auto).
  rewrite (step_code cfg p e [a] o c E R). destruct O as [<-|[<-|[]]]; cbn [execute].
  - rewrite (number_call_fails (local p) _ (stack p) e a); auto. intros body X. apply (C body). left. auto.
  - rewrite (number_call_fails (global p) _ (stack p) e a); auto. intros body X. apply (C body). right. auto.
Qed.

Lemma stuck_step p x xs : each t2_number (routine p) (x :: xs) -> step cfg p = Err UnexpectedEof.
Proof.
  intros E. pose proof (numbers_nonempty _ _ _ E) as N. unfold step. 
  replace (done (routine p)) with false by (destruct (routine p); [congruence|reflexivity]).
  pose proof (push_operands_app _ _ E (S (length (routine p))) (stack p) []) as H. rewrite app_nil_r in H.
  rewrite H by lia. reflexivity.
Qed.

Lemma mask_linked o p p' m c c' returns outer : callers p = returns ++ outer -> framed outer (callers p') -> common p p' ->
  routine p = m ++ c -> routine p' = m ++ c' -> rewritten c returns c' ->
  mask_operator o = true -> length m = k -> possible p -> mask_bytes (stems p + declared o (length (stack p))) (Z.of_nat k) ->
  linked_results (execute cfg o p) (execute cfg o p').
Proof.
  intros Cl F T R R' Rc M L P B. unfold possible in P. pose proof B as B0. unfold mask_bytes in B0.
  assert (D : Z.shiftr (Z.of_nat (length (stack p))) 1 = declared o (length (stack p))).
  { unfold declared. rewrite M, Bool.orb_true_r. rewrite Z.shiftr_div_pow2 by lia. reflexivity. }
  assert (D0 : 0 <= declared o (length (stack p))) by (rewrite <- D; apply Z.shiftr_nonneg; lia).
  rewrite <- L in B.
  destruct o; try discriminate M; unfold execute; rewrite <- (com_stack _ _ T), <- (com_stems _ _ T), R, R', D;
    rewrite add_u64_small by lia; cbn [bind]; rewrite add_u64_small by lia; cbn [bind];
    rewrite !take_mask by (auto; lia); cbn [bind];
    apply clear_linked; exists returns, outer; destruct T; repeat split; auto.
Qed.

Lemma common_loaded p p' xs c c' : common p p' -> common (loaded p xs c) (loaded p' xs c').
Proof. intros []. constructor; cbn; auto. congruence. Qed.
Lemma common_past p p' st c c' : common p p' -> common (past p c st) (past p' c' st).
Proof. intros []. constructor; cbn; auto. Qed.
Lemma common_frames p p' r cs r' cs' : common p p' -> common (set_frames p r cs) (set_frames p' r' cs').
Proof. intros []. constructor; cbn; auto. Qed.
Lemma common_left p p' r cs : common p p' -> common (set_frames p r cs) p'.
Proof. intros []. constructor; cbn; auto. Qed.

Lemma both_code n : (forall m q q', (m < n)%nat -> linked q q' -> fair q -> both m q q') ->
  forall c returns c', rewritten c returns c' ->
  forall n' p p' outer, (n' <= n)%nat -> routine p = c -> routine p' = c' -> callers p = returns ++ outer ->
    framed outer (callers p') -> common p p' -> fair p -> both n' p p'.
Proof.
  intros IHn c returns c' R.
  induction R as [returns|e x xs e' x' xs' returns E1 E1'|u v c returns c' A N N' R IH|o c returns c' Po R IH
    |o m c returns c' Mo L R IH|e a o body e' a' o' body' c returns c' Na Ca Na' Ca' B R IH
    |e a o e' a' o' c returns c' Na Oo Ca Na' Oo' Ca'|e a o body c returns c' Na Ca R IH|rest c returns c' R IH|rest rest'
    |rest returns rest' D];
    intros n' p p' outer Ln E E' K F T Fp;
    assert (IHs : forall m q q', (m < n')%nat -> linked q q' -> fair q -> both m q q') by (intros; apply IHn; auto; lia).
  - apply both_step; auto. rewrite !step_empty by congruence. cbn. apply T.
  - apply both_step; auto. subst e e'. rewrite (stuck_step p _ _ E1), (stuck_step p' _ _ E1'). reflexivity.
  - apply (both_past n' u v p p' c c'); auto; [apply T|]. intros m st Lm W.
    apply (IH m (past p c st) (past p' c' st) outer); auto; [lia|apply common_past; auto|].
    eapply fair_past; eauto.
  - apply both_step; auto.
    rewrite (step_code cfg p [] [] o c), (step_code cfg p' [] [] o c') by (constructor || auto).
    apply plain_linked; auto. exists returns, outer. split; [exact K|]. split; [exact R|]. split; [exact F|]. apply common_loaded. auto.
  - apply both_step; auto. destruct Fp as (V & P & M & C).
    assert (Mb : mask_bytes (stems p + declared o (length (stack p))) (Z.of_nat k)).
    { pose proof (masks_here cfg k p o m [] [] c M Mo E (each_nil _)) as H. rewrite app_nil_r in H. exact H. }
    rewrite (step_code cfg p [] [] o (m ++ c)), (step_code cfg p' [] [] o (m ++ c')) by (constructor || auto).
    apply (mask_linked o _ _ m c c' returns outer); auto; [apply common_loaded; auto|].
    unfold loaded. cbn [stems stack set_stack set_routine]. rewrite app_nil_r. exact Mb.
  - apply both_step; auto. destruct T as [Gp Lp Gp' Lp' ? ? ?].
    rewrite (called_step p o a e body c), (called_step p' o' a' e' body' c') by (congruence || auto).
    cbn [linked_results]. exists [], (callers (set_frames p body (c :: callers p))). split; [reflexivity|].
    split; [apply Bodies; exact B|]. split; [|constructor; auto]. cbn. rewrite K. apply framed_cons; auto.
  - apply both_step; auto. destruct T as [Gp Lp Gp' Lp' ? ? ?].
    rewrite (failed_step p o a e c), (failed_step p' o' a' e' c') by (rewrite ?Gp, ?Lp, ?Gp', ?Lp'; auto; congruence). reflexivity.
  - assert (St : step cfg p = Ok (Again (set_frames p body (c :: callers p)))).
    { destruct T as [Gp Lp Gp' Lp' ? ? ?]. apply (called_step p o a e body c); congruence || auto. }
    apply (both_left n' p _ p' St). intros m Lm. apply (IH m _ _ outer); auto; [lia| | |eapply fair_again; eauto].
    + cbn. rewrite K. reflexivity.
    + apply common_left. auto.
  - assert (St : step cfg p = Ok (Again (set_frames p c (returns ++ outer)))).
    { rewrite (step_code cfg p [] [] T2_Return rest) by (constructor || auto). cbn [execute].
      change (callers (loaded p [] rest)) with (callers p). rewrite K. cbn [app].
      unfold loaded. cbn. rewrite app_nil_r. destruct p; reflexivity. }
    apply (both_left n' p _ p' St). intros m Lm. apply (IH m _ _ outer); auto; [lia| |eapply fair_again; eauto].
    apply common_left. auto.
  - apply both_step; auto.
    rewrite (step_code cfg p [] [] T2_Return rest), (step_code cfg p' [] [] T2_Return rest') by (constructor || auto). cbn [execute].
    change (callers (loaded p [] rest)) with (callers p). change (callers (loaded p' [] rest')) with (callers p'). rewrite K. cbn [app].
    destruct F as [|c returns c' outer outer' R F]; cbn; [reflexivity|]. exists returns, outer. split; [reflexivity|].
    split; [exact R|]. split; [exact F|]. destruct T. constructor; cbn; congruence.
  - apply both_step; auto. destruct Fp as (V & P & M & C).
    assert (Nf : step cfg p <> Err Other).
    { apply (C [] p (stack p)); [constructor|]. exists [], [], rest. split; [auto|]. split; [constructor|]. rewrite app_nil_r. reflexivity. }
    rewrite (step_code cfg p [] [] T2_EndChar rest) in Nf |- * by (constructor || auto).
    rewrite (step_code cfg p' [] [] T2_EndChar rest') by (constructor || auto).
    cbn [execute] in Nf |- *.
    change (callers (loaded p [] rest)) with (callers p) in *. change (callers (loaded p' [] rest')) with (callers p').
    change (routine (loaded p [] rest)) with rest in *. change (routine (loaded p' [] rest')) with rest'. rewrite K in *.
    destruct (unwind rest (returns ++ outer)) as [r0|k0|k0|] eqn:U.
    + destruct (framed_unwind _ _ F rest rest' returns r0 D U) as (r1 & ->). cbn [bind linked_results].
      cbn. destruct T. rewrite com_stack0, com_width0. reflexivity.
    + exfalso. apply Nf. cbn. f_equal. clear -U. revert rest U. induction (returns ++ outer) as [|c cs IH]; intros r U; [discriminate|].
      cbn in U. destruct (done r); [eauto|congruence].
    + exfalso. clear -U. revert rest U. induction (returns ++ outer) as [|c cs IH]; intros r U; [discriminate|].
      cbn in U. destruct (done r); [eauto|discriminate].
    + exfalso. clear -U. revert rest U. induction (returns ++ outer) as [|c cs IH]; intros r U; [discriminate|].
      cbn in U. destruct (done r); [eauto|discriminate].
Qed.

Lemma both_always n : forall p p', linked p p' -> fair p -> both n p p'.
Proof.
  induction n as [n IH] using (well_founded_induction Wf_nat.lt_wf).
  intros p p' (returns & outer & K & R & F & T) Fp. apply (both_code n) with (c := routine p) (returns := returns) (c' := routine p') (outer := outer); auto.
Qed.

Lemma linked_seen p p' : linked p p' -> fair p -> seen_alike cfg p p'.
Proof.
  intros L Fp. split.
  - intros ops. rewrite !goes_emits. split; intros (n & G); destruct (both_always n p p' L Fp) as [Fo Ba];
      [destruct (Fo _ _ G) as (m & h' & G' & A)|destruct (Ba _ _ G) as (m & h' & G' & A)]; exists m; destruct h'; try contradiction; exact G'.
  - intros r. split; intros (r' & H & ->); apply runs_goes in H as (n & ops & h & G & N & ->); destruct (both_always n p p' L Fp) as [Fo Ba];
      [destruct (Fo _ _ G) as (m & h' & G' & A)|destruct (Ba _ _ G) as (m & h' & G' & A)];
      exists (result_of ops h'); (split; [eapply goes_runs; eauto; destruct h'; try discriminate; destruct h; contradiction
                                        |destruct h, h'; try contradiction; cbn in *; congruence]).
Qed.

Lemma new_fair code : masks_of cfg k (new_program code g l) -> ends_cleanly cfg (new_program code g l) -> fair (new_program code g l).
Proof. intros M C. split; [split; [apply Forall_nil|discriminate]|]. split; [unfold possible; cbn; lia|auto]. Qed.

Lemma programs_inlined code code' : masks_of cfg k (new_program code g l) -> ends_cleanly cfg (new_program code g l) ->
  rewritten code [] code' -> seen_alike cfg (new_program code g l) (new_program code' g' l').
Proof.
  intros M C R. apply linked_seen; [|apply new_fair; auto]. exists [], []. split; [reflexivity|]. split; [exact R|].
  split; [constructor|constructor; reflexivity].
Qed.
End Inline.

(** ** Programs that succeed *)

Lemma success_cleanly cfg p ops q : runs cfg p (Ok (ops, q)) -> ends_cleanly cfg p.
Proof.
  intros H ops' q' st T _ E.
  destruct (trace_goes cfg _ _ _ T 1%nat [] (Raised Other) (goes_raised _ _ _ _ E)) as (m & G).
  apply goes_runs in G; [|discriminate]. cbn in G. pose proof (runs_det _ _ _ _ H G). discriminate.
Qed.

(** ** Bytes that do not occur *)

(** The code that is executed sooner or later. *)
Definition frames (p : program) : list (list byte) := routine p :: callers p.

Lemma suffix_step cfg p q (P : list byte -> Prop) : (forall a b, P (a ++ b) -> P b) ->
  Forall P (global p) -> Forall P (local p) -> proceeds cfg p q ->
  global q = global p /\ local q = local p /\
  ((exists r, frames q = r :: callers p /\ (P (routine p) -> P r)) \/
   (exists body r, frames q = body :: r :: callers p /\ P body /\ (P (routine p) -> P r)) \/
   frames q = callers p).
Proof.
  intros Sf Fg Fl H. destruct H as [H|[x H]]; apply step_inv in H as [[_ H]|(e & xs & o & r & E & R & H)]; try discriminate.
  - assert (Pr : P (routine p) -> P r) by (rewrite R; intros K; eauto).
    apply execute_again in H as [(_ & st & _ & ->)|[(Oc & H)|(-> & c & cs & Cc & ->)]].
    + split; [reflexivity|]. split; [reflexivity|]. left. exists r. auto.
    + assert (Q : exists st body, (In body (global p) \/ In body (local p)) /\ q = set_frames (set_stack (loaded p xs r) st) body (r :: callers p)).
      { destruct Oc; subst o; apply call_inv in H as (st & body & I & ->); exists st, body; split; try reflexivity; auto. }
      destruct Q as (st & body & I & ->). split; [reflexivity|]. split; [reflexivity|]. right. left. exists body, r.
      split; [reflexivity|]. split; [|exact Pr]. rewrite Forall_forall in Fg, Fl. destruct I; auto.
    + change (callers p = c :: cs) in Cc. split; [reflexivity|]. split; [reflexivity|]. right. right. rewrite Cc. reflexivity.
  - apply execute_yields in H as (_ & _ & sp & _ & _ & _ & Cq & Gq & Lq & M).
    split; [exact Gq|]. split; [exact Lq|]. left. exists (routine q). split; [unfold frames; rewrite Cq; reflexivity|].
    change (routine (loaded p xs r)) with r in M. rewrite R. intros K. apply Sf, Sf in K.
    destruct (mask_operator o); [destruct M as [m M]; rewrite M in K; eauto|rewrite M; exact K].
Qed.

Lemma frames_trace cfg (P : list byte -> Prop) p ops q : (forall a b, P (a ++ b) -> P b) -> trace cfg p ops q ->
  Forall P (global p) -> Forall P (local p) -> Forall P (frames p) -> Forall P (frames q).
Proof.
  intros Sf. induction 1 as [p|p p' ops q S1 T IH|p x p' ops q S1 T IH]; intros Fg Fl F; [exact F| |].
  - destruct (suffix_step cfg p p' P Sf Fg Fl (or_introl S1)) as (G & L & C). rewrite G, L in IH. apply IH; auto.
    inversion F as [|? ? F0 F1]; subst. destruct C as [(r & -> & X)|[(b & r & -> & X & Y)| -> ]]; auto.
  - destruct (suffix_step cfg p p' P Sf Fg Fl (or_intror (ex_intro _ x S1))) as (G & L & C). rewrite G, L in IH. apply IH; auto.
    inversion F as [|? ? F0 F1]; subst. destruct C as [(r & -> & X)|[(b & r & -> & X & Y)| -> ]]; auto.
Qed.

(** All but the last, the character string itself. *)
Definition inner (P : list byte -> Prop) (fs : list (list byte)) : Prop := Forall P (removelast fs).

Lemma inner_trace cfg (P : list byte -> Prop) p ops q : (forall a b, P (a ++ b) -> P b) -> trace cfg p ops q ->
  Forall P (global p) -> Forall P (local p) -> inner P (frames p) -> inner P (frames q).
Proof.
  assert (St : forall fs fs' cs r0, fs = r0 :: cs -> inner P fs ->
    (exists r, fs' = r :: cs /\ (P r0 -> P r)) \/ (exists body r, fs' = body :: r :: cs /\ P body /\ (P r0 -> P r)) \/ fs' = cs ->
    inner P fs').
  { unfold inner. intros fs fs' cs r0 -> F C. destruct C as [(r & -> & X)|[(b & r & -> & X & Y)| -> ]].
    - destruct cs as [|c cs]; [constructor|]. cbn [removelast] in *. inversion F; subst. constructor; auto.
    - destruct cs as [|c cs]; [repeat constructor; auto|]. cbn [removelast] in *. inversion F; subst. constructor; auto.
    - destruct cs as [|c cs]; [constructor|]. cbn [removelast] in F. inversion F; subst. auto. }
  intros Sf. induction 1 as [p|p p' ops q S1 T IH|p x p' ops q S1 T IH]; intros Fg Fl F; [exact F| |].
  - destruct (suffix_step cfg p p' P Sf Fg Fl (or_introl S1)) as (G & L & C). rewrite G, L in IH. apply IH; auto.
    eapply St; [reflexivity|exact F|exact C].
  - destruct (suffix_step cfg p p' P Sf Fg Fl (or_intror (ex_intro _ x S1))) as (G & L & C). rewrite G, L in IH. apply IH; auto.
    eapply St; [reflexivity|exact F|exact C].
Qed.

Lemma absent_suffix (b : byte) c c' : ~ In b (c ++ c') -> ~ In b c'.
Proof. rewrite in_app_iff. tauto. Qed.

Lemma maskless_masks cfg k code g l :
  Forall (fun c => ~ In x13 c /\ ~ In x14 c) (code :: g ++ l) -> masks_of cfg k (new_program code g l).
Proof.
  intros F ops q o st T (e & xs & r & R & _) M. inversion F as [|? ? F0 F1]; subst. apply Forall_app in F1 as [Fg Fl].
  assert (Q : Forall (fun c => ~ In x13 c /\ ~ In x14 c) (frames q)).
  { eapply frames_trace; [|exact T|exact Fg|exact Fl|constructor; [exact F0|constructor]].
    intros a b [H1 H2]. split; eapply absent_suffix; eauto. }
  inversion Q as [|? ? [N1 N2] _]; subst. rewrite R in N1, N2. rewrite !in_app_iff in N1, N2.
  destruct o; try discriminate M; cbn in N1, N2; tauto.
Qed.

Lemma endless_cleanly cfg code g l :
  Forall (fun c => ~ In x0e c) (g ++ l) -> ends_cleanly cfg (new_program code g l).
Proof.
  intros F ops q st T (e & xs & r & R & E & _). apply Forall_app in F as [Fg Fl].
  assert (Q : inner (fun c => ~ In x0e c) (frames q)).
  { eapply inner_trace; [|exact T|exact Fg|exact Fl|constructor]. intros a b. apply absent_suffix. }
  rewrite (step_code cfg q e xs T2_EndChar r E R). cbn [execute].
  change (callers (loaded q xs r)) with (callers q). destruct (callers q) as [|c cs] eqn:C; [cbn; discriminate|].
  exfalso. unfold inner, frames in Q. rewrite C in Q. cbn [removelast] in Q. inversion Q as [|? ? N _]; subst. apply N.
  rewrite R, !in_app_iff. right. left. cbn. auto.
Qed.

Lemma success_inlined cfg k (Bk : Z.of_nat k < 2 ^ 60) g l g' l' (bodies : list byte -> list byte -> Prop) code code' :
  Z.of_nat (length g) < 2 ^ 31 -> Z.of_nat (length l) < 2 ^ 31 ->
  Z.of_nat (length g') < 2 ^ 31 -> Z.of_nat (length l') < 2 ^ 31 ->
  (forall b b', bodies b b' -> rewritten cfg k g l g' l' bodies b [] b') ->
  masks_of cfg k (new_program code g l) -> rewritten cfg k g l g' l' bodies code [] code' ->
  forall ops w, shows cfg (new_program code g l) (Ok (ops, w)) -> shows cfg (new_program code' g' l') (Ok (ops, w)).
Proof.
  intros Bg Bl Bg' Bl' B M R ops w H. apply (programs_inlined cfg k Bk g l g' l' Bg Bl Bg' Bl' bodies B code code'); auto.
  destruct H as (r & H & E). destruct r as [[ops' q]| | |]; try discriminate. eapply success_cleanly; eauto.
Qed.

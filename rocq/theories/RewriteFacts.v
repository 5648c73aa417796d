(** RewriteFacts: pieces of code that do the same can take the place of each other. *)
From Coq Require Import Reals.
From Verif Require Import Base Float T2Number T2Operation T2Program BaseFacts SpecProgram T2NumberFacts StepFacts
  RunFacts FloatFacts EvalFacts IntegralFacts StackFacts ClearFacts ExecutionFacts SubroutineFacts ProgramFacts FailureFacts
  CallsFacts SpecNest SpecRewrite.
Local Open Scope list_scope.
Local Open Scope Z_scope.

Section Rewrite.
Context (cfg : config).

(** ** Pieces of code *)

Definition bare (r : list byte) (st : list f32) : program :=
  {| routine := r; callers := []; global := []; local := []; stack := st; stems := 0; width := None |}.

Lemma reacts_effect o st r : stack_operator o = true -> reacts cfg o st r <-> effect cfg o st = r.
Proof.
  intros So. split.
  - intros H. specialize (H (bare (t2_bytes o) st) [] [] []). cbn [routine bare app] in H. rewrite app_nil_r in H.
    specialize (H eq_refl (each_nil _)). cbn [stack] in H. rewrite app_nil_r in H. specialize (H eq_refl).
    rewrite (step_code cfg _ [] [] o []) in H by (constructor || (cbn [routine bare app]; rewrite app_nil_r; reflexivity)).
    rewrite execute_stack in H by auto. cbn [loaded stack set_stack set_routine bare] in H. rewrite app_nil_r in H.
    destruct (effect cfg o st), r; cbn in H; try discriminate; try congruence.
    unfold loaded, set_stack, set_routine in H. cbn in H. congruence.
  - intros <- p e xs rest R E B. rewrite (step_code _ _ _ _ _ _ E R), execute_stack by auto.
    unfold loaded. cbn [stack set_stack]. rewrite B. destruct (effect cfg o st); reflexivity.
Qed.

Lemma number_tail e x c e' x' c' : t2_number e x -> t2_number e' x' -> e ++ c = e' ++ c' -> x = x' /\ c = c'.
Proof.
  intros H H' E. pose proof (read_operand_complete _ _ c H) as A. rewrite E, (read_operand_complete _ _ c' H') in A.
  split; congruence.
Qed.

Lemma operator_tail o c o' c' : t2_bytes o ++ c = t2_bytes o' ++ c' -> o = o' /\ c = c'.
Proof.
  intros E. destruct (read_t2_operator_complete o c) as (b & t & Eb & _ & A).
  destruct (read_t2_operator_complete o' c') as (b' & t' & Eb' & _ & A').
  assert (b = b') by (rewrite Eb, Eb' in E; cbn in E; congruence). subst b'.
  rewrite E, A' in A. split; congruence.
Qed.

Lemma number_operator e x c o c' : t2_number e x -> e ++ c <> t2_bytes o ++ c'.
Proof.
  intros H E. destruct (t2_number_first _ _ H) as (b & e' & -> & F). destruct (t2_bytes_first o) as (b' & t & Eb & N).
  rewrite Eb in E. cbn in E. congruence.
Qed.

Lemma nothing_number e x c : t2_number e x -> [] <> e ++ c.
Proof. intros H. destruct (t2_number_first _ _ H) as (b & e' & -> & _). discriminate. Qed.
Lemma nothing_operator o c : [] <> t2_bytes o ++ c.
Proof. destruct (t2_bytes_first o) as (b & t & -> & _). discriminate. Qed.

Lemma works_total u : straight u -> forall st, exists r, works cfg u st r.
Proof.
  induction 1 as [|e x c N S' IH|o c So S' IH]; intros st.
  - eexists. constructor.
  - destruct (IH (st ++ [x])) as (r & W). exists r. econstructor; eauto.
  - destruct (effect cfg o st) as [st'|k|k|] eqn:E.
    + destruct (IH st') as (r & W). exists r. eapply works_operator; eauto. apply reacts_effect; auto.
    + exists (Err k). apply works_failure; auto; [apply reacts_effect; auto|discriminate].
    + exists (Panic k). apply works_failure; auto; [apply reacts_effect; auto|discriminate].
    + exists OutOfFuel. apply works_failure; auto; [apply reacts_effect; auto|discriminate].
Qed.

Lemma works_unique u st r : works cfg u st r -> forall r', works cfg u st r' -> r = r'.
Proof.
  induction 1 as [st|e x c st r N W IH|o c st st' r So Re W IH|o c st r So Re F]; intros r' W'.
  - inversion W' as [|e x c st0 r0 N Wc E|o c st0 st' r0 So Re Wc E|o c st0 r0 So Re F E]; subst; auto; exfalso; symmetry in E.
    + exact (nothing_number _ _ _ N E).
    + exact (nothing_operator _ _ E).
    + exact (nothing_operator _ _ E).
  - inversion W' as [|e' x' c' st0 r0 N' Wc E|o c' st0 st' r0 So Re Wc E|o c' st0 r0 So Re F E]; subst.
    + exfalso. eapply nothing_number; eauto.
    + destruct (number_tail _ _ _ _ _ _ N' N E) as [-> ->]. auto.
    + exfalso. symmetry in E. eapply number_operator; eauto.
    + exfalso. symmetry in E. eapply number_operator; eauto.
  - apply reacts_effect in Re; auto.
    inversion W' as [|e' x' c' st0 r0 N' Wc E|o' c' st0 st1 r0 So' Re' Wc E|o' c' st0 r0 So' Re' F E]; subst.
    + exfalso. eapply nothing_operator; eauto.
    + exfalso. eapply number_operator; eauto.
    + apply operator_tail in E as [-> ->]. apply reacts_effect in Re'; auto. apply IH. congruence.
    + apply operator_tail in E as [-> ->]. apply reacts_effect in Re'; auto. exfalso. eapply F. rewrite <- Re'. exact Re.
  - apply reacts_effect in Re; auto.
    inversion W' as [|e' x' c' st0 r0 N' Wc E|o' c' st0 st1 r0 So' Re' Wc E|o' c' st0 r0 So' Re' F' E]; subst.
    + exfalso. eapply nothing_operator; eauto.
    + exfalso. eapply number_operator; eauto.
    + apply operator_tail in E as [-> ->]. apply reacts_effect in Re'; auto. exfalso. eapply F. exact Re'.
    + apply operator_tail in E as [-> ->]. apply reacts_effect in Re'; auto.
Qed.

Lemma alike_intro u v : straight u -> straight v ->
  (forall st, Forall binary32 st -> exists r, works cfg u st r /\ works cfg v st r) -> alike cfg u v.
Proof.
  intros U V H. split; auto. split; auto. intros st B r. destruct (H st B) as (r0 & Wu & Wv).
  split; intros W; [rewrite <- (works_unique _ _ _ Wu _ W)|rewrite <- (works_unique _ _ _ Wv _ W)]; auto.
Qed.

Lemma alike_sym u v : alike cfg u v -> alike cfg v u.
Proof. intros (U & V & H). split; auto. split; auto. intros st B r. symmetry. auto. Qed.

Lemma works_valid u st r : works cfg u st r -> Forall binary32 st -> forall st', r = Ok st' -> Forall binary32 st'.
Proof.
  induction 1 as [st|e x c st r N W IH|o c st st1 r So Re W IH|o c st r So Re F]; intros B st' E.
  - congruence.
  - apply IH; auto. apply Forall_app. split; auto. apply (numbers_valid e). rewrite <- (app_nil_r e). repeat constructor; auto.
  - apply IH; auto. apply reacts_effect in Re; auto. eapply effect_valid; eauto.
  - exfalso. eapply F; eauto.
Qed.

(** ** Replacement is symmetric and keeps the end of the code *)

Lemma replaced_sym k c c' : replaced cfg k c c' -> replaced cfg k c' c.
Proof.
  induction 1; [apply replaced_not|apply replaced_piece|apply replaced_operator|apply replaced_mask]; auto using alike_sym.
Qed.

Lemma replaced_done k c c' : replaced cfg k c c' -> done c = done c'.
Proof.
  induction 1 as [c|u v c c' A N N' R IH|o c c' M R IH|o m c c' M L R IH]; auto.
  - destruct u, v, c, c'; try congruence; reflexivity.
  - destruct (t2_bytes_first o) as (b & t & -> & _). reflexivity.
  - destruct (t2_bytes_first o) as (b & t & -> & _). reflexivity.
Qed.

(** ** Executions, up to some point or to the end *)

Inductive halt : Type :=
| Pending
| Ended (q : program)
| Raised (k : error)
| Panicked (k : panic).

Inductive goes : nat -> program -> list t2_operation -> halt -> Prop :=
| goes_pending n p : goes n p [] Pending
| goes_ended n p q : step cfg p = Ok (Yield None q) -> goes (S n) p [] (Ended q)
| goes_raised n p k : step cfg p = Err k -> goes (S n) p [] (Raised k)
| goes_panicked n p k : step cfg p = Panic k -> goes (S n) p [] (Panicked k)
| goes_again n p q ops h : step cfg p = Ok (Again q) -> goes n q ops h -> goes (S n) p ops h
| goes_emit n p x q ops h : step cfg p = Ok (Yield (Some x) q) -> goes n q ops h -> goes (S n) p (x :: ops) h.

Lemma goes_same n p p' ops h : step cfg p = step cfg p' -> goes n p ops h -> goes n p' ops h.
Proof.
  intros E H. inversion H; subst; [apply goes_pending|apply goes_ended|apply goes_raised|apply goes_panicked|eapply goes_again|eapply goes_emit];
    eauto; congruence.
Qed.

Lemma trace_goes p ops q : trace cfg p ops q -> forall n ops' h, goes n q ops' h -> exists m, goes m p (ops ++ ops') h.
Proof.
  induction 1 as [p|p p' ops q H T IH|p x p' ops q H T IH]; intros n ops' h G.
  - exists n. exact G.
  - destruct (IH _ _ _ G) as (m & G'). exists (S m). eapply goes_again; eauto.
  - destruct (IH _ _ _ G) as (m & G'). exists (S m). cbn [app]. eapply goes_emit; eauto.
Qed.

Lemma goes_emits p ops : emits cfg p ops <-> exists n, goes n p ops Pending.
Proof.
  split.
  - intros (q & T). destruct (trace_goes _ _ _ T 0 [] Pending (goes_pending _ _)) as (m & G). rewrite app_nil_r in G. eauto.
  - intros (n & G). remember Pending as h eqn:Eh. induction G as [| | | |n p q ops h H G IH|n p x q ops h H G IH]; try discriminate.
    + exists p. constructor.
    + destruct (IH Eh) as (q' & T). exists q'. eapply trace_again; eauto.
    + destruct (IH Eh) as (q' & T). exists q'. eapply trace_emit; eauto.
Qed.

Definition result_of (ops : list t2_operation) (h : halt) : outcome (list t2_operation * program) :=
  match h with Pending => OutOfFuel | Ended q => Ok (ops, q) | Raised k => Err k | Panicked k => Panic k end.

Lemma goes_runs n p ops h : goes n p ops h -> h <> Pending -> runs cfg p (result_of ops h).
Proof.
  induction 1 as [n p|n p q H|n p k H|n p k H|n p q ops h H G IH|n p x q ops h H G IH]; intros N.
  - congruence.
  - apply runs_none. apply (nexts_yield _ _ _ _ _ H). reflexivity.
  - apply runs_err. apply (nexts_err _ _ _ _ H). reflexivity.
  - apply runs_panic. apply (nexts_panic _ _ _ _ H). reflexivity.
  - apply (runs_again _ _ _ _ H). auto.
  - apply (runs_emit _ _ _ _ _ H). exists (result_of ops h). split; auto. destruct h; reflexivity.
Qed.

Lemma runs_goes p r : runs cfg p r -> exists n ops h, goes n p ops h /\ h <> Pending /\ r = result_of ops h.
Proof.
  intros (N & f & H). revert p r N H. induction f as [|f IH]; intros p r N H; [cbn in H; congruence|]. cbn [run] in H.
  destruct (next cfg (S f) p) as [[[x|] q]|k|k|] eqn:E; cbn [bind] in H; try congruence.
  - destruct (nexts_trace cfg p (Some x) q) as (q1 & T & S1); [split; [discriminate|eauto]|].
    destruct (run cfg f q) as [[ops q']|k|k|] eqn:Er; cbn [bind] in H; try congruence;
      (match type of Er with _ = ?v => assert (Nv : v <> OutOfFuel) by discriminate end);
      destruct (IH q _ Nv Er) as (n & ops' & h & G & Nh & Eq);
      destruct (trace_goes _ _ _ T (S n) (x :: ops') h (goes_emit _ _ _ _ _ _ S1 G)) as (m & G'); cbn [app] in G';
      exists m, (x :: ops'), h; (split; [exact G'|]); (split; [exact Nh|]); destruct h; cbn in *; congruence.
  - destruct (nexts_trace cfg p None q) as (q1 & T & S1); [split; [discriminate|eauto]|].
    destruct (trace_goes _ _ _ T 1%nat [] (Ended q) (goes_ended _ _ _ S1)) as (m & G).
    exists m, [], (Ended q). cbn. split; [exact G|]. split; congruence.
  - destruct (nexts_trace_err cfg p k) as (q1 & T & S1); [split; [discriminate|eauto]|].
    destruct (trace_goes _ _ _ T 1%nat [] (Raised k) (goes_raised _ _ _ S1)) as (m & G).
    exists m, [], (Raised k). cbn. split; [exact G|]. split; congruence.
  - destruct (nexts_trace_panic cfg p k) as (q1 & T & S1); [split; [discriminate|eauto]|].
    destruct (trace_goes _ _ _ T 1%nat [] (Panicked k) (goes_panicked _ _ _ S1)) as (m & G).
    exists m, [], (Panicked k). cbn. split; [exact G|]. split; congruence.
Qed.

(** ** Past a piece of code *)

Definition past (p : program) (c : list byte) (st : list f32) : program := set_stack (set_routine p c) st.

Lemma pass u : straight u -> forall p c n ops h, c <> [] -> routine p = u ++ c -> goes n p ops h ->
  (ops = [] /\ h = Pending) \/
  exists r, works cfg u (stack p) r /\
    match r with
    | Ok st => exists m, (m <= n)%nat /\ goes m (past p c st) ops h
    | Err k => ops = [] /\ h = Raised k
    | Panic k => ops = [] /\ h = Panicked k
    | OutOfFuel => False
    end.
Proof.
  induction 1 as [|e x u N S' IH|o u So S' IH]; intros p c n ops h Nc R G.
  - right. exists (Ok (stack p)). split; [constructor|]. exists n. split; [lia|].
    replace (past p c (stack p)) with p; auto. unfold past. destruct p; cbn in *; subst; reflexivity.
  - rewrite <- app_assoc in R. assert (E : each t2_number e [x]) by (rewrite <- (app_nil_r e); repeat constructor; auto).
    assert (G' : goes n (loaded p [x] (u ++ c)) ops h).
    { eapply goes_same; [|exact G]. eapply step_numbers; eauto. destruct u; [exact Nc|discriminate]. }
    destruct (IH (loaded p [x] (u ++ c)) c n ops h Nc eq_refl G') as [L|(r & W & M)]; [auto|]. right. exists r.
    split; [eapply works_number; eauto|]. exact M.
  - rewrite <- app_assoc in R.
    assert (St : step cfg p = with_stack (loaded p [] (u ++ c)) (effect cfg o (stack p))).
    { rewrite (step_code cfg p [] [] o (u ++ c)) by (constructor || exact R). rewrite execute_stack by auto.
      unfold loaded. cbn [stack set_stack set_routine]. rewrite app_nil_r. reflexivity. }
    destruct (effect cfg o (stack p)) as [st|k|k|] eqn:Ef; cbn in St.
    + inversion G as [|? ? ? H|? ? ? H|? ? ? H|m ? q ? ? H Gq|? ? ? ? ? ? H Gq]; subst; try congruence; [auto|].
      rewrite St in H. injection H as <-.
      destruct (IH (set_stack (loaded p [] (u ++ c)) st) c m ops h Nc eq_refl Gq) as [L|(r & W & M)]; [auto|]. right. exists r.
      split; [eapply works_operator; eauto; apply reacts_effect; auto|].
      destruct r; auto. destruct M as (m' & Lm & M). exists m'. split; [lia|exact M].
    + inversion G as [|? ? ? H|? ? ? H|? ? ? H|m ? q ? ? H Gq|? ? ? ? ? ? H Gq]; subst; try congruence; [auto|].
      right. exists (Err k). split; [apply works_failure; auto; [apply reacts_effect; auto|discriminate]|]. split; congruence.
    + inversion G as [|? ? ? H|? ? ? H|? ? ? H|m ? q ? ? H Gq|? ? ? ? ? ? H Gq]; subst; try congruence; [auto|].
      right. exists (Panic k). split; [apply works_failure; auto; [apply reacts_effect; auto|discriminate]|]. split; congruence.
    + inversion G as [|? ? ? H|? ? ? H|? ? ? H|m ? q ? ? H Gq|? ? ? ? ? ? H Gq]; subst; try congruence; auto.
Qed.

Lemma enter v st r : works cfg v st r -> forall p c, c <> [] -> routine p = v ++ c -> stack p = st ->
  match r with
  | Ok st' => forall n ops h, goes n (past p c st') ops h -> exists m, goes m p ops h
  | Err k => exists m, goes m p [] (Raised k)
  | Panic k => exists m, goes m p [] (Panicked k)
  | OutOfFuel => True
  end.
Proof.
  induction 1 as [st|e x v st r N W IH|o v st st' r So Re W IH|o v st r So Re F]; intros p c Nc R K.
  - intros n ops h G. exists n. replace p with (past p c st); auto. unfold past. destruct p; cbn in *; subst; reflexivity.
  - rewrite <- app_assoc in R. assert (E : each t2_number e [x]) by (rewrite <- (app_nil_r e); repeat constructor; auto).
    assert (St : step cfg (loaded p [x] (v ++ c)) = step cfg p).
    { symmetry. eapply step_numbers; eauto. destruct v; [exact Nc|discriminate]. }
    specialize (IH (loaded p [x] (v ++ c)) c Nc eq_refl ltac:(cbn [loaded stack set_stack]; rewrite K; reflexivity)).
    destruct r as [st'|k|k|]; auto.
    + intros n ops h G. destruct (IH n ops h G) as (m & G'). exists m. eapply goes_same; eauto.
    + destruct IH as (m & G'). exists m. eapply goes_same; eauto.
    + destruct IH as (m & G'). exists m. eapply goes_same; eauto.
  - rewrite <- app_assoc in R.
    assert (St : step cfg p = Ok (Again (past p (v ++ c) st'))).
    { exact (Re p [] [] (v ++ c) R (each_nil _) ltac:(rewrite app_nil_r; exact K)). }
    specialize (IH (past p (v ++ c) st') c Nc eq_refl eq_refl).
    destruct r as [st1|k|k|]; auto.
    + intros n ops h G. destruct (IH n ops h G) as (m & G'). exists (S m). eapply goes_again; eauto.
    + destruct IH as (m & G'). exists (S m). eapply goes_again; eauto.
    + destruct IH as (m & G'). exists (S m). eapply goes_again; eauto.
  - rewrite <- app_assoc in R.
    pose proof (Re p [] [] (v ++ c) R (each_nil _) ltac:(rewrite app_nil_r; exact K)) as St.
    destruct r as [st1|k|k|]; [exfalso; eapply F; eauto| | |exact I].
    + exists 1%nat. apply goes_raised. exact St.
    + exists 1%nat. apply goes_panicked. exact St.
Qed.

(** ** Masks *)

Lemma masks_again k p q : masks_of cfg k p -> step cfg p = Ok (Again q) -> masks_of cfg k q.
Proof. intros M H ops q' o st T. apply (M ops). eapply trace_again; eauto. Qed.
Lemma masks_emit k p x q : masks_of cfg k p -> step cfg p = Ok (Yield (Some x) q) -> masks_of cfg k q.
Proof. intros M H ops q' o st T. apply (M (x :: ops)). eapply trace_emit; eauto. Qed.

Lemma masks_here k p o m e xs c : masks_of cfg k p -> mask_operator o = true -> routine p = e ++ t2_bytes o ++ m ++ c ->
  each t2_number e xs -> mask_bytes (stems p + declared o (length (stack p ++ xs))) (Z.of_nat k).
Proof. intros M Mo R E. apply (M [] p o (stack p ++ xs)); [constructor| |auto]. exists e, xs, (m ++ c). auto. Qed.

Lemma masks_past k u st r : works cfg u st r -> forall p c st', c <> [] -> routine p = u ++ c -> stack p = st -> r = Ok st' ->
  masks_of cfg k p -> masks_of cfg k (past p c st').
Proof.
  induction 1 as [st|e x v st r N W IH|o v st st1 r So Re W IH|o v st r So Re F]; intros p c st' Nc R K Er M.
  - injection Er as <-. replace (past p c st) with p; auto. unfold past. destruct p; cbn in *; subst; reflexivity.
  - rewrite <- app_assoc in R. assert (E : each t2_number e [x]) by (rewrite <- (app_nil_r e); repeat constructor; auto).
    assert (Nv : v ++ c <> []) by (destruct v; [exact Nc|discriminate]).
    pose proof (step_numbers cfg p e [x] (v ++ c) E Nv R) as St.
    apply (IH (loaded p [x] (v ++ c)) c st' Nc eq_refl); auto.
    { cbn [loaded stack set_stack]. rewrite K. reflexivity. }
    intros ops q o st0 T A Mo. inversion T as [p0 E0 E1|p0 p1 ops0 q0 H T0|p0 y p1 ops0 q0 H T0]; subst.
    + destruct A as (e1 & xs & r1 & R1 & E1 & K1). cbn [loaded routine set_stack set_routine stack] in R1, K1.
      apply (M [] p o st0); [constructor| |auto]. exists (e ++ e1), (x :: xs), r1. rewrite R, R1, app_assoc. split; [reflexivity|].
      split; [constructor; auto|]. rewrite K1, <- app_assoc. reflexivity.
    + apply (M ops q o st0); auto. eapply trace_again; [rewrite St; exact H|auto].
    + apply (M (y :: ops0) q o st0); auto. eapply trace_emit; [rewrite St; exact H|auto].
  - rewrite <- app_assoc in R.
    assert (St : step cfg p = Ok (Again (past p (v ++ c) st1))).
    { exact (Re p [] [] (v ++ c) R (each_nil _) ltac:(rewrite app_nil_r; exact K)). }
    apply (IH (past p (v ++ c) st1) c st' Nc eq_refl eq_refl Er). eapply masks_again; eauto.
  - exfalso. eapply F; eauto.
Qed.

(** ** Programs with code replaced *)

Context (k : nat) (Bk : Z.of_nat k < 2 ^ 60).

Record twin (p p' : program) : Prop := {
  twin_routine : replaced cfg k (routine p) (routine p');
  twin_callers : Forall2 (replaced cfg k) (callers p) (callers p');
  twin_global : Forall2 (replaced cfg k) (global p) (global p');
  twin_local : Forall2 (replaced cfg k) (local p) (local p');
  twin_stack : stack p = stack p';
  twin_stems : stems p = stems p';
  twin_width : width p = width p'
}.

Definition twins (r r' : outcome stepped) : Prop :=
  match r, r' with
  | Ok (Again q), Ok (Again q') => twin q q'
  | Ok (Yield (Some x) q), Ok (Yield (Some x') q') => x = x' /\ twin q q'
  | Ok (Yield None q), Ok (Yield None q') => width q = width q'
  | Err e, Err e' => e = e'
  | Panic e, Panic e' => e = e'
  | OutOfFuel, OutOfFuel => True
  | _, _ => False
  end.

Lemma Forall2_flip {A} (R : A -> A -> Prop) l l' : (forall x y, R x y -> R y x) -> Forall2 R l l' -> Forall2 R l' l.
Proof. intros S'. induction 1; constructor; auto. Qed.

Lemma twin_sym p p' : twin p p' -> twin p' p.
Proof.
  intros []. constructor; auto using replaced_sym; apply Forall2_flip; auto using replaced_sym.
Qed.

Lemma with_stack_twins p p' m : twin p p' -> twins (with_stack p m) (with_stack p' m).
Proof. intros []. destruct m; cbn; auto. constructor; auto. Qed.

Lemma clear_twins o a p p' : twin p p' -> twins (clear o a p) (clear o a p').
Proof.
  intros T. unfold clear. rewrite <- (twin_stack _ _ T). destruct (fold_left _ _ _) as [?|]; [|reflexivity].
  rewrite <- (twin_width _ _ T). match goal with |- twins (bind ?m _) _ => destruct m; cbn end; auto.
  split; auto. destruct T. constructor; auto.
Qed.

Lemma Forall2_nth {A} (R : A -> A -> Prop) l l' i : Forall2 R l l' ->
  match nth_error l i, nth_error l' i with Some x, Some y => R x y | None, None => True | _, _ => False end.
Proof. intros F. revert i. induction F; intros [|i]; cbn; auto; apply IHF. Qed.

Lemma Forall2_len {A} (R : A -> A -> Prop) l l' : Forall2 R l l' -> length l = length l'.
Proof. induction 1; cbn; congruence. Qed.

Lemma call_twins t t' p p' : Forall2 (replaced cfg k) t t' -> twin p p' ->
  twins (let* q := call cfg t p in Ok (Again q)) (let* q := call cfg t' p' in Ok (Again q)).
Proof.
  intros F T. unfold call. rewrite <- (twin_stack _ _ T), <- (Forall2_len _ _ _ F).
  destruct (pop_i32 (stack p)) as [[a st]|e|e|]; cbn; auto.
  destruct (add_i32 cfg a _) as [i|e|e|]; cbn; auto.
  destruct ((i <? 0) || (_ <=? i)); cbn; auto.
  pose proof (Forall2_nth _ _ _ (Z.to_nat i) F) as N.
  destruct (nth_error t (Z.to_nat i)), (nth_error t' (Z.to_nat i)); cbn; try contradiction; auto.
  destruct T. constructor; cbn; auto.
Qed.

Lemma unwind_twins cs cs' : Forall2 (replaced cfg k) cs cs' -> forall r r', replaced cfg k r r' ->
  match unwind r cs, unwind r' cs' with Ok _, Ok _ => True | Err e, Err e' => e = e' | _, _ => False end.
Proof.
  induction 1 as [|c c' cs cs' H F IH]; intros r r' R; cbn; auto. rewrite (replaced_done _ _ _ R).
  destruct (done r'); [apply IH|]; auto.
Qed.

Lemma execute_twins o p p' : mask_operator o = false -> twin p p' -> twins (execute cfg o p) (execute cfg o p').
Proof.
  intros M T. destruct o; try discriminate M; unfold execute;
    rewrite <- ?(twin_stack _ _ T); try (apply clear_twins; exact T); try (apply with_stack_twins; exact T);
    try (rewrite <- (twin_stems _ _ T); destruct (add_u64 cfg _ _); cbn [bind twins]; auto; apply clear_twins; destruct T; constructor; auto; fail);
    try (apply call_twins; [apply T|exact T]); try reflexivity.
  - pose proof (twin_callers _ _ T) as F. destruct F; cbn; auto. destruct T. constructor; auto.
  - pose proof (unwind_twins _ _ (twin_callers _ _ T) _ _ (twin_routine _ _ T)) as U.
    destruct (unwind (routine p) _), (unwind (routine p') _); cbn; try contradiction; auto.
    rewrite (twin_width _ _ T), (twin_stack _ _ T). reflexivity.
Qed.

(** The parts of twins other than the code to execute. *)
Record twin_but (p p' : program) : Prop := {
  tb_callers : Forall2 (replaced cfg k) (callers p) (callers p');
  tb_global : Forall2 (replaced cfg k) (global p) (global p');
  tb_local : Forall2 (replaced cfg k) (local p) (local p');
  tb_stack : stack p = stack p';
  tb_stems : stems p = stems p';
  tb_width : width p = width p'
}.
Lemma but_twin p p' : twin_but p p' -> replaced cfg k (routine p) (routine p') -> twin p p'.
Proof. intros [] R. constructor; auto. Qed.
Lemma twin_and p p' : twin p p' -> twin_but p p'.
Proof. intros []. constructor; auto. Qed.
Lemma but_loaded p p' xs c c' : twin_but p p' -> twin_but (loaded p xs c) (loaded p' xs c').
Proof. intros []. constructor; cbn; auto. congruence. Qed.
Lemma but_past p p' st c c' : twin_but p p' -> twin_but (past p c st) (past p' c' st).
Proof. intros []. constructor; cbn; auto. Qed.

Lemma mask_same o p p' : twin_but p p' -> routine p = routine p' -> mask_operator o = true ->
  twins (execute cfg o p) (execute cfg o p').
Proof.
  intros T R M. destruct o; try discriminate M; unfold execute; rewrite <- (tb_stack _ _ T), <- (tb_stems _ _ T), R;
    destruct (add_u64 cfg _ _) as [n|e|e|]; cbn [bind]; try reflexivity;
    destruct (add_u64 cfg n 7) as [m|e|e|]; cbn [bind]; try reflexivity;
    destruct (take_vec _ _ _ _ _) as [[v r]|e|e|]; cbn [bind]; try reflexivity;
    apply clear_twins; destruct T; constructor; auto; cbn; apply replaced_not.
Qed.

Lemma mask_twins o p p' m c c' : twin_but p p' -> routine p = m ++ c -> routine p' = m ++ c' -> replaced cfg k c c' ->
  mask_operator o = true -> length m = k -> possible p -> mask_bytes (stems p + declared o (length (stack p))) (Z.of_nat k) ->
  twins (execute cfg o p) (execute cfg o p').
Proof.
  intros T R R' Rc M L P B. unfold possible in P. pose proof B as B0. unfold mask_bytes in B0.
  assert (D : Z.shiftr (Z.of_nat (length (stack p))) 1 = declared o (length (stack p))).
  { unfold declared. rewrite M, Bool.orb_true_r. rewrite Z.shiftr_div_pow2 by lia. reflexivity. }
  assert (D0 : 0 <= declared o (length (stack p))) by (rewrite <- D; apply Z.shiftr_nonneg; lia).
  rewrite <- L in B.
  destruct o; try discriminate M; unfold execute; rewrite <- (tb_stack _ _ T), <- (tb_stems _ _ T), R, R', D;
    rewrite add_u64_small by lia; cbn [bind]; rewrite add_u64_small by lia; cbn [bind];
    rewrite !take_mask by (auto; lia); cbn [bind];
    apply clear_twins; destruct T; constructor; auto.
Qed.

Lemma step_cases' p p' : routine p = routine p' -> stack p = stack p' ->
  routine p = [] \/ (exists e xs o r, each t2_number e xs /\ routine p = e ++ t2_bytes o ++ r) \/
  (exists e, step cfg p = Err e /\ step cfg p' = Err e).
Proof.
  intros R K. destruct (routine p) as [|b0 s0] eqn:R0; auto. right.
  unfold step. rewrite <- R, <- K, R0. cbn [done]. rewrite <- R0.
  pose proof (push_operands_settled (S (length (routine p))) (stack p) (routine p) ltac:(lia)) as St.
  destruct (push_operands _ _ _) as [[[st code] r]|e| |] eqn:E; try contradiction.
  2: { right. exists e. auto. }
  apply push_operands_inv in E as (e & xs & b & t & -> & X & -> & -> & -> & N).
  cbn [bind]. pose proof (read_t2_operator_settled (bz b) (b :: t)) as So.
  destruct (read_t2_operator (bz b) (b :: t)) as [[o r]|e'| |] eqn:Eo; try contradiction.
  - left. apply read_t2_operator_sound in Eo. exists e, xs, o, r. rewrite Eo. auto.
  - right. exists e'. auto.
Qed.

Lemma step_same p p' : twin_but p p' -> routine p = routine p' -> twins (step cfg p) (step cfg p').
Proof.
  intros T R. destruct (step_cases' p p' R (tb_stack _ _ T)) as [E|[(e & xs & o & r & X & E)|(e & E & E')]].
  - rewrite !step_empty by congruence. cbn. apply T.
  - rewrite (step_code cfg p _ _ _ _ X E), (step_code cfg p' _ _ _ _ X ltac:(rewrite <- R; exact E)).
    pose proof (but_loaded p p' xs r r T) as T'. destruct (mask_operator o) eqn:M.
    + apply mask_same; auto.
    + apply execute_twins; auto. apply but_twin; auto. apply replaced_not.
  - rewrite E, E'. reflexivity.
Qed.

Definition halts_alike (h h' : halt) : Prop :=
  match h, h' with
  | Pending, Pending => True
  | Ended q, Ended q' => width q = width q'
  | Raised e, Raised e' => e = e'
  | Panicked e, Panicked e' => e = e'
  | _, _ => False
  end.

Definition follows (n : nat) : Prop :=
  forall p p' ops h, twin p p' -> valid_program p -> possible p -> masks_of cfg k p \/ masks_of cfg k p' ->
    goes n p ops h -> exists m h', goes m p' ops h' /\ halts_alike h h'.

Lemma follow_step n p p' ops h : (forall m, (m < n)%nat -> follows m) -> twins (step cfg p) (step cfg p') ->
  valid_program p -> possible p -> masks_of cfg k p \/ masks_of cfg k p' ->
  goes n p ops h -> exists m h', goes m p' ops h' /\ halts_alike h h'.
Proof.
  intros IH T V P M G. inversion G as [|n' ? q H|n' ? e H|n' ? e H|n' ? q ? ? H Gq|n' ? x q ops' ? H Gq]; subst.
  - exists 0%nat, Pending. split; [constructor|exact I].
  - rewrite H in T. destruct (step cfg p') as [[[x|] q'|q']|e|e|] eqn:E'; cbn in T; try contradiction.
    exists 1%nat, (Ended q'). split; [constructor; auto|exact T].
  - rewrite H in T. destruct (step cfg p') as [[[x|] q'|q']|e'|e'|] eqn:E'; cbn in T; try contradiction. subst e'.
    exists 1%nat, (Raised e). split; [constructor; auto|reflexivity].
  - rewrite H in T. destruct (step cfg p') as [[[x|] q'|q']|e'|e'|] eqn:E'; cbn in T; try contradiction. subst e'.
    exists 1%nat, (Panicked e). split; [constructor; auto|reflexivity].
  - rewrite H in T. destruct (step cfg p') as [[[x|] q'|q']|e'|e'|] eqn:E'; cbn in T; try contradiction.
    pose proof (step_valid _ _ _ V H) as Vq. pose proof (step_possible _ _ _ P H) as Pq. cbn in Vq, Pq.
    destruct (IH n' ltac:(lia) q q' ops h T Vq Pq) as (m & h' & G' & A); auto.
    { destruct M; [left|right]; eapply masks_again; eauto. }
    exists (S m), h'. split; auto. eapply goes_again; eauto.
  - rewrite H in T. destruct (step cfg p') as [[[y|] q'|q']|e'|e'|] eqn:E'; cbn in T; try contradiction. destruct T as [<- T].
    pose proof (step_valid _ _ _ V H) as Vq. pose proof (step_possible _ _ _ P H) as Pq. cbn in Vq, Pq.
    destruct (IH n' ltac:(lia) q q' ops' h T ltac:(apply Vq) Pq) as (m & h' & G' & A); auto.
    { destruct M; [left|right]; eapply masks_emit; eauto. }
    exists (S m), h'. split; auto. eapply goes_emit; eauto.
Qed.

Lemma follow_code n : (forall m, (m < n)%nat -> follows m) -> forall c c', replaced cfg k c c' ->
  forall n' p p' ops h, (n' <= n)%nat -> routine p = c -> routine p' = c' -> twin_but p p' -> valid_program p -> possible p ->
    masks_of cfg k p \/ masks_of cfg k p' -> goes n' p ops h -> exists m h', goes m p' ops h' /\ halts_alike h h'.
Proof.
  intros IHn c c' R. induction R as [c|u v c c' A N N' R IH|o c c' M R IH|o m c c' M L R IH];
    intros n' p p' ops h Ln E E' T V P Ms G.
  - apply (follow_step n' p p' ops h (fun m Lm => IHn m (Nat.lt_le_trans _ _ _ Lm Ln))); auto. apply step_same; congruence.
  - destruct A as (U & W & Al).
    destruct (pass u U p c n' ops h N E G) as [[-> ->]|(r & Wu & X)].
    { exists 0%nat, Pending. split; [constructor|exact I]. }
    assert (Vs : Forall binary32 (stack p)) by apply V.
    pose proof (proj1 (Al _ Vs r) Wu) as Wv.
    pose proof (enter v _ _ Wv p' c' N' E' ltac:(symmetry; apply T)) as En.
    destruct r as [st|e|e|]; [| | |contradiction].
    + destruct X as (m & Lm & Gm).
      destruct (IH m (past p c st) (past p' c' st) ops h) as (m' & h' & G' & Ah); auto; try lia.
      * apply but_past. exact T.
      * split; [|apply V]. cbn. eapply works_valid; eauto.
      * destruct Ms as [Ms|Ms]; [left; exact (masks_past k u _ _ Wu p c st N E eq_refl eq_refl Ms)|right].
        exact (masks_past k v _ _ Wv p' c' st N' E' (eq_sym (tb_stack _ _ T)) eq_refl Ms).
      * destruct (En _ _ _ G') as (m2 & G2). exists m2, h'. auto.
    + destruct X as [-> ->]. destruct En as (m & Gm). exists m, (Raised e). split; [auto|reflexivity].
    + destruct X as [-> ->]. destruct En as (m & Gm). exists m, (Panicked e). split; [auto|reflexivity].
  - apply (follow_step n' p p' ops h (fun m Lm => IHn m (Nat.lt_le_trans _ _ _ Lm Ln))); auto.
    rewrite (step_code cfg p [] [] o c), (step_code cfg p' [] [] o c') by (constructor || auto).
    apply execute_twins; auto. apply but_twin; [apply but_loaded; auto|exact R].
  - apply (follow_step n' p p' ops h (fun m Lm => IHn m (Nat.lt_le_trans _ _ _ Lm Ln))); auto.
    assert (Mb : mask_bytes (stems p + declared o (length (stack p))) (Z.of_nat k)).
    { destruct Ms as [Ms|Ms].
      - pose proof (masks_here k p o m [] [] c Ms M E (each_nil _)) as H. rewrite app_nil_r in H. exact H.
      - pose proof (masks_here k p' o m [] [] c' Ms M E' (each_nil _)) as H. rewrite app_nil_r in H.
        rewrite (tb_stack _ _ T), (tb_stems _ _ T). exact H. }
    rewrite (step_code cfg p [] [] o (m ++ c)), (step_code cfg p' [] [] o (m ++ c')) by (constructor || auto).
    apply (mask_twins o _ _ m c c'); auto; [apply but_loaded; auto|].
    unfold loaded. cbn [stems stack set_stack set_routine]. rewrite app_nil_r. exact Mb.
Qed.

Lemma follow n : follows n.
Proof.
  induction n as [n IH] using (well_founded_induction Wf_nat.lt_wf).
  intros p p' ops h T V P M G. eapply (follow_code n IH _ _ (twin_routine _ _ T)); eauto using twin_and.
Qed.

Lemma twin_emits p p' ops : twin p p' -> valid_program p -> possible p -> masks_of cfg k p \/ masks_of cfg k p' ->
  emits cfg p ops -> emits cfg p' ops.
Proof.
  intros T V P M H. apply goes_emits in H as (n & G). destruct (follow n p p' ops Pending T V P M G) as (m & h' & G' & A).
  apply goes_emits. exists m. destruct h'; try contradiction. exact G'.
Qed.

Lemma twin_shows p p' r : twin p p' -> valid_program p -> possible p -> masks_of cfg k p \/ masks_of cfg k p' ->
  shows cfg p r -> shows cfg p' r.
Proof.
  intros T V P M (r' & H & ->). apply runs_goes in H as (n & ops & h & G & N & ->).
  destruct (follow n p p' ops h T V P M G) as (m & h' & G' & A).
  exists (result_of ops h'). split.
  - eapply goes_runs; eauto. destruct h'; try discriminate. destruct h; try contradiction. 
  - destruct h, h'; try contradiction; cbn in *; congruence.
Qed.

Lemma twin_seen p p' : twin p p' -> valid_program p -> possible p -> masks_of cfg k p -> seen_alike cfg p p'.
Proof.
  intros T V P M. assert (T' := twin_sym _ _ T).
  assert (V' : valid_program p').
  { destruct V as [V W]. split; [rewrite <- (twin_stack _ _ T); auto|rewrite <- (twin_width _ _ T); auto]. }
  assert (P' : possible p') by (unfold possible in *; rewrite <- (twin_stems _ _ T); auto).
  split; intros; split; intros H; eauto using twin_emits, twin_shows.
Qed.

End Rewrite.

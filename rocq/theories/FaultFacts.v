(** FaultFacts: the rules for breaking off and the model. *)
From Verif Require Import Base Float T2Number T2Operation T2Program BaseFacts SpecFault T2OperatorFacts T2NumberFacts StepFacts
  ClearFacts RunFacts ListingFacts FloatFacts EvalFacts IntegralFacts StackFacts ExecutionFacts SubroutineFacts ProgramFacts
  ReferenceFacts FailureFacts.
Local Open Scope list_scope.
Local Open Scope Z_scope.

(** What a round does about a fault. *)
Definition halted (f : fault) : outcome stepped :=
  match f with
  | Incomplete => Err UnexpectedEof
  | Invalid => Err Other
  | Excessive => Panic ArithmeticOverflow
  end.

Section Faults.
  Context (g l : list (list byte)) (Lg : Z.of_nat (length g) < 2 ^ 31) (Ll : Z.of_nat (length l) < 2 ^ 31).
  Context (cfg : config) (checks : overflow_checks cfg = true).

  Notation program_of := (program_of g l).

  (** ** Operators *)

  Lemma exceeds_extreme o code cs m xs r :
    exceeds g l o (values m ++ xs) (hints m) <-> extreme o (loaded (program_of code cs m) xs r).
  Proof.
    rewrite loaded_program. unfold extreme. cbn [stack local global stems ReferenceFacts.program_of values hints].
    generalize (values m ++ xs) (hints m). clear. intros st n. split.
    - intros H. destruct H as [o subs st a v b n [[-> ->]|[-> ->]] A B E|st i j c n I C J|o st n So E|o st n Mo E].
      + exists st, a, v, b. auto.
      + exists st, a, v, b. auto.
      + exists st, i, j, c. auto.
      + destruct o; try discriminate; left; auto.
      + destruct o; try discriminate; right; auto.
    - intros H. destruct (stem_operator o) eqn:So; [|destruct (mask_operator o) eqn:Mo].
      + apply exceeds_stem; auto. destruct o; try discriminate; destruct H as [[_ H]|[H _]]; auto; discriminate.
      + apply exceeds_mask; auto. destruct o; try discriminate; destruct H as [[H _]|[_ H]]; auto; discriminate.
      + destruct o; try discriminate; try (destruct H as [[H _]|[H _]]; discriminate).
        * destruct H as (st0 & a & v & b & -> & A & B & E). eapply exceeds_call; eauto.
        * destruct H as (st0 & a & v & b & -> & A & B & E). eapply exceeds_call; eauto.
        * destruct H as (st0 & i & j & c & -> & I & C & J). eapply exceeds_roll; eauto.
  Qed.

  Lemma exceeds_masks o st n : mask_operator o = true -> exceeds g l o st n -> 2 ^ 64 <= n + Z.of_nat (length st) / 2 + 7.
  Proof.
    intros M E. destruct E as [o subs st a v b n [[-> _]|[-> _]] A B E|st i j c n I C J|o st n So E|o st n Mo E]; auto; try discriminate.
    destruct o; discriminate.
  Qed.

  Lemma unfit_refuses o code cs m xs r : unfit g l o (values m ++ xs) -> refuses o (loaded (program_of code cs m) xs r).
  Proof.
    rewrite loaded_program. unfold refuses. cbn [stack local global callers routine ReferenceFacts.program_of values].
    generalize (values m ++ xs). clear. intros st H.
    destruct H as [o st I|o st So N|o st Po N|o st I N].
    - destruct I as [<-|[<-|[<-|[]]]]; auto.
    - do 3 right. left. auto.
    - do 4 right. left. split; auto. apply orb_true_iff. exact Po.
    - do 5 right. left. split; auto. destruct I as [<-|[<-|[]]]; auto.
  Qed.

  Lemma refuses_unfit o code cs m xs r : refuses o (loaded (program_of code cs m) xs r) ->
    unfit g l o (values m ++ xs) \/ (o = T2_Return /\ cs = []) \/ (o = T2_EndChar /\ unwind r cs = Err Other).
  Proof.
    rewrite loaded_program. unfold refuses. cbn [stack local global callers routine ReferenceFacts.program_of values].
    intros [->|[->|[->|[[So N]|[[Po N]|[[I N]|[[-> C]|[-> C]]]]]]]].
    - left. apply unfit_operator. cbn. auto.
    - left. apply unfit_operator. cbn. auto.
    - left. apply unfit_operator. cbn. auto.
    - left. apply unfit_stack; auto.
    - left. apply unfit_count; auto. apply orb_true_iff. exact Po.
    - left. apply unfit_call; auto. destruct I as [->| ->]; cbn; auto.
    - right. left. auto.
    - right. right. split; auto. apply unwind_err. exact C.
  Qed.

  (** ** The rules are followed *)

  Definition halts (code : list byte) (m : machine) (ops : list t2_operation) (f : fault) : Prop :=
    forall cs, exists q, trace cfg (program_of code cs m) ops q /\ step cfg q = halted f.

  Lemma halts_prefix code m rest m1 op ops f :
    (forall cs, trace cfg (program_of code cs m) op (program_of rest cs m1)) ->
    halts rest m1 ops f -> halts code m (op ++ ops) f.
  Proof. intros T H cs. destruct (H cs) as (q & Tq & Sq). exists q. split; auto. eapply trace_app; eauto. Qed.

  Lemma breaks_halts code m ops f : breaks g l code m ops f -> valid_program (program_of code [] m) ->
    possible (program_of code [] m) -> halts code m ops f.
  Proof.
    assert (D : forall n : nat, 0 <= Z.of_nat n / 2) by (intros; apply Z.div_pos; lia).
    assert (W : forall code cs m op rest cs' m1, trace cfg (program_of code cs m) op (program_of rest cs' m1) ->
      valid_program (program_of code [] m) -> possible (program_of code [] m) ->
      valid_program (program_of rest [] m1) /\ possible (program_of rest [] m1)).
    { intros c cs m' op rest cs' m1 T V P. split.
      - exact (proj1 (trace_valid _ _ _ _ T V)).
      - exact (trace_possible _ _ _ _ T P). }
    induction 1; intros V P.
    - intros cs. eexists. split; [apply trace_stop|]. eapply step_cut; [exact H0| |left; reflexivity].
      exists e. split; [cbn [routine ReferenceFacts.program_of]; rewrite app_nil_r; reflexivity|exact H].
    - intros cs. eexists. split; [apply trace_stop|]. eapply step_cut; [|exists e; split; [reflexivity|exact H]|right; exact H0].
      destruct H0 as [H0 _]. cbn. destruct e, t; try discriminate. congruence.
    - intros cs. eexists. split; [apply trace_stop|]. apply step_fails; auto.
      exists xs, t. split; [exists e; auto|]. left. auto.
    - intros cs. eexists. split; [apply trace_stop|]. rewrite (step_code _ _ e xs o rest) by auto.
      apply execute_extreme; auto. eapply exceeds_extreme; eauto.
    - intros cs. eexists. split; [apply trace_stop|]. apply step_fails; auto.
      exists xs, (t2_bytes o ++ rest). split; [exists e; auto|]. right. exists o, rest. split; auto. split.
      + rewrite <- exceeds_extreme. exact H0.
      + apply unfit_refuses. exact H1.
    - intros cs. eexists. split; [apply trace_stop|]. apply step_fails; auto. split.
      + cbn. destruct o; try discriminate; destruct e; discriminate.
      + exists xs, (t2_bytes o ++ rest). split; [exists e; auto|]. right. right. exists o, rest. split; auto. split; auto.
        assert (Ed : declared o (length (values m ++ xs)) = Z.of_nat (length (values m ++ xs)) / 2).
        { unfold declared. rewrite H0, orb_true_r. reflexivity. }
        split.
        * rewrite <- exceeds_extreme. intros E. apply exceeds_masks in E; auto. lia.
        * cbn [stems stack ReferenceFacts.program_of]. rewrite Ed, <- H1. exact H3.
    - pose proof (executes_traced g l Lg Ll cfg _ _ _ _ H2) as T. cbn [hints] in T. specialize (T ltac:(apply P)). cbn in T.
      intros cs. destruct (T (rest :: cs)) as (q & Tq & Sq). exists q. split; [|exact Sq].
      apply (trace_app _ _ [] _ ops) with (2 := Tq). eapply call_trace; eauto.
    - assert (T := call_trace g l Lg Ll cfg e xs o rest m st a body). 
      destruct (W _ _ _ _ _ _ _ (T [] H H0 H1) V P) as [V' P'].
      intros cs. destruct (IHbreaks V' P' (rest :: cs)) as (q & Tq & Sq). exists q. split; [|exact Sq].
      apply (trace_app _ _ [] _ ops) with (2 := Tq). auto.
    - pose proof (executes_traced g l Lg Ll cfg _ _ _ _ H2) as T. cbn [hints] in T. specialize (T ltac:(apply P)). cbn in T.
      assert (T' : forall cs, trace cfg (program_of (e ++ t2_bytes o ++ rest) cs m) ops (program_of rest cs m')).
      { intros cs. apply (trace_app _ _ [] _ ops) with (2 := T rest cs). eapply call_trace; eauto. }
      destruct (W _ _ _ _ _ _ _ (T' []) V P) as [V' P'].
      apply halts_prefix with (1 := T'). auto.
    - assert (T : forall cs, trace cfg (program_of (e ++ t2_bytes o ++ rest) cs m) []
        (program_of rest cs {| values := after; hints := hints m; advance := advance m |})) by (intros; eapply stack_trace; eauto).
      destruct (W _ _ _ _ _ _ _ (T []) V P) as [V' P'].
      apply (halts_prefix _ _ _ _ []) with (1 := T). auto.
    - assert (T : forall cs, trace cfg (program_of (e ++ t2_bytes o ++ rest) cs m) [(o, operands)]
        (program_of rest cs {| values := []; hints := hints m; advance := noted (advance m) surplus |})) by (intros; eapply path_trace; eauto).
      destruct (W _ _ _ _ _ _ _ (T []) V P) as [V' P'].
      apply (halts_prefix _ _ _ _ [(o, operands)]) with (1 := T). auto.
    - assert (T : forall cs, trace cfg (program_of (e ++ t2_bytes o ++ rest) cs m) [(o, operands)]
        (program_of rest cs {| values := []; hints := n; advance := noted (advance m) surplus |})).
      { intros; eapply stem_trace; eauto. apply P. }
      destruct (W _ _ _ _ _ _ _ (T []) V P) as [V' P'].
      apply (halts_prefix _ _ _ _ [(o, operands)]) with (1 := T). auto.
    - assert (T : forall cs, trace cfg (program_of (e ++ t2_bytes o ++ mask ++ rest) cs m) [(o, [])]
        (program_of rest cs {| values := []; hints := n; advance := noted (advance m) (values m ++ xs) |})).
      { intros; eapply mask_trace; eauto. apply P. }
      destruct (W _ _ _ _ _ _ _ (T []) V P) as [V' P'].
      apply (halts_prefix _ _ _ _ [(o, [])]) with (1 := T). auto.
  Qed.

  (** Without a caller there is nothing to return to. *)
  Lemma returned_halts code m ops m' : executes g l code m ops (Returned m') -> 0 <= hints m ->
    exists q, trace cfg (program_of code [] m) ops q /\ step cfg q = Err Other.
  Proof.
    assert (D : forall n : nat, 0 <= Z.of_nat n / 2) by (intros; apply Z.div_pos; lia).
    assert (J : forall p op q ops, trace cfg p op q -> (exists q', trace cfg q ops q' /\ step cfg q' = Err Other) ->
      exists q', trace cfg p (op ++ ops) q' /\ step cfg q' = Err Other).
    { intros p op q ops' T (q' & T' & H). exists q'. split; auto. eapply trace_app; eauto. }
    intros E. remember (Returned m') as fin eqn:Ef. induction E; intros N; try discriminate.
    - apply (J _ []) with (2 := IHE Ef N). eapply stack_trace; eauto.
    - apply (J _ [(o, operands)]) with (2 := IHE Ef N). eapply path_trace; eauto.
    - specialize (D (length (values m ++ xs))).
      apply (J _ [(o, operands)]) with (2 := IHE Ef ltac:(cbn; lia)). eapply stem_trace; eauto.
    - specialize (D (length (values m ++ xs))).
      apply (J _ [(o, [])]) with (2 := IHE Ef ltac:(cbn; lia)). eapply mask_trace; eauto.
    - pose proof (executes_hints g l _ _ _ _ E1 N) as N'. pose proof (executes_traced g l Lg Ll cfg _ _ _ _ E1 N) as T. cbn in T.
      apply J with (2 := IHE2 Ef N').
      apply (trace_app _ _ [] _ ops) with (2 := T rest []). eapply call_trace; eauto.
    - eexists. split; [apply trace_stop|]. rewrite (step_code _ _ e xs T2_Return rest) by auto. reflexivity.
  Qed.

  Lemma start_valid code : valid_program (program_of code [] start) /\ possible (program_of code [] start).
  Proof. split; [split; [constructor|discriminate]|]. unfold possible. cbn. lia. Qed.

  Lemma faulty_halts code ops f : faulty g l code ops f ->
    exists q, trace cfg (new_program code g l) ops q /\ step cfg q = halted f.
  Proof.
    destruct (start_valid code) as [V P]. rewrite <- (program_of_start g l).
    intros [B|(-> & m & E)].
    - exact (breaks_halts _ _ _ _ B V P []).
    - apply returned_halts with m; auto. cbn. lia.
  Qed.

  (** ** There are no others *)

  (** Code, and then the callers, break off. *)
  Inductive gives_up : list byte -> list (list byte) -> machine -> list t2_operation -> fault -> Prop :=
  | gives_up_here code cs m ops f : breaks g l code m ops f -> gives_up code cs m ops f
  | gives_up_later code c cs m ops m1 ops' f :
      executes g l code m ops (Returned m1) -> gives_up c cs m1 ops' f -> gives_up code (c :: cs) m (ops ++ ops') f
  | gives_up_returned code m ops m1 : executes g l code m ops (Returned m1) -> gives_up code [] m ops Invalid
  | gives_up_ended code cs m ops rest m1 :
      executes g l code m ops (Ended rest m1) -> unwind rest cs = Err Other -> gives_up code cs m ops Invalid.

  Lemma gives_up_prefix code m rest m1 op ops cs f :
    (forall ops f, executes g l rest m1 ops f -> executes g l code m (op ++ ops) f) ->
    (forall ops f, breaks g l rest m1 ops f -> breaks g l code m (op ++ ops) f) ->
    gives_up rest cs m1 ops f -> gives_up code cs m (op ++ ops) f.
  Proof.
    intros E B. destruct 1.
    - apply gives_up_here. auto.
    - rewrite app_assoc. eapply gives_up_later; eauto.
    - eapply gives_up_returned; eauto.
    - eapply gives_up_ended; eauto.
  Qed.

  Lemma gives_up_call e xs o rest m st a body cs ops f : each t2_number e xs -> values m ++ xs = st ++ [a] ->
    subroutine g l o a body ->
    gives_up body (rest :: cs) {| values := st; hints := hints m; advance := advance m |} ops f ->
    gives_up (e ++ t2_bytes o ++ rest) cs m ops f.
  Proof.
    intros X K Sub H. remember (rest :: cs) as cs0 eqn:Ec. remember {| values := st; hints := _; advance := _ |} as m0 eqn:Em.
    destruct H; subst; try discriminate.
    - apply gives_up_here. eapply breaks_call; eauto.
    - injection Ec as -> ->. apply gives_up_prefix with (3 := H0).
      + intros. eapply executes_call; eauto.
      + intros. eapply breaks_after_call; eauto.
    - cbn [unwind] in H0. destruct rest0 as [|b left].
      + cbn [done] in H0. eapply gives_up_ended; [|exact H0]. eapply executes_call_ended; eauto.
      + apply gives_up_here. eapply breaks_call_ended; eauto.
  Qed.

  (** The last round. *)
  Lemma step_gives_up code cs m f : valid_program (program_of code cs m) -> possible (program_of code cs m) ->
    step cfg (program_of code cs m) = halted f -> gives_up code cs m [] f.
  Proof.
    intros V P H. destruct f; cbn [halted] in H.
    - apply step_fails in H; auto. destruct H as (R & xs & t & (e & E & X) & [->|[C|(o & r & -> & Mo & Nx & S)]]); cbn in E, R; subst code.
      + rewrite app_nil_r in *. apply gives_up_here. eapply breaks_numbers; eauto.
      + apply gives_up_here. eapply breaks_token; eauto.
      + apply gives_up_here.
        assert (Ed : declared o (length (values m ++ xs)) = Z.of_nat (length (values m ++ xs)) / 2).
        { unfold declared. rewrite Mo, orb_true_r. reflexivity. }
        cbn [stems stack ReferenceFacts.program_of] in S. rewrite Ed in S.
        eapply breaks_cut_mask; eauto. rewrite <- exceeds_extreme in Nx.
        destruct (Z.lt_ge_cases (hints m + Z.of_nat (length (values m ++ xs)) / 2 + 7) (2 ^ 64)) as [|G]; auto.
        exfalso. apply Nx. apply exceeds_mask; auto.
    - apply step_fails in H; auto. destruct H as (xs & t & (e & E & X) & [(T & C & N & O)|(o & r & -> & Nx & Ref)]); cbn in E; subst code.
      + apply gives_up_here. eapply breaks_unknown; eauto.
      + rewrite <- exceeds_extreme in Nx. apply refuses_unfit in Ref as [U|[(-> & ->)|(-> & U)]].
        * apply gives_up_here. eapply breaks_unfit; eauto.
        * eapply gives_up_returned. apply executes_return. exact X.
        * eapply gives_up_ended; [|exact U]. apply executes_end. exact X.
    - assert (Q : exists e xs o r, code = e ++ t2_bytes o ++ r /\ each t2_number e xs /\ extreme o (loaded (program_of code cs m) xs r)).
      { apply step_panic in H as (_ & _ & H); auto. }
      destruct Q as (e & xs & o & r & E & X & Ex). subst code. apply exceeds_extreme in Ex. apply gives_up_here. eapply breaks_excessive; eauto.
  Qed.

  Lemma trace_gives_up p ops q f : trace cfg p ops q -> step cfg q = halted f -> forall code cs m, p = program_of code cs m ->
    valid_program p -> possible p -> gives_up code cs m ops f.
  Proof.
    intros T Sq. induction T as [p|p p' ops q Sp T IH|p y p' ops q Sp T IH]; intros code cs m -> V P.
    - apply step_gives_up; auto.
    - assert (V' : valid_program p') by exact (step_valid _ _ _ V Sp).
      assert (P' : possible p') by exact (step_possible _ _ _ P Sp).
      destruct (step_inv _ _ _ Sp) as [(E & Ex)|(e & xs & o & r & X & E & Hx)]; [discriminate|].
      cbn in E. subst code. pose proof (loaded_valid _ _ _ r V X) as [Vl _].
      rewrite loaded_program in *. cbn [stack values ReferenceFacts.program_of] in Vl.
      apply execute_again in Hx as [(So & st & Ef & ->)|[(Ho & Hc)|(-> & c & cs' & Ec & ->)]].
      + cbn [stack values ReferenceFacts.program_of] in Ef. apply effect_computes in Ef; auto.
        pose proof (IH Sq r cs {| values := st; hints := hints m; advance := advance m |} eq_refl V' P') as K.
        apply (gives_up_prefix _ _ _ _ []) with (3 := K).
        * intros. eapply executes_stack; eauto.
        * intros. eapply breaks_after_stack; eauto.
      + apply call_inv' in Hc as (st & a & body & Es & Hs & ->); auto.
        cbn [stack values ReferenceFacts.program_of routine callers] in *.
        assert (Sub : subroutine g l o a body).
        { destruct Ho as [-> | ->]; [left|right]; auto. }
        eapply gives_up_call; eauto.
      + cbn in Ec. subst cs.
        pose proof (IH Sq c cs' {| values := values m ++ xs; hints := hints m; advance := advance m |} eq_refl V' P') as K.
        apply (gives_up_later _ _ _ _ []) with (2 := K). apply executes_return. auto.
    - assert (V' : valid_program p') by exact (proj1 (step_valid _ _ _ V Sp)).
      assert (P' : possible p') by exact (step_possible _ _ _ P Sp).
      destruct (step_inv _ _ _ Sp) as [(E & Ex)|(e & xs & o & r & X & E & Hx)]; [discriminate|].
      cbn in E. subst code. rewrite loaded_program in Hx. unfold possible in P. cbn [stems ReferenceFacts.program_of] in P.
      apply execute_emits in Hx; auto; [|cbn; lia]. cbn [values hints advance] in Hx.
      destruct Hx as [(Ho & surplus & operands & -> & L & ->)|[(Ho & surplus & operands & n & -> & L & En & R & ->)|
        (Ho & mask & rest & n & -> & -> & En & R & M & ->)]];
        pose proof (IH Sq _ _ _ eq_refl V' P') as K.
      + apply (gives_up_prefix _ _ _ _ [(o, operands)]) with (3 := K); intros.
        * eapply executes_path; eauto.
        * eapply breaks_after_path; eauto.
      + apply (gives_up_prefix _ _ _ _ [(o, operands)]) with (3 := K); intros.
        * eapply executes_stem; eauto.
        * eapply breaks_after_stem; eauto.
      + apply (gives_up_prefix _ _ _ _ [(o, [])]) with (3 := K); intros.
        * eapply executes_mask; eauto.
        * eapply breaks_after_mask; eauto.
  Qed.

  Lemma halts_faulty code ops f q : trace cfg (new_program code g l) ops q -> step cfg q = halted f -> faulty g l code ops f.
  Proof.
    intros T Sq. destruct (start_valid code) as [V P].
    pose proof (trace_gives_up _ _ _ _ T Sq code [] start eq_refl V P) as H.
    remember [] as cs eqn:Ec in H. remember start as m eqn:Em in H. destruct H; subst; try discriminate.
    - left. auto.
    - right. eauto.
  Qed.
End Faults.

(** ** Calls of [next] *)

Lemma gives_trace cfg p ops q : gives cfg p ops q -> trace cfg p ops q.
Proof.
  induction 1 as [p|p x p' ops q N G IH]; [constructor|].
  apply nexts_trace in N as (p2 & T & S2). apply (trace_app _ _ [] p2 (x :: ops)); auto. eapply trace_emit; eauto.
Qed.

(** Rounds that do not end in the middle of a call. *)
Lemma trace_gives cfg p ops q r : trace cfg p ops q -> nexts cfg q r -> exists p', gives cfg p ops p' /\ nexts cfg p' r.
Proof.
  intros T N. induction T as [p|p p' ops q Sp T IH|p x p' ops q Sp T IH].
  - exists p. split; [constructor|auto].
  - destruct (IH N) as (p2 & G & N2). inversion G; subst.
    + exists p. split; [constructor|]. eapply nexts_again; eauto.
    + exists p2. split; auto. econstructor; [|eassumption]. eapply nexts_again; eauto.
  - destruct (IH N) as (p2 & G & N2). exists p2. split; auto. econstructor; [|eassumption].
    eapply nexts_yield; eauto.
Qed.

(** ** Runs *)

Section Runs.
  Context (g l : list (list byte)) (Lg : Z.of_nat (length g) < 2 ^ 31) (Ll : Z.of_nat (length l) < 2 ^ 31).

  Lemma step_reported cfg q f : step cfg q = halted f -> nexts cfg q (reported f).
  Proof.
    intros H. destruct f; cbn in *; [apply (nexts_err _ _ _ _ H)|apply (nexts_err _ _ _ _ H)|apply (nexts_panic _ _ _ _ H)]; reflexivity.
  Qed.

  Lemma reported_step cfg q f : nexts cfg q (reported f) -> exists q', trace cfg q [] q' /\ step cfg q' = halted f.
  Proof. destruct f; cbn; [apply nexts_trace_err|apply nexts_trace_err|apply nexts_trace_panic]. Qed.

  Lemma faulty_iff cfg code ops f : overflow_checks cfg = true ->
    (exists q, gives cfg (new_program code g l) ops q /\ nexts cfg q (reported f)) <-> faulty g l code ops f.
  Proof.
    intros O. split.
    - intros (q & G & N). apply gives_trace in G. apply reported_step in N as (q' & T & H).
      pose proof (trace_app _ _ _ _ _ _ G T) as T'. rewrite app_nil_r in T'. eapply halts_faulty; eauto.
    - intros F. apply (faulty_halts g l Lg Ll cfg O) in F as (q & T & H).
      apply step_reported in H. eapply trace_gives; eauto.
  Qed.

  Lemma trace_det cfg p ops q f ops' q' f' : trace cfg p ops q -> step cfg q = halted f ->
    trace cfg p ops' q' -> step cfg q' = halted f' -> ops = ops' /\ f = f'.
  Proof.
    intros T H T' H'. assert (N : forall p f s, step cfg p = halted f -> step cfg p <> Ok s) by (intros p0 f0 s E; rewrite E; destruct f0; discriminate).
    revert ops' T'. induction T as [p|p p' ops q S T IH|p x p' ops q S T IH]; intros ops' T'; inversion T'; subst.
    - split; auto. rewrite H in H'. destruct f, f'; cbn in H'; congruence.
    - destruct (N _ _ _ H H0).
    - destruct (N _ _ _ H H0).
    - destruct (N _ _ _ H' S).
    - apply IH; auto. congruence.
    - congruence.
    - destruct (N _ _ _ H' S).
    - congruence.
    - assert (x0 = x /\ p'0 = p') as [-> ->] by (split; congruence). destruct (IH H _ H1) as [-> ->]. auto.
  Qed.

  Lemma faulty_unique code ops f ops' f' : faulty g l code ops f -> faulty g l code ops' f' -> ops = ops' /\ f = f'.
  Proof.
    intros F F'. apply (faulty_halts g l Lg Ll dev_profile eq_refl) in F as (q & T & H).
    apply (faulty_halts g l Lg Ll dev_profile eq_refl) in F' as (q' & T' & H'). eapply trace_det; eauto.
  Qed.

  Lemma faulty_runs cfg code ops f : overflow_checks cfg = true -> faulty g l code ops f ->
    exists r, runs cfg (new_program code g l) r /\ forall x, r <> Ok x.
  Proof.
    intros O F. apply (faulty_halts g l Lg Ll cfg O) in F as (q & T & H).
    exists (match f with Incomplete => Err UnexpectedEof | Invalid => Err Other | Excessive => Panic ArithmeticOverflow end).
    split; [|destruct f; discriminate]. apply (trace_runs _ _ _ _ T).
    destruct f; cbn in H.
    - exists (Err UnexpectedEof). split; [|reflexivity]. apply runs_err. eapply nexts_err; [exact H|reflexivity].
    - exists (Err Other). split; [|reflexivity]. apply runs_err. eapply nexts_err; [exact H|reflexivity].
    - exists (Panic ArithmeticOverflow). split; [|reflexivity]. apply runs_panic. eapply nexts_panic; [exact H|reflexivity].
  Qed.

  Lemma faulty_meaning code ops f ops' m : faulty g l code ops f -> ~ meaning g l code ops' m.
  Proof.
    intros F M. destruct (faulty_runs dev_profile code ops f eq_refl F) as (r & R & N).
    exact (meaning_fails g l Lg Ll dev_profile code r R N ops' m M).
  Qed.

  Lemma runs_faulty cfg code r : overflow_checks cfg = true -> runs cfg (new_program code g l) r ->
    (exists ops m, meaning g l code ops m) \/ (exists ops f, faulty g l code ops f).
  Proof.
    intros O R. destruct r as [[ops q]|k|k|].
    - left. apply runs_meaning in R as (m & M & _); eauto.
    - right. apply runs_trace_err in R as (ops & q & T & H). exists ops.
      exists (match k with UnexpectedEof => Incomplete | Other => Invalid end).
      eapply halts_faulty; eauto. destruct k; exact H.
    - right. apply runs_trace_panic in R as (ops & p & T & N). apply nexts_trace_panic in N as (q & T' & H).
      pose proof (trace_app _ _ _ _ _ _ T T') as Tq. rewrite app_nil_r in Tq. exists ops, Excessive.
      eapply halts_faulty; eauto. cbn [halted].
      pose proof (trace_subs _ _ _ _ Tq) as [Gq Lq].
      assert (k = ArithmeticOverflow) as ->; auto. apply step_panic in H; [apply H|..].
      + apply (trace_valid _ _ _ _ Tq (new_valid _ _ _)).
      + apply (trace_possible _ _ _ _ Tq (new_possible _ _ _)).
      + rewrite Lq. exact Ll.
      + rewrite Gq. exact Lg.
    - destruct R as [N _]. congruence.
  Qed.

  Lemma endless cfg code : overflow_checks cfg = true ->
    (forall r, ~ runs cfg (new_program code g l) r) <->
    (forall ops m, ~ meaning g l code ops m) /\ (forall ops f, ~ faulty g l code ops f).
  Proof.
    intros O. split.
    - intros N. split.
      + intros ops m M. apply (meaning_runs g l Lg Ll cfg) in M as (q & R & _). eapply N; eauto.
      + intros ops f F. destruct (faulty_runs cfg code ops f O F) as (r & R & _). exact (N r R).
    - intros [M F] r R. destruct (runs_faulty cfg code r O R) as [(ops & m & H)|(ops & f & H)]; [eapply M|eapply F]; eauto.
  Qed.

  (** The faults that are not overflows do not depend on the build. *)
  Lemma trace_builds cfg p ops q : trace dev_profile p ops q -> trace cfg p ops q.
  Proof.
    pose proof (agree_step dev_profile cfg eq_refl) as A. unfold agree in A.
    induction 1 as [p|p p' ops q S T IH|p x p' ops q S T IH]; [constructor| |];
      specialize (A p); rewrite S in A; specialize (A I); [eapply trace_again|eapply trace_emit]; eauto.
  Qed.

  Lemma faulty_builds cfg code ops f : f <> Excessive -> faulty g l code ops f ->
    exists q, gives cfg (new_program code g l) ops q /\ nexts cfg q (reported f).
  Proof.
    intros N F. apply (faulty_halts g l Lg Ll dev_profile eq_refl) in F as (q & T & H).
    apply (trace_builds cfg) in T. pose proof (agree_step dev_profile cfg eq_refl q) as A. unfold agree in A.
    rewrite H in A. assert (H' : step cfg q = halted f) by (apply A; destruct f; cbn; auto).
    apply step_reported in H'. eapply trace_gives; eauto.
  Qed.
End Runs.

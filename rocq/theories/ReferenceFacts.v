(** ReferenceFacts: the model of [Program] and the semantics by rules. *)
From Verif Require Import Base Float T2Operation T2Program BaseFacts SpecProgram SpecExecution T2NumberFacts StepFacts ClearFacts RunFacts FloatFacts EvalFacts IntegralFacts StackFacts ExecutionFacts SubroutineFacts.
Local Open Scope Z_scope.

(** ** Rolls *)

Lemma roll_pops cfg deep xs n j J : stands_for n (Z.of_nat (length xs)) -> stands_for j J ->
  J <> - 2 ^ 31 \/ xs = [] ->
  exists ys, roll cfg (deep ++ xs ++ [n; j]) = Ok (deep ++ ys) /\ rotated J xs ys.
Proof.
  intros In Ij Hm. pose proof (stands_for_range _ _ Ij) as Rj. unfold roll.
  replace (deep ++ xs ++ [n; j]) with (((deep ++ xs) ++ [n]) ++ [j]) by (rewrite <- !app_assoc; reflexivity).
  rewrite (pop_stands_for _ _ _ Ij). cbn [bind]. rewrite (pop_stands_for _ _ _ In). cbn [bind].
  rewrite app_length. destruct (Z.ltb_spec (Z.of_nat (length xs)) 0); [lia|].
  destruct (Z.ltb_spec (Z.of_nat (length deep + length xs)) (Z.of_nat (length xs))); [lia|].
  destruct xs as [|x xs].
  { cbn. exists []. split; [reflexivity|]. split; auto. intros [|i] y; discriminate. }
  destruct Hm as [Hm|]; [|discriminate].
  remember (x :: xs) as xs' eqn:E. assert (N : xs' <> []) by (subst; discriminate). clear E x xs.
  destruct (Z.ltb_spec 0 (Z.of_nat (length xs'))); [|destruct xs'; cbn in *; [congruence|lia]].
  replace (Z.to_nat (Z.of_nat (length deep + length xs') - Z.of_nat (length xs'))) with (length deep) by lia.
  destruct (Z.compare_spec J 0) as [->|L|L].
  - exists xs'. split; [reflexivity|apply rotated_zero].
  - unfold neg_i32, in_i32. destruct (Z.leb_spec (- 2 ^ 31) (- J)), (Z.ltb_spec (- J) (2 ^ 31)); try lia. cbn [andb bind].
    change (fun m => let* st := m in let* (operand, st0) := vec_remove (length deep) st in Ok (push operand st0)) with (down (length deep)).
    rewrite iter_nat_Z by lia. destruct (down_many deep (Z.to_nat (- J)) xs' N) as (ys & -> & R).
    exists ys. split; auto. rewrite Z2Nat.id in R by lia. rewrite Z.opp_involutive in R. exact R.
  - change (fun m => let* st := m in let* (operand, st0) := pop st in vec_insert (length deep) operand st0) with (up (length deep)).
    rewrite iter_nat_Z by lia. destruct (up_many deep (Z.to_nat J) xs' N) as (ys & -> & R).
    exists ys. split; auto. rewrite Z2Nat.id in R by lia. exact R.
Qed.

Lemma rotated_same j xs ys zs : rotated j xs ys -> rotated j xs zs -> ys = zs.
Proof.
  intros R1 R2. destruct xs as [|x xs].
  - destruct R1 as [L1 _], R2 as [L2 _]. destruct ys, zs; cbn in *; congruence.
  - apply (rotated_unique j (x :: xs)); auto. discriminate.
Qed.

Lemma roll_inv cfg st st' : overflow_checks cfg = true -> Forall binary32 st -> roll cfg st = Ok st' ->
  computes T2_Roll st st'.
Proof.
  intros C B H. pose proof H as H0. unfold roll in H0.
  destruct (pop_i32 st) as [[J st1]| | |] eqn:E1; try discriminate. cbn [bind] in H0.
  destruct (stands_for_pop _ _ _ B E1) as (j & -> & Sj). apply Forall_snoc in B as [B Bj].
  destruct (pop_i32 st1) as [[N st2]| | |] eqn:E2; try discriminate. cbn [bind] in H0.
  destruct (stands_for_pop _ _ _ B E2) as (n & -> & Sn).
  destruct (Z.ltb_spec N 0); [discriminate|]. destruct (Z.ltb_spec (Z.of_nat (length st2)) N); [discriminate|].
  set (k := Z.to_nat (Z.of_nat (length st2) - N)) in *.
  assert (Lx : Z.of_nat (length (skipn k st2)) = N) by (rewrite skipn_length; lia).
  assert (Es : (st2 ++ [n]) ++ [j] = firstn k st2 ++ skipn k st2 ++ [n; j]).
  { rewrite app_assoc, firstn_skipn, <- app_assoc. reflexivity. }
  assert (Hm : J <> - 2 ^ 31 \/ skipn k st2 = []).
  { destruct (Z.eq_dec J (- 2 ^ 31)) as [->|]; auto. right.
    destruct (Z.ltb_spec 0 N); [|apply length_zero_iff_nil; lia].
    exfalso. unfold neg_i32 in H0. rewrite C in H0. cbn in H0. discriminate. }
  rewrite Es in *. rewrite <- Lx in Sn.
  destruct (roll_pops cfg (firstn k st2) (skipn k st2) n j J Sn Sj Hm) as (ys & E & R).
  rewrite E in H. injection H as <-. eapply computes_roll; eauto.
Qed.

(** ** Stack operators *)

Lemma computes_stack o st st' : computes o st st' -> stack_operator o = true.
Proof. destruct 1; reflexivity. Qed.

Lemma computes_effect cfg o st st' : computes o st st' -> effect cfg o st = Ok st'.
Proof.
  destruct 1; auto using effect_abs, effect_neg, effect_sqrt, effect_add, effect_sub, effect_mul, effect_div,
    effect_not, effect_and, effect_or, effect_eq, effect_ifelse, effect_drop, effect_exch, effect_dup.
  - unfold effect, execute, with_stack. cbn [stack]. rewrite (pop_stands_for _ _ _ H). cbn [bind].
    replace (if 0 <=? n then n else 0) with (Z.of_nat (Z.to_nat n)) by (destruct (Z.leb_spec 0 n); lia).
    rewrite (read_top _ _ _ H0). reflexivity.
  - destruct (roll_pops cfg deep xs n j J) as (zs & E & R); auto.
    unfold effect, execute, with_stack. cbn [stack]. rewrite E. cbn. f_equal. f_equal.
    eapply rotated_same; eauto.
Qed.

Lemma read_top_inv i st x : 0 <= i -> read_from_top i st = Ok x -> nth_error (rev st) (Z.to_nat i) = Some x.
Proof.
  intros N H. destruct (nth_error (rev st) (Z.to_nat i)) as [y|] eqn:E.
  - apply read_top in E. rewrite Z2Nat.id in E by auto. congruence.
  - exfalso. apply nth_error_None in E. rewrite rev_length in E. unfold read_from_top in H.
    destruct (Z.leb_spec (Z.of_nat (length st)) i); [discriminate|lia].
Qed.

Lemma pop_bool_inv' st b st' : pop_bool st = Ok (b, st') -> exists x, st = st' ++ [x] /\ b = truth x.
Proof.
  intros H. destruct (pop_bool_inv _ _ _ H) as [x ->]. rewrite pop_bool_app in H. injection H as <-. eauto.
Qed.

Lemma effect_computes cfg o st st' : overflow_checks cfg = true -> Forall binary32 st ->
  stack_operator o = true -> effect cfg o st = Ok st' -> computes o st st'.
Proof.
  intros C B S H.
  assert (M : forall m, with_stack {| routine := []; callers := []; global := []; local := []; stack := st;
    stems := 0; width := None |} m = execute cfg o {| routine := []; callers := []; global := []; local := [];
    stack := st; stems := 0; width := None |} -> m = Ok st').
  { intros m E. unfold effect in H. rewrite <- E in H. destruct m; cbn in H; congruence. }
  destruct o; try discriminate; cbn [execute stack] in M; specialize (M _ eq_refl);
    repeat match type of M with
      | bind (pop ?s) _ = Ok _ => let E := fresh in destruct (pop s) as [[? ?]| | |] eqn:E; try discriminate; apply pop_inv in E; subst; cbn [bind] in M
      | bind (pop_bool ?s) _ = Ok _ => let E := fresh in destruct (pop_bool s) as [[? ?]| | |] eqn:E; try discriminate; apply pop_bool_inv' in E as (? & ? & ?); subst; cbn [bind] in M
      | unary _ _ = _ => unfold unary in M
      | binary _ _ = _ => unfold binary in M
      end;
    try (injection M as <-); rewrite <- ?push_two, <- ?push_four; unfold push_bool, push.
  all: try (constructor; fail).
  all: try (rewrite f32_add_comm; constructor; fail).
  all: try (rewrite f32_mul_comm; constructor; fail).
  - rewrite <- app_assoc. constructor.
  - destruct (read_from_top 0 st) as [y| | |] eqn:R; try discriminate. injection M as <-.
    apply read_top_inv in R; [|lia]. destruct st as [|z st _] using rev_ind; [discriminate|].
    rewrite rev_app_distr in R. injection R as ->. unfold push. rewrite <- app_assoc. constructor.
  - rewrite <- app_assoc. constructor.
  - destruct (pop_i32 st) as [[i st1]| | |] eqn:E; try discriminate. cbn [bind] in M.
    destruct (stands_for_pop _ _ _ B E) as (x & -> & Sx).
    destruct (read_from_top _ st1) as [y| | |] eqn:R; try discriminate. injection M as <-.
    apply computes_index with i; auto.
    apply read_top_inv in R; [|destruct (Z.leb_spec 0 i); lia].
    replace (Z.to_nat (if 0 <=? i then i else 0)) with (Z.to_nat i) in R by (destruct (Z.leb_spec 0 i); lia). exact R.
  - apply (roll_inv cfg); auto.
Qed.

(** ** Programs and machines *)

Section Reference.
  Context (g l : list (list byte)) (Lg : Z.of_nat (length g) < 2 ^ 31) (Ll : Z.of_nat (length l) < 2 ^ 31).

  Definition program_of (code : list byte) (cs : list (list byte)) (m : machine) : program :=
    {| routine := code; callers := cs; global := g; local := l;
       stack := values m; stems := hints m; width := advance m |}.

  Lemma program_of_start code : program_of code [] start = new_program code g l.
  Proof. reflexivity. Qed.

  Lemma noted_after w surplus : noted w surplus = width_after w surplus.
  Proof.
    unfold noted, width_after. destruct w; auto. unfold last_error. destruct surplus as [|x s _] using rev_ind; auto.
    rewrite rev_app_distr, nth_error_last. reflexivity.
  Qed.

  Lemma executes_hints code m ops f : executes g l code m ops f -> 0 <= hints m ->
    0 <= hints (match f with Returned m' | Ended _ m' | Exhausted m' => m' end).
  Proof.
    assert (D : forall n : nat, 0 <= Z.of_nat n / 2) by (intros; apply Z.div_pos; lia).
    induction 1; intros N; cbn in *; auto.
    all: match goal with IH : _ -> ?G |- ?G => apply IH end; specialize (D (length (values m ++ xs))); lia.
  Qed.

  Lemma subroutine_call cfg o a body p st : subroutine g l o a body -> stack p = st ++ [a] ->
    global p = g -> local p = l ->
    execute cfg o p = Ok (Again (set_frames (set_stack p st) body (routine p :: callers p))).
  Proof.
    intros Hs K G L. destruct Hs as [[-> Hs]|[-> Hs]]; destruct Hs as (v & b & I & Bb & N & H);
      rewrite (biased_bias _ _ Bb) in *; cbn [execute]; rewrite ?G, ?L;
      (rewrite (call_ok cfg _ p st a v body); auto).
  Qed.

  (** What an execution by the rules says about the rounds of the model. *)
  Definition traced (cfg : config) (code : list byte) (m : machine) (ops : list t2_operation) (f : finish) : Prop :=
    match f with
    | Returned m' => forall c cs, trace cfg (program_of code (c :: cs) m) ops (program_of c cs m')
    | Ended rest m' => forall cs, exists q, trace cfg (program_of code cs m) ops q /\
        step cfg q = (let* r := unwind rest cs in Ok (Yield None (program_of r [] m')))
    | Exhausted m' => forall cs, exists cs',
        trace cfg (program_of code cs m) ops (program_of [] cs' m')
    end.

  Lemma traced_prefix cfg code m rest m1 op ops f :
    (forall cs, trace cfg (program_of code cs m) op (program_of rest cs m1)) ->
    traced cfg rest m1 ops f -> traced cfg code m (op ++ ops) f.
  Proof.
    intros T. destruct f as [m'|r m'|m']; cbn.
    - intros H c cs. eapply trace_app; eauto.
    - intros H cs. destruct (H cs) as (q & Tq & Sq). exists q. split; auto. eapply trace_app; eauto.
    - intros H cs. destruct (H cs) as (cs' & Tq). exists cs'. eapply trace_app; eauto.
  Qed.

  (** One operator. *)
  Lemma stack_trace cfg e xs o rest m after cs : each t2_number e xs -> computes o (values m ++ xs) after ->
    trace cfg (program_of (e ++ t2_bytes o ++ rest) cs m) []
      (program_of rest cs {| values := after; hints := hints m; advance := advance m |}).
  Proof.
    intros X C. eapply trace_again; [|apply trace_stop].
    rewrite (step_code _ _ e xs o rest) by auto. rewrite execute_stack by (eapply computes_stack; eauto).
    cbn [loaded stack set_stack program_of]. rewrite (computes_effect _ _ _ _ C). reflexivity.
  Qed.

  Lemma path_trace cfg e xs o rest m surplus operands cs : each t2_number e xs -> path_operator o = true ->
    longest o (values m ++ xs) surplus operands ->
    trace cfg (program_of (e ++ t2_bytes o ++ rest) cs m) [(o, operands)]
      (program_of rest cs {| values := []; hints := hints m; advance := noted (advance m) surplus |}).
  Proof.
    intros X Po L. eapply trace_emit; [|apply trace_stop].
    rewrite (step_code _ _ e xs o rest) by auto. rewrite execute_path by auto.
    match goal with |- clear _ _ ?p = _ => rewrite (clear_ok _ _ p surplus operands (alternatives_described o (path_is o Po)) L) end.
    unfold program_of, loaded, set_width, set_stack, set_routine. cbn. rewrite noted_after. reflexivity.
  Qed.

  Lemma stem_trace cfg e xs o rest m surplus operands n cs : each t2_number e xs -> stem_operator o = true ->
    longest o (values m ++ xs) surplus operands -> 0 <= hints m ->
    n = hints m + Z.of_nat (length (values m ++ xs)) / 2 -> n < 2 ^ 64 ->
    trace cfg (program_of (e ++ t2_bytes o ++ rest) cs m) [(o, operands)]
      (program_of rest cs {| values := []; hints := n; advance := noted (advance m) surplus |}).
  Proof.
    intros X So L N En R. assert (D : 0 <= Z.of_nat (length (values m ++ xs)) / 2) by (apply Z.div_pos; lia).
    eapply trace_emit; [|apply trace_stop].
    rewrite (step_code _ _ e xs o rest) by auto.
    assert (E : forall p, execute cfg o p = (let* n := add_u64 cfg (stems p) (Z.shiftr (Z.of_nat (length (stack p))) 1) in
      clear o (alternatives_of o) (set_stems p n))) by (intros; destruct o; try discriminate; reflexivity).
    rewrite E. cbn [loaded stack stems set_stack set_routine program_of]. rewrite shiftr_half.
    rewrite add_u64_small by lia. cbn [bind].
    match goal with |- clear _ _ ?p = _ => rewrite (clear_ok _ _ p surplus operands (alternatives_described o (stem_is o So)) L) end.
    unfold program_of, loaded, set_width, set_stack, set_routine, set_stems. cbn. rewrite noted_after, En. reflexivity.
  Qed.

  Lemma mask_trace cfg e xs o mask rest m n cs : each t2_number e xs -> mask_operator o = true -> 0 <= hints m ->
    n = hints m + Z.of_nat (length (values m ++ xs)) / 2 -> n + 7 < 2 ^ 64 -> mask_bytes n (Z.of_nat (length mask)) ->
    trace cfg (program_of (e ++ t2_bytes o ++ mask ++ rest) cs m) [(o, [])]
      (program_of rest cs {| values := []; hints := n; advance := noted (advance m) (values m ++ xs) |}).
  Proof.
    intros X Mo N En R M. assert (D : 0 <= Z.of_nat (length (values m ++ xs)) / 2) by (apply Z.div_pos; lia).
    eapply trace_emit; [|apply trace_stop].
    rewrite (step_code _ _ e xs o (mask ++ rest)) by auto.
    assert (Ed : declared o (length (values m ++ xs)) = Z.of_nat (length (values m ++ xs)) / 2).
    { unfold declared. rewrite Mo, orb_true_r. reflexivity. }
    rewrite (execute_clears _ _ _ (values m ++ xs) [] mask rest); cbn [loaded stack stems routine set_stack set_routine program_of];
      rewrite ?Ed, <- ?En; auto using mask_is, longest_mask.
    - unfold cleared, program_of. cbn. rewrite noted_after. reflexivity.
    - rewrite Mo. auto.
  Qed.

  Lemma call_trace cfg e xs o rest m st a body cs : each t2_number e xs -> values m ++ xs = st ++ [a] -> subroutine g l o a body ->
    trace cfg (program_of (e ++ t2_bytes o ++ rest) cs m) []
      (program_of body (rest :: cs) {| values := st; hints := hints m; advance := advance m |}).
  Proof.
    intros X K Sub. eapply trace_again; [|apply trace_stop].
    rewrite (step_code _ _ e xs o rest) by auto. rewrite (subroutine_call cfg o a body _ st); auto.
  Qed.

  Lemma executes_traced cfg code m ops f : executes g l code m ops f -> 0 <= hints m -> traced cfg code m ops f.
  Proof.
    assert (D : forall n : nat, 0 <= Z.of_nat n / 2) by (intros; apply Z.div_pos; lia).
    induction 1; intros N.
    - intros cs. exists cs. constructor.
    - apply (traced_prefix _ _ _ _ _ []) with (2 := IHexecutes N). intros cs. eapply stack_trace; eauto.
    - apply (traced_prefix _ _ _ _ _ [(o, operands)]) with (2 := IHexecutes N). intros cs. eapply path_trace; eauto.
    - specialize (D (length (values m ++ xs))).
      apply (traced_prefix _ _ _ _ _ [(o, operands)]) with (2 := IHexecutes ltac:(cbn; lia)). intros cs. eapply stem_trace; eauto.
    - specialize (D (length (values m ++ xs))).
      apply (traced_prefix _ _ _ _ _ [(o, [])]) with (2 := IHexecutes ltac:(cbn; lia)). intros cs. eapply mask_trace; eauto.
    - assert (N' : 0 <= hints m').
      { apply executes_hints in H2; auto. }
      specialize (IHexecutes1 N). specialize (IHexecutes2 N'). cbn in IHexecutes1.
      apply traced_prefix with (2 := IHexecutes2). intros cs.
      apply (trace_app _ _ [] _ ops) with (1 := call_trace cfg e xs o rest m st a body cs H H0 H1). apply IHexecutes1.
    - specialize (IHexecutes N). intros cs. cbn in IHexecutes.
      destruct (IHexecutes (rest :: cs)) as (q & T & Sq). exists q. split; auto.
      apply (trace_app _ _ [] _ ops) with (1 := call_trace cfg e xs o rest m st a body cs H H0 H1). exact T.
    - specialize (IHexecutes N). intros cs.
      destruct (IHexecutes (rest :: cs)) as (cs' & T). exists cs'.
      apply (trace_app _ _ [] _ ops) with (1 := call_trace cfg e xs o rest m st a body cs H H0 H1). exact T.
    - intros c cs. eapply trace_again; [|apply trace_stop]. rewrite (step_code _ _ e xs T2_Return rest) by auto. reflexivity.
    - intros cs. eexists. split; [apply trace_stop|]. rewrite (step_code _ _ e xs T2_EndChar rest) by auto.
      cbn [execute loaded routine callers set_stack set_routine program_of].
      destruct (unwind rest cs) as [r|k|k|]; cbn [bind]; [|reflexivity..].
      do 3 f_equal. unfold program_of. cbn. unfold set_width. cbn. f_equal.
      unfold noted. destruct (values m ++ xs) as [|x s _] using rev_ind; [destruct (advance m); reflexivity|].
      rewrite vec_pop_app, rev_app_distr. destruct (advance m); reflexivity.
  Qed.

  Lemma trace_finishes cfg p ops q x : trace cfg p ops q -> step cfg q = Ok (Yield None x) -> runs cfg p (Ok (ops, x)).
  Proof.
    intros T Sq. apply (trace_runs _ _ _ _ T). exists (Ok ([], x)). split.
    - apply runs_none. apply (nexts_yield _ _ _ _ _ Sq). reflexivity.
    - cbn. rewrite app_nil_r. reflexivity.
  Qed.

  Lemma meaning_runs cfg code ops m : meaning g l code ops m ->
    exists q, runs cfg (new_program code g l) (Ok (ops, q)) /\ stack q = values m /\ stems q = hints m /\ width q = advance m.
  Proof.
    intros (f & E & C). apply (executes_traced cfg) in E; [|cbn; lia]. rewrite <- program_of_start.
    destruct f as [m'|r m'|m']; cbn in C; subst; try contradiction; cbn in E.
    - destruct (E []) as (q & T & Sq). exists (program_of r [] m).
      split; [eapply trace_finishes; eauto|auto].
    - destruct (E []) as (cs & T). exists (program_of [] cs m).
      split; [eapply trace_finishes; eauto; apply step_empty; reflexivity|auto].
  Qed.

  (** ** The other direction *)

  (** What remains to be executed: code, then the callers. *)
  Inductive continues : list byte -> list (list byte) -> machine -> list t2_operation -> machine -> Prop :=
  | continues_resumed code c cs m ops m1 ops' m' :
      executes g l code m ops (Returned m1) -> continues c cs m1 ops' m' ->
      continues code (c :: cs) m (ops ++ ops') m'
  | continues_ended code cs m ops rest r m' :
      executes g l code m ops (Ended rest m') -> unwind rest cs = Ok r -> continues code cs m ops m'
  | continues_exhausted code cs m ops m' :
      executes g l code m ops (Exhausted m') -> continues code cs m ops m'.

  Lemma continues_prefix code m rest m1 op ops cs m' :
    (forall ops f, executes g l rest m1 ops f -> executes g l code m (op ++ ops) f) ->
    continues rest cs m1 ops m' -> continues code cs m (op ++ ops) m'.
  Proof.
    intros P. destruct 1.
    - rewrite app_assoc. eapply continues_resumed; eauto.
    - eapply continues_ended; eauto.
    - eapply continues_exhausted; eauto.
  Qed.

  Lemma continues_call code m rest m1 cs body ops m' :
    (forall ops m2 ops' f, executes g l body m1 ops (Returned m2) -> executes g l rest m2 ops' f ->
       executes g l code m (ops ++ ops') f) ->
    (forall ops m2, executes g l body m1 ops (Ended [] m2) -> executes g l code m ops (Ended rest m2)) ->
    (forall ops m2, executes g l body m1 ops (Exhausted m2) -> executes g l code m ops (Exhausted m2)) ->
    continues body (rest :: cs) m1 ops m' -> continues code cs m ops m'.
  Proof.
    intros P1 P2 P3 H. remember (rest :: cs) as cs0 eqn:E. destruct H; try discriminate.
    - injection E as -> ->. apply continues_prefix with (2 := H0). intros. eapply P1; eauto.
    - subst. cbn [unwind] in H0. destruct rest0; [|discriminate]. cbn [done] in H0.
      eapply continues_ended; eauto.
    - subst. eapply continues_exhausted; eauto.
  Qed.

  Lemma machine_of p : global p = g -> local p = l -> exists m, p = program_of (routine p) (callers p) m.
  Proof.
    intros G L. exists {| values := stack p; hints := stems p; advance := width p |}. destruct p; cbn in *. subst. reflexivity.
  Qed.

  Lemma call_inv' cfg subs p p' : overflow_checks cfg = true -> Forall binary32 (stack p) ->
    call cfg subs p = Ok p' ->
    exists st a body, stack p = st ++ [a] /\ selects subs a body /\
      p' = set_frames (set_stack p st) body (routine p :: callers p).
  Proof.
    intros C B. unfold call. destruct (pop_i32 (stack p)) as [[v st]| | |] eqn:E; try discriminate. cbn [bind].
    destruct (stands_for_pop _ _ _ B E) as (a & K & u & I & R & ->).
    pose proof (bias_range (Z.of_nat (length subs))) as Rb. set (b := bias (Z.of_nat (length subs))) in *.
    unfold add_i32, in_i32. rewrite C.
    destruct (Z.leb_spec (- 2 ^ 31) (Z.min u (2 ^ 31 - 1) + b)); [|lia].
    destruct (Z.ltb_spec (Z.min u (2 ^ 31 - 1) + b) (2 ^ 31)); cbn [andb bind]; [|discriminate].
    replace (Z.min u (2 ^ 31 - 1)) with u in * by lia.
    destruct (Z.ltb_spec (u + b) 0); [discriminate|]. destruct (Z.leb_spec (Z.of_nat (length subs)) (u + b)); [discriminate|].
    cbn [orb]. destruct (nth_error subs (Z.to_nat (u + b))) as [body|] eqn:En; [|discriminate].
    intros H'. injection H' as <-. exists st, a, body. split; auto. split; auto.
    exists u, b. split; auto. split; [apply bias_biased|]. auto.
  Qed.

  Lemma add_u64_inv cfg a b n : overflow_checks cfg = true -> 0 <= a -> 0 <= b -> add_u64 cfg a b = Ok n -> n = a + b /\ n < 2 ^ 64.
  Proof.
    intros C A B. unfold add_u64. rewrite C. destruct (in_u64 (a + b)) eqn:E; [|discriminate].
    intros H. injection H as <-. unfold in_u64 in E. lia.
  Qed.

  Lemma clear_inv o p s : path_or_hint o = true -> clear o (alternatives_of o) p = Ok s ->
    exists surplus operands, longest o (stack p) surplus operands /\
      s = Yield (Some (o, operands)) (set_width (set_stack p []) (noted (width p) surplus)).
  Proof.
    intros P H. pose proof (alternatives_described o P) as D.
    destruct (clear_cases _ _ p D) as [(surplus & operands & L)|L].
    - rewrite (clear_ok _ _ _ _ _ D L) in H. injection H as <-. exists surplus, operands. rewrite noted_after. auto.
    - rewrite (clear_err _ _ _ D L) in H. discriminate.
  Qed.

  (** The state after an operation. *)
  Definition emitted (code : list byte) (cs : list (list byte)) (n : Z) (w : option f32) : program :=
    program_of code cs {| values := []; hints := n; advance := w |}.

  Lemma execute_emits cfg o code cs m op p' : overflow_checks cfg = true -> 0 <= hints m ->
    execute cfg o (program_of code cs m) = Ok (Yield (Some op) p') ->
    (path_operator o = true /\ exists surplus operands, op = (o, operands) /\
       longest o (values m) surplus operands /\ p' = emitted code cs (hints m) (noted (advance m) surplus)) \/
    (stem_operator o = true /\ exists surplus operands n, op = (o, operands) /\
       longest o (values m) surplus operands /\ n = hints m + Z.of_nat (length (values m)) / 2 /\ n < 2 ^ 64 /\
       p' = emitted code cs n (noted (advance m) surplus)) \/
    (mask_operator o = true /\ exists mask rest n, op = (o, []) /\ code = mask ++ rest /\
       n = hints m + Z.of_nat (length (values m)) / 2 /\ n + 7 < 2 ^ 64 /\ mask_bytes n (Z.of_nat (length mask)) /\
       p' = emitted rest cs n (noted (advance m) (values m))).
  Proof.
    intros C N H. pose proof (execute_yields _ _ _ _ _ H) as (P & _).
    assert (D : 0 <= Z.of_nat (length (values m)) / 2) by (apply Z.div_pos; lia).
    destruct (path_operator o) eqn:Ep; [|destruct (stem_operator o) eqn:Es; [|destruct (mask_operator o) eqn:Em]].
    - left. split; auto. rewrite execute_path in H by auto.
      destruct (clear_inv _ _ _ P H) as (surplus & operands & L & Ey). injection Ey as -> ->.
      exists surplus, operands. auto.
    - right. left. split; auto.
      assert (E : forall p, execute cfg o p = (let* n := add_u64 cfg (stems p) (Z.shiftr (Z.of_nat (length (stack p))) 1) in
        clear o (alternatives_of o) (set_stems p n))) by (intros; destruct o; try discriminate; reflexivity).
      rewrite E in H. cbn [stems stack program_of] in H. rewrite shiftr_half in H.
      destruct (add_u64 _ _ _) as [n| | |] eqn:Ea; try discriminate. cbn [bind] in H.
      apply add_u64_inv in Ea as [-> R]; auto.
      destruct (clear_inv _ _ _ P H) as (surplus & operands & L & Ey). injection Ey as -> ->.
      exists surplus, operands. eexists. repeat (split; [eauto|]). reflexivity.
    - right. right. split; auto.
      assert (E : forall p, execute cfg o p = (let* n := add_u64 cfg (stems p) (Z.shiftr (Z.of_nat (length (stack p))) 1) in
        let* m := add_u64 cfg n 7 in
        let* (_, r) := take_vec cfg 1 take_byte (Z.shiftr m 3) (routine p) in
        clear o (alternatives_of o) (set_routine (set_stems p n) r))) by (intros; destruct o; try discriminate; reflexivity).
      rewrite E in H. cbn [stems stack program_of routine] in H. rewrite shiftr_half in H.
      destruct (add_u64 _ _ _) as [n| | |] eqn:Ea; try discriminate. cbn [bind] in H.
      apply add_u64_inv in Ea as [-> R]; auto.
      set (n := hints m + Z.of_nat (length (values m)) / 2) in *.
      destruct (add_u64 cfg n 7) as [n7| | |] eqn:Ea; try discriminate. cbn [bind] in H.
      apply add_u64_inv in Ea as [-> R7]; auto; try lia.
      destruct (take_vec _ _ _ _ _) as [[mask r]| | |] eqn:Et; try discriminate. cbn [bind] in H.
      destruct (clear_inv _ _ _ P H) as (surplus & operands & L & Ey). injection Ey as -> ->.
      pose proof (mask_bytes_shift n) as M.
      assert (B : 0 <= Z.shiftr (n + 7) 3 <= isize_max) by (unfold mask_bytes, isize_max in *; lia).
      rewrite take_vec_byte in Et by lia.
      destruct (Z.leb_spec (Z.shiftr (n + 7) 3) (Z.of_nat (length code))) as [Le|]; [|discriminate].
      injection Et as <- <-.
      assert (operands = [] /\ surplus = values m) as [-> ->].
      { destruct L as (El & Lc & _). cbn [stack set_routine set_stems program_of] in El.
        destruct o; try discriminate; cbn in Lc; apply length_zero_iff_nil in Lc; subst operands;
          rewrite app_nil_r in El; auto. }
      exists (firstn (Z.to_nat (Z.shiftr (n + 7) 3)) code), (skipn (Z.to_nat (Z.shiftr (n + 7) 3)) code), n.
      split; auto. split; [symmetry; apply firstn_skipn|]. split; auto. split; auto. split; [|reflexivity].
      rewrite firstn_length_le by lia. rewrite Z2Nat.id by lia. exact M.
    - unfold path_or_hint in P. rewrite Ep, Es, Em in P. discriminate.
  Qed.

  Lemma loaded_program code cs m xs r : loaded (program_of code cs m) xs r =
    program_of r cs {| values := values m ++ xs; hints := hints m; advance := advance m |}.
  Proof. reflexivity. Qed.

  Lemma trace_continues cfg p ops q x : overflow_checks cfg = true -> trace cfg p ops q ->
    step cfg q = Ok (Yield None x) -> forall code cs m, p = program_of code cs m ->
    valid_program p -> possible p ->
    exists m', continues code cs m ops m' /\ stack x = values m' /\ stems x = hints m' /\ width x = advance m'.
  Proof.
    intros C T Sq. induction T as [p|p p' ops q Sp T IH|p y p' ops q Sp T IH]; intros code cs m -> V P.
    - destruct (step_inv _ _ _ Sq) as [(E & Ex)|(e & xs & o & r & X & E & H)].
      + cbn in E. subst. injection Ex as ->. exists m. split; [apply continues_exhausted; constructor|]. auto.
      + cbn in E. subst. rewrite loaded_program in H. apply execute_none in H as (-> & r' & U & ->). cbn in U.
        eexists. split; [eapply continues_ended; [apply executes_end; eauto|exact U]|].
        cbn. repeat split. unfold noted.
        destruct (values m ++ xs) as [|z s _] using rev_ind; [destruct (advance m); reflexivity|].
        rewrite vec_pop_app, rev_app_distr. destruct (advance m); reflexivity.
    - assert (V' : valid_program p') by exact (step_valid _ _ _ V Sp).
      assert (P' : possible p') by exact (step_possible _ _ _ P Sp).
      destruct (step_inv _ _ _ Sp) as [(E & Ex)|(e & xs & o & r & X & E & Hx)]; [discriminate|].
      cbn in E. subst code. pose proof (loaded_valid _ _ _ r V X) as [Vl _].
      rewrite loaded_program in *. cbn [stack values program_of] in Vl.
      apply execute_again in Hx as [(So & st & Ef & ->)|[(Ho & Hc)|(-> & c & cs' & Ec & ->)]].
      + cbn [stack values program_of] in Ef. apply effect_computes in Ef; auto.
        destruct (IH Sq r cs {| values := st; hints := hints m; advance := advance m |} eq_refl V' P') as (m' & K & F).
        exists m'. split; auto. apply (continues_prefix _ _ _ _ []) with (2 := K).
        intros ops' f Hf. eapply executes_stack; eauto.
      + apply call_inv' in Hc as (st & a & body & Es & Hs & ->); auto. cbn [stack values program_of routine callers] in *.
        assert (Sub : subroutine g l o a body).
        { destruct Ho as [-> | ->]; [left|right]; auto. }
        destruct (IH Sq body (r :: cs) {| values := st; hints := hints m; advance := advance m |} eq_refl V' P') as (m' & K & F).
        exists m'. split; auto. apply continues_call with (4 := K); intros.
        * eapply executes_call; eauto.
        * eapply executes_call_ended; eauto.
        * eapply executes_call_exhausted; eauto.
      + cbn in Ec. subst cs.
        destruct (IH Sq c cs' {| values := values m ++ xs; hints := hints m; advance := advance m |} eq_refl V' P') as (m' & K & F).
        exists m'. split; auto. apply (continues_resumed _ _ _ _ []) with (2 := K). apply executes_return. auto.
    - assert (V' : valid_program p') by exact (proj1 (step_valid _ _ _ V Sp)).
      assert (P' : possible p') by exact (step_possible _ _ _ P Sp).
      destruct (step_inv _ _ _ Sp) as [(E & Ex)|(e & xs & o & r & X & E & Hx)]; [discriminate|].
      cbn in E. subst code. rewrite loaded_program in Hx. unfold possible in P. cbn [stems program_of] in P.
      apply execute_emits in Hx; auto; [|cbn; lia]. cbn [values hints advance] in Hx.
      destruct Hx as [(Ho & surplus & operands & -> & L & ->)|[(Ho & surplus & operands & n & -> & L & En & R & ->)|
        (Ho & mask & rest & n & -> & -> & En & R & M & ->)]];
        destruct (IH Sq _ _ _ eq_refl V' P') as (m' & K & F); exists m'; (split; [|exact F]).
      + apply (continues_prefix _ _ _ _ [(o, operands)]) with (2 := K). intros. eapply executes_path; eauto.
      + apply (continues_prefix _ _ _ _ [(o, operands)]) with (2 := K). intros. eapply executes_stem; eauto.
      + apply (continues_prefix _ _ _ _ [(o, [])]) with (2 := K). intros. eapply executes_mask; eauto.
  Qed.

  Lemma runs_trace cfg ops x : forall p, runs cfg p (Ok (ops, x)) ->
    exists q, trace cfg p ops q /\ step cfg q = Ok (Yield None x).
  Proof.
    induction ops as [|y ops IH]; intros p H;
      apply runs_inv in H as [(z & q & r' & Hn & R & E)|[(q & Hn & E)|[(k & Hn & E)|(k & Hn & E)]]]; try discriminate.
    - destruct r' as [[ops' q']| | |]; discriminate.
    - injection E as ->. apply nexts_trace in Hn as (q' & T & Sq). eauto.
    - destruct r' as [[ops' q']| | |]; try discriminate. injection E as <- <- <-.
      destruct (IH _ R) as (q2 & T2 & S2). apply nexts_trace in Hn as (q' & T & Sq).
      exists q2. split; auto. apply (trace_app _ _ [] q'); auto. eapply trace_emit; eauto.
  Qed.

  Lemma runs_meaning cfg code ops q : overflow_checks cfg = true ->
    runs cfg (new_program code g l) (Ok (ops, q)) ->
    exists m, meaning g l code ops m /\ stack q = values m /\ stems q = hints m /\ width q = advance m.
  Proof.
    intros C H. apply runs_trace in H as (q0 & T & Sq).
    destruct (trace_continues _ _ _ _ _ C T Sq code [] start eq_refl) as (m & K & F).
    - split; [constructor|discriminate].
    - cbn. unfold possible. cbn. lia.
    - exists m. split; auto. inversion K; subst.
      + exists (Ended rest m). split; [auto|reflexivity].
      + exists (Exhausted m). split; [auto|reflexivity].
  Qed.

  Lemma meaning_fails cfg code r : runs cfg (new_program code g l) r -> (forall x, r <> Ok x) ->
    forall ops m, ~ meaning g l code ops m.
  Proof.
    intros R N ops m H. apply (meaning_runs cfg) in H as (q & R' & _). apply (N (ops, q)). eapply runs_det; eauto.
  Qed.

  Lemma meaning_unique code ops m ops' m' : meaning g l code ops m -> meaning g l code ops' m' -> ops = ops' /\ m = m'.
  Proof.
    intros H H'. apply (meaning_runs dev_profile) in H as (q & R & E1 & E2 & E3).
    apply (meaning_runs dev_profile) in H' as (q' & R' & E1' & E2' & E3').
    pose proof (runs_det _ _ _ _ R R') as E. injection E as -> ->. split; auto.
    destruct m, m'; cbn in *. congruence.
  Qed.
End Reference.

(** ** Builds without overflow checks *)

Lemma profiles_or_panic cfg cfg' p r : overflow_checks cfg = true -> runs cfg' p r ->
  runs cfg p r \/ exists k, runs cfg p (Panic k).
Proof.
  intros O (N & f & H). pose proof (agree_run cfg cfg' O f p) as A. unfold agree in A.
  destruct (run cfg f p) as [x|k|k|] eqn:E; cbn [quiet] in A.
  3: right; exists k; split; [discriminate|eauto].
  all: left; split; auto; exists f; rewrite E, <- H; symmetry; apply A; exact I.
Qed.

Lemma runs_meaning_unchecked g l cfg code ops q : runs cfg (new_program code g l) (Ok (ops, q)) ->
  (exists m, meaning g l code ops m /\ stack q = values m /\ stems q = hints m /\ width q = advance m) \/
  (exists k, runs dev_profile (new_program code g l) (Panic k)).
Proof.
  intros H. destruct (profiles_or_panic dev_profile cfg _ _ eq_refl H) as [R|]; auto.
  left. eapply runs_meaning; eauto. reflexivity.
Qed.

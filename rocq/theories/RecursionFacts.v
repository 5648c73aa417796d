(** RecursionFacts: how deep a call of [Program::next] recurses. *)
From Verif Require Import Base Float T2Operation T2Program BaseFacts SpecProgram T2NumberFacts StepFacts ClearFacts
  RunFacts StackFacts EvalFacts ExecutionFacts SubroutineFacts ProgramFacts.
Local Open Scope nat_scope.

(** ** A program that needs any number of rounds *)

Definition negations (n : nat) : list byte := concat (repeat [x0c; x0e] n).

Lemma negations_rounds cfg n : forall p x st, routine p = negations n -> stack p = st ++ [x] ->
  next cfg n p = OutOfFuel /\ exists q, next cfg (S n) p = Ok (None, q).
Proof.
  induction n as [|n IH]; intros p x st R St.
  - split; [reflexivity|]. exists p. cbn [next]. rewrite step_empty by exact R. reflexivity.
  - assert (E : step cfg p = Ok (Again (set_stack (set_routine p (negations n)) (st ++ [f32_neg x])))).
    { rewrite (step_code cfg p [] [] T2_Neg (negations n)) by (constructor || exact R).
      rewrite execute_stack by reflexivity. cbn [loaded set_stack set_routine stack]. rewrite app_nil_r, St, effect_neg.
      reflexivity. }
    destruct (IH (set_stack (set_routine p (negations n)) (st ++ [f32_neg x])) (f32_neg x) st eq_refl eq_refl) as [H1 [q H2]].
    split; [cbn [next]; rewrite E; exact H1|]. exists q. change (next cfg (S (S n)) p) with
      (let* r := step cfg p in match r with Yield result p' => Ok (result, p') | Again p' => next cfg (S n) p' end).
    rewrite E. exact H2.
Qed.

Lemma negations_length n : length (negations n) = 2 * n.
Proof. induction n as [|n IH]; [reflexivity|]. cbn [negations repeat concat]. rewrite app_length. fold (negations n). cbn [length]. lia. Qed.

Lemma deep cfg n : exists code q, length code = 1 + 2 * S n /\
  next cfg (S n) (new_program code [] []) = OutOfFuel /\
  next cfg (S (S n)) (new_program code [] []) = Ok (None, q).
Proof.
  assert (E : step cfg (new_program (x8b :: negations (S n)) [] []) =
    Ok (Again (set_stack (set_routine (new_program [] [] []) (negations n)) ([] ++ [f32_neg (f32_of_i32 0)])))).
  { rewrite (step_code cfg _ [x8b] [f32_of_i32 0] T2_Neg (negations n)).
    - rewrite execute_stack by reflexivity. cbn [loaded set_stack set_routine stack new_program app].
      change [f32_of_i32 0] with ([] ++ [f32_of_i32 0]). rewrite effect_neg. reflexivity.
    - apply (numbers_of_bytes [x8b]). constructor; [cbn; lia|constructor].
    - reflexivity. }
  destruct (negations_rounds cfg n (set_stack (set_routine (new_program [] [] []) (negations n)) ([] ++ [f32_neg (f32_of_i32 0)]))
    (f32_neg (f32_of_i32 0)) [] eq_refl eq_refl) as [H1 [q H2]].
  exists (x8b :: negations (S n)), q. split; [cbn [length]; rewrite negations_length; reflexivity|].
  split.
  - cbn [next]. rewrite E. exact H1.
  - change (next cfg (S (S n)) (new_program (x8b :: negations (S n)) [] [])) with
      (let* r := step cfg (new_program (x8b :: negations (S n)) [] []) in
       match r with Yield result p' => Ok (result, p') | Again p' => next cfg (S n) p' end).
    rewrite E. exact H2.
Qed.

(** ** Bounds *)

Lemma trace_left cfg b d p ops q : trace cfg p ops q -> small b p -> length (callers p) <= d ->
  (exists ops' q', trace cfg p ops' q' /\ d < length (callers q')) \/
  small b q /\ length (callers q) <= d /\ left b d q <= left b d p.
Proof.
  intros T. induction T as [p|p p' ops q E T IH|p x p' ops q E T IH]; intros Sm D; [auto| |].
  - pose proof (step_mass _ _ _ b (d - length (callers p)) Sm E) as M. cbn beta iota in M.
    pose proof (step_small _ _ _ b Sm E) as Sq. cbn beta iota in Sq.
    assert (N : d < length (callers p') \/ length (callers p') <= d /\ left b d p' <= left b d p).
    { unfold left. destruct M as [[C M]|[[C M]|[C M]]].
      - right. rewrite C. split; [exact D|lia].
      - destruct (Nat.lt_ge_cases d (length (callers p'))) as [G|G]; auto. right. split; auto.
        apply Nat.lt_le_incl, M. lia.
      - right. split; [lia|]. replace (d - length (callers p')) with (S (d - length (callers p))) by lia. lia. }
    destruct N as [N|[D' M']].
    + left. exists [], p'. split; auto. eapply trace_again; [exact E|]. constructor.
    + destruct (IH Sq D') as [(ops' & q' & T' & G)|(G1 & G2 & G3)]; [|right; repeat split; try apply G1; lia].
      left. exists ops', q'. split; auto. eapply trace_again; eauto.
  - pose proof (step_mass _ _ _ b (d - length (callers p)) Sm E) as M. cbn beta iota in M.
    pose proof (step_small _ _ _ b Sm E) as Sq. cbn beta iota in Sq. destruct M as [C M].
    destruct (IH Sq ltac:(rewrite C; exact D)) as [(ops' & q' & T' & G)|(G1 & G2 & G3)].
    + left. exists (x :: ops'), q'. split; auto. eapply trace_emit; eauto.
    + right. repeat split; try apply G1; auto. unfold left in *. rewrite C in G3. lia.
Qed.

Lemma shallow cfg code g l b d ops p :
  Forall (fun c => length c <= b) g -> Forall (fun c => length c <= b) l ->
  trace cfg (new_program code g l) ops p ->
  next cfg (S (length code * S b ^ d)) p <> OutOfFuel \/
  (exists ops' q', trace cfg (new_program code g l) ops' q' /\ d < length (callers q')).
Proof.
  intros G L T. destruct (trace_left cfg b d _ _ _ T) as [H|(Sp & D & M)]; [split; assumption|cbn; lia|right; exact H|].
  rewrite left_new in M. destruct (next_terminates cfg b d (S (length code * S b ^ d)) p Sp D ltac:(lia)) as [(q & T' & D')|[F _]].
  - right. exists (ops ++ []), q. split; auto. eapply trace_app; eauto.
  - left. exact F.
Qed.

Lemma shallow_alone cfg code ops p : trace cfg (new_program code [] []) ops p ->
  next cfg (S (length code)) p <> OutOfFuel.
Proof.
  intros T. destruct (shallow cfg code [] [] 0 0 ops p ltac:(constructor) ltac:(constructor) T) as [H|(ops' & q' & T' & D)].
  - cbn [Nat.pow] in H. rewrite Nat.mul_1_r in H. exact H.
  - apply trace_depth in T'; [|reflexivity|reflexivity]. cbn in T'. lia.
Qed.

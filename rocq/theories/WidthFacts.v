(** WidthFacts: proofs about the width. *)
From Coq Require Import Lia Arith.
From Verif Require Import Base Float T2Operation T2Program BaseFacts SpecProgram SpecWidth StepFacts ClearFacts EvalFacts
  RunFacts ProgramFacts.
Local Open Scope list_scope.
Local Open Scope nat_scope.

Lemma clearing_app cfg p ops q : trace cfg p ops q -> forall l q', clearing cfg q l q' ->
  exists l0, clearing cfg p (l0 ++ l) q' /\
    Forall2 (fun op a => fst op = fst a /\ fst a <> T2_EndChar /\
      exists surplus, longest (fst a) (snd a) surplus (snd op)) ops l0.
Proof.
  induction 1 as [p|p p' ops q S T IH|p x p' ops q S T IH]; intros l q' C.
  - exists []. split; auto.
  - destruct (IH _ _ C) as (l0 & A & B). exists l0. split; auto. eapply clearing_again; eauto.
  - destruct (IH _ _ C) as (l0 & A & B). pose proof S as S'.
    apply step_inv in S as [[_ H]|(e & xs & o & r & E & R & H)]; [discriminate|].
    apply execute_yields in H as (P & F & surplus & L & _). destruct x as [o' operands]. cbn in F. subst o'.
    exists ((o, stack p ++ xs) :: l0). split.
    + cbn [app]. eapply clearing_emit; eauto.
    + constructor; auto. cbn [fst snd]. cbn in L, P. repeat split; eauto. intros ->. discriminate.
Qed.

Lemma run_clearing cfg p ops q : runs cfg p (Ok (ops, q)) ->
  exists l tail, clearing cfg p (l ++ tail) q /\
    Forall2 (fun op a => fst op = fst a /\ fst a <> T2_EndChar /\
      exists surplus, longest (fst a) (snd a) surplus (snd op)) ops l /\
    (tail = [] \/ exists arguments, tail = [(T2_EndChar, arguments)]).
Proof.
  intros H. apply runs_trace in H as (p' & T & S).
  assert (C : exists tail, clearing cfg p' tail q /\ (tail = [] \/ exists arguments, tail = [(T2_EndChar, arguments)])).
  { pose proof S as S'. apply step_inv in S as [[_ H]|(e & xs & o & r & E & R & H)].
    - injection H as ->. exists []. split; [constructor|auto].
    - apply execute_none in H as (-> & _). exists [(T2_EndChar, stack p' ++ xs)]. split; eauto. eapply clearing_end; eauto. }
  destruct C as (tail & C & D). destruct (clearing_app _ _ _ _ T _ _ C) as (l & A & B). exists l, tail. auto.
Qed.

Lemma clearing_width cfg p l q : clearing cfg p l q ->
  match width p with
  | Some w => width q = Some w
  | None => first_surplus l (width q)
  end.
Proof.
  induction 1 as [p|p p' l q S C IH|p e xs o r operands p' l q R E S C IH|p e xs r q R E S].
  - destruct (width p); auto. constructor.
  - replace (width p) with (width p'); auto.
    apply step_inv in S as [[_ H]|(e & xs & o & r & E & R & H)]; [discriminate|].
    apply execute_again in H as [(_ & st & _ & ->)|[(_ & H)|(_ & c & cs & _ & ->)]]; auto.
    apply call_inv in H as (st & code & _ & ->). reflexivity.
  - rewrite (step_code _ _ _ _ _ _ E R) in S.
    apply execute_yields in S as (P & _ & surplus & L & _ & W & _). cbn [fst snd] in L, P.
    cbn [width loaded set_stack set_routine stack] in W, L.
    assert (N : o <> T2_EndChar) by (intros ->; discriminate).
    apply width_after_spec in W as [[A B]|[A [[-> B]|(s & w & -> & B)]]].
    + destruct (width p); [|congruence]. rewrite B in IH. exact IH.
    + rewrite A. rewrite B in IH. apply first_surplus_later; auto. right. eauto.
    + rewrite A. rewrite B in IH. rewrite IH. eapply first_surplus_here. right. eauto.
  - rewrite (step_code _ _ _ _ _ _ E R) in S. apply execute_none in S as (_ & r' & _ & ->).
    cbn [width stack loaded set_stack set_routine].
    destruct (width p) as [w|]; [destruct (vec_pop _) as [[? ?]|]; reflexivity|].
    destruct (exists_last_or (stack p ++ xs)) as [Es|(s & w & Es)]; rewrite Es.
    + apply first_surplus_later; [left; auto|constructor].
    + rewrite vec_pop_app. eapply first_surplus_here. left. split; eauto.
Qed.

Lemma left_over_det o a s t : left_over o a s -> left_over o a t -> s = t.
Proof.
  intros [[E ->]|[N (x & A & B & C)]] [[E' ->]|[N' (y & A' & B' & C')]]; auto; try contradiction.
  assert (L : length x = length y).
  { pose proof (f_equal (@length _) A). pose proof (f_equal (@length _) A'). rewrite !app_length in *.
    pose proof (C _ B' ltac:(lia)). pose proof (C' _ B ltac:(lia)). lia. }
  rewrite A in A'. clear - A' L. assert (M : length s = length t).
  { apply (f_equal (@length _)) in A'. rewrite !app_length in A'. lia. }
  clear L. revert t A' M. induction s as [|b s IH]; intros [|c t] A M; try discriminate; auto.
  cbn in A, M. injection A as -> A. f_equal. auto.
Qed.

Lemma first_surplus_det l w w' : first_surplus l w -> first_surplus l w' -> w = w'.
Proof.
  intros H. revert w'. induction H as [|o a l w L H IH|o a s w l L]; intros w' H'; inversion H'; subst; auto;
    match goal with K : left_over o a _ |- _ =>
      let X := fresh "X" in pose proof (left_over_det _ _ _ _ L K) as X;
      first [apply app_inj_tail in X as [_ ->]; reflexivity | destruct s; discriminate | destruct s0; discriminate] end.
Qed.

Lemma even_of k : Nat.odd (2 + 2 * k) = false.
Proof. replace (2 + 2 * k) with (0 + 2 * (S k)) by lia. rewrite Nat.odd_add_mul_2. reflexivity. Qed.

Lemma specified_one o a w : may_have_width o = true -> left_over o a [w] -> specified_width o a = Some w.
Proof.
  intros M [[-> <-]|[N (x & -> & L & _)]]; [reflexivity|].
  destruct o; try discriminate; try contradiction; unfold specified_width; cbn [length app hd_error];
    cbn [legal_count] in L;
    try (rewrite L; reflexivity);
    destruct L as [k ->]; replace (S (2 + 2 * k)) with (1 + 2 * (S k)) by lia;
    rewrite Nat.odd_add_mul_2; reflexivity.
Qed.

Lemma specified_none o a : left_over o a [] -> specified_width o a = None.
Proof.
  intros [[-> <-]|[N (x & -> & L & _)]]; [reflexivity|]. cbn [app] in *.
  destruct o; try reflexivity; try contradiction; unfold specified_width; cbn [legal_count] in L;
    try (rewrite L; reflexivity);
    destruct L as [k ->]; rewrite even_of; reflexivity.
Qed.

Lemma in_place cfg code g l0 l q : clearing cfg (new_program code g l0) l q -> width_in_place l ->
  width q = specified l.
Proof.
  intros C W. apply clearing_width in C. cbn [width new_program] in C.
  destruct l as [|[o a] l]; [inversion C; reflexivity|]. cbn [specified].
  destruct W as [[M (w & L)]|[L F]].
  - rewrite (specified_one _ _ _ M L). eapply first_surplus_det; [exact C|].
    apply (first_surplus_here o a [] w l). exact L.
  - rewrite (specified_none _ _ L). eapply first_surplus_det; [exact C|].
    apply first_surplus_later; auto. clear - F. induction F as [|[o a] l L F IH]; [constructor|].
    apply first_surplus_later; auto.
Qed.

Lemma clearing_exactly cfg code g l0 l q : clearing cfg (new_program code g l0) l q ->
  forall w, first_surplus l w <-> w = width q.
Proof.
  intros C w. apply clearing_width in C. cbn [width new_program] in C. split.
  - intros H. eapply first_surplus_det; eauto.
  - intros ->. exact C.
Qed.

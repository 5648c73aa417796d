(** HintFacts: the hints of a character string do not change its outline. *)
From Verif Require Import Base Float T2Number T2Operation T2Program BaseFacts SpecProgram T2NumberFacts StepFacts
  RunFacts EvalFacts StackFacts ClearFacts ExecutionFacts SubroutineFacts ProgramFacts SpecNest SpecRewrite RewriteFacts
  SpecWidth SpecDeep DeepFacts SpecHint.
Local Open Scope list_scope.
Local Open Scope Z_scope.

Section Hints.
Context (cfg : config) (k : nat) (Bk : Z.of_nat k < 2 ^ 60).

(** The second program is the first without hints. *)
Record bare (p p' : program) : Prop := {
  bare_routine : unhinted k (routine p) (routine p');
  bare_callers : Forall2 (unhinted k) (callers p) (callers p');
  bare_global : Forall2 (unhinted k) (global p) (global p');
  bare_local : Forall2 (unhinted k) (local p) (local p');
  bare_stack : stack p = stack p'
}.

Lemma unhinted_nil c' : unhinted k [] c' -> c' = [].
Proof.
  intros U. inversion U as [|e xs o c c0 E H U' H1|e xs o c c0 E H U' H1|e xs o m c c0 E H L U' H1]; auto;
    exfalso; pose proof (t2_bytes_not_nil o); apply app_eq_nil in H1 as [_ H1]; apply app_eq_nil in H1 as [H1 _]; congruence.
Qed.

Lemma unwind_bare cs cs' : Forall2 (unhinted k) cs cs' -> forall r r' s, unhinted k r r' -> unwind r cs = Ok s ->
  exists s', unwind r' cs' = Ok s'.
Proof.
  induction 1 as [|c c' cs cs' U F IH]; intros r r' s Ur H; cbn [unwind] in *; [eauto|].
  destruct r; [|discriminate]. rewrite (unhinted_nil _ Ur). cbn. eapply IH; eauto.
Qed.

Lemma nth_bare subs subs' i c : Forall2 (unhinted k) subs subs' -> nth_error subs i = Some c ->
  exists c', nth_error subs' i = Some c' /\ unhinted k c c'.
Proof.
  intros F. revert i. induction F as [|x y subs subs' U F IH]; intros [|i] H; try discriminate; cbn in *; eauto.
  injection H as <-. eauto.
Qed.

Lemma table_length subs subs' : Forall2 (unhinted k) subs subs' -> length subs = length subs'.
Proof. induction 1; cbn; auto. Qed.

Lemma call_bare subs subs' p p' q : bare p p' -> Forall2 (unhinted k) subs subs' -> call cfg subs p = Ok q ->
  exists q', call cfg subs' p' = Ok q' /\ bare q q'.
Proof.
  intros B F. unfold call. rewrite <- (bare_stack _ _ B), <- (table_length _ _ F). intros H. inv_ok H. destruct a as [a st].
  rewrite H0. cbn [bind]. inv_ok H. rewrite H1. cbn [bind]. destruct ((a0 <? 0) || _); [discriminate|].
  destruct (nth_error subs _) as [c|] eqn:N; [|discriminate]. injection H as <-.
  destruct (nth_bare _ _ _ _ F N) as (c' & -> & U). eexists. split; [reflexivity|].
  destruct B. constructor; cbn; auto.
Qed.

(** An operator that is kept. *)
Lemma execute_bare o p p' : bare p p' -> hint_operator o = false ->
  match execute cfg o p with
  | Ok (Again q) => exists q', execute cfg o p' = Ok (Again q') /\ bare q q'
  | Ok (Yield (Some x) q) =>
      path_operator (fst x) = true /\ exists q', execute cfg o p' = Ok (Yield (Some x) q') /\ bare q q'
  | Ok (Yield None q) => exists q', execute cfg o p' = Ok (Yield None q')
  | _ => True
  end.
Proof.
  intros B Ho. unfold hint_operator in Ho. apply orb_false_elim in Ho as [Hs Hm].
  destruct (execute cfg o p) as [[[x|] q|q]| | |] eqn:E; auto.
  - apply execute_yields in E as (P & Eo & surplus & L & Sq & _ & Cq & Gq & Lq & Rq).
    unfold path_or_hint in P. rewrite Hs, Hm, !orb_false_r in P. rewrite Hm in Rq. rewrite Eo. split; auto.
    rewrite execute_path by auto. rewrite (bare_stack _ _ B) in L.
    rewrite (clear_ok _ _ _ _ _ (alternatives_described o (path_is _ P)) L).
    eexists. split; [destruct x; cbn in Eo; subst; reflexivity|].
    destruct B. constructor; cbn; rewrite ?Rq, ?Cq, ?Gq, ?Lq; auto.
  - apply execute_none in E as (-> & r & U & _). cbn [execute].
    destruct (unwind_bare _ _ (bare_callers _ _ B) _ _ _ (bare_routine _ _ B) U) as (r' & ->). cbn. eauto.
  - apply execute_again in E as [(So & st & Ef & ->)|[(O & H)|(-> & c & cs & C & ->)]].
    + rewrite execute_stack by auto. rewrite <- (bare_stack _ _ B), Ef. cbn. eexists. split; [reflexivity|].
      destruct B. constructor; cbn; auto.
    + destruct O as [-> | ->]; cbn [execute];
        [destruct (call_bare _ _ _ _ _ B (bare_local _ _ B) H) as (q' & -> & Bq)
        |destruct (call_bare _ _ _ _ _ B (bare_global _ _ B) H) as (q' & -> & Bq)]; cbn; eauto.
    + cbn [execute]. pose proof (bare_callers _ _ B) as F. rewrite C in F. inversion F as [|x y l l' U F']; subst.
      eexists. split; [reflexivity|]. destruct B. constructor; cbn; auto.
Qed.

(** An operator that is dropped. *)
Lemma stems_dropped o p x q : stem_operator o = true -> execute cfg o p = Ok (Yield (Some x) q) ->
  path_operator (fst x) = false /\ routine q = routine p /\ stack q = [] /\ callers q = callers p /\
  global q = global p /\ local q = local p.
Proof.
  intros S E. apply execute_yields in E as (P & Eo & surplus & L & Sq & _ & Cq & Gq & Lq & Rq).
  rewrite Eo. replace (mask_operator o) with false in Rq by (destruct o; auto; discriminate).
  split; [destruct o; auto; discriminate|]. auto.
Qed.

Lemma mask_dropped o p m c x q : mask_operator o = true -> routine p = m ++ c -> length m = k ->
  0 <= stems p -> mask_bytes (stems p + declared o (length (stack p))) (Z.of_nat k) ->
  execute cfg o p = Ok (Yield (Some x) q) ->
  path_operator (fst x) = false /\ routine q = c /\ stack q = [] /\ callers q = callers p /\
  global q = global p /\ local q = local p.
Proof.
  intros M R L S0 B E. pose proof E as E'. apply execute_yields in E' as (P & Eo & surplus & Lg & _).
  assert (N : stems p + declared o (length (stack p)) + 7 < 2 ^ 64) by (unfold mask_bytes in B; lia).
  rewrite (execute_clears cfg o p surplus (snd x) m c P R Lg S0 N) in E by (rewrite M, L; exact B).
  injection E as <- <-. split; [destruct o; auto; discriminate|]. cbn. auto.
Qed.

Lemma dropped_again o p q : hint_operator o = true -> execute cfg o p <> Ok (Again q).
Proof.
  intros H E. apply execute_again in E as [(S & _)|[([-> | ->] & _)|(-> & _)]]; try discriminate. destruct o; discriminate.
Qed.
Lemma dropped_none o p q : hint_operator o = true -> execute cfg o p <> Ok (Yield None q).
Proof. intros H E. apply execute_none in E as (-> & _). discriminate. Qed.

Lemma apart_again p q : hints_apart cfg p -> step cfg p = Ok (Again q) -> hints_apart cfg q.
Proof. intros M H ops q' o st T. apply (M ops). eapply trace_again; eauto. Qed.
Lemma apart_emit p x q : hints_apart cfg p -> step cfg p = Ok (Yield (Some x) q) -> hints_apart cfg q.
Proof. intros M H ops q' o st T. apply (M (x :: ops)). eapply trace_emit; eauto. Qed.
Lemma apart_here p o e xs c : hints_apart cfg p -> hint_operator o = true -> routine p = e ++ t2_bytes o ++ c ->
  each t2_number e xs -> stack p = [].
Proof. intros M H R E. apply (M [] p o (stack p ++ xs)); [constructor| |auto]. exists e, xs, c. auto. Qed.

Lemma loaded_bare p p' xs c c' : bare p p' -> unhinted k c c' -> bare (loaded p xs c) (loaded p' xs c').
Proof. intros [] U. constructor; cbn; congruence || auto. Qed.

Lemma goes_bare n p ops h : goes cfg n p ops h -> forall p', bare p p' -> possible p -> masks_of cfg k p -> hints_apart cfg p ->
  match h with
  | Pending => exists m, goes cfg m p' (outline ops) Pending
  | Ended _ => exists m q', goes cfg m p' (outline ops) (Ended q')
  | _ => True
  end.
Proof.
  induction 1 as [n p|n p q H|n p e H|n p e H|n p q ops h H G IH|n p x q ops h H G IH]; intros p' B Po M A; auto.
  - exists O. constructor.
  - pose proof (bare_routine _ _ B) as U. remember (routine p) as c eqn:Ec. remember (routine p') as c' eqn:Ec'.
    destruct U as [|e xs o c c' E Ho U|e xs o c c' E Ho U|e xs o m c c' E Ho L U]; symmetry in Ec, Ec'.
    + exists 1%nat, p'. constructor. apply step_empty, Ec'.
    + rewrite (step_code _ _ _ _ _ _ E Ec) in H.
      pose proof (execute_bare o _ _ (loaded_bare _ _ xs _ _ B U) Ho) as X. rewrite H in X. destruct X as (q' & X).
      exists 1%nat, q'. constructor. rewrite (step_code _ _ _ _ _ _ E Ec'). exact X.
    + rewrite (step_code _ _ _ _ _ _ E Ec) in H. apply dropped_none in H; [destruct H|]. unfold hint_operator. rewrite Ho. auto.
    + rewrite (step_code _ _ _ _ _ _ E Ec) in H. apply dropped_none in H; [destruct H|]. unfold hint_operator. rewrite Ho. apply orb_true_r.
  - assert (X : exists q', step cfg p' = Ok (Again q') /\ bare q q').
    { pose proof (bare_routine _ _ B) as U. remember (routine p) as c eqn:Ec. remember (routine p') as c' eqn:Ec'.
      destruct U as [|e xs o c c' E Ho U|e xs o c c' E Ho U|e xs o m c c' E Ho L U]; symmetry in Ec, Ec'.
      - rewrite step_empty in H by exact Ec. discriminate.
      - rewrite (step_code _ _ _ _ _ _ E Ec) in H.
        pose proof (execute_bare o _ _ (loaded_bare _ _ xs _ _ B U) Ho) as X. rewrite H in X.
        rewrite (step_code _ _ _ _ _ _ E Ec'). exact X.
      - rewrite (step_code _ _ _ _ _ _ E Ec) in H. apply dropped_again in H; [destruct H|]. unfold hint_operator. rewrite Ho. auto.
      - rewrite (step_code _ _ _ _ _ _ E Ec) in H. apply dropped_again in H; [destruct H|]. unfold hint_operator. rewrite Ho. apply orb_true_r. }
    destruct X as (q' & S' & B'). pose proof (step_possible _ _ _ Po H) as Pq.
    specialize (IH q' B' Pq (masks_again _ _ _ _ M H) (apart_again _ _ A H)).
    destruct h; auto.
    + destruct IH as (m & IH). exists (S m). eapply goes_again; eauto.
    + destruct IH as (m & q'' & IH). exists (S m), q''. eapply goes_again; eauto.
  - pose proof (step_possible _ _ _ Po H) as Pq. cbn beta iota in Pq.
    pose proof (masks_emit _ _ _ _ _ M H) as Mq. pose proof (apart_emit _ _ _ A H) as Aq.
    assert (X : (path_operator (fst x) = true /\ exists q', step cfg p' = Ok (Yield (Some x) q') /\ bare q q') \/
      (path_operator (fst x) = false /\ bare q p')).
    { pose proof (bare_routine _ _ B) as U. remember (routine p) as c eqn:Ec. remember (routine p') as c' eqn:Ec'.
      destruct U as [|e xs o c c' E Ho U|e xs o c c' E Ho U|e xs o m c c' E Ho L U]; symmetry in Ec, Ec'.
      - rewrite step_empty in H by exact Ec. discriminate.
      - left. rewrite (step_code _ _ _ _ _ _ E Ec) in H.
        pose proof (execute_bare o _ _ (loaded_bare _ _ xs _ _ B U) Ho) as X. rewrite H in X.
        rewrite (step_code _ _ _ _ _ _ E Ec'). exact X.
      - right. assert (Hh : hint_operator o = true) by (unfold hint_operator; rewrite Ho; auto).
        pose proof (apart_here _ _ _ _ _ A Hh Ec E) as Sp. rewrite (step_code _ _ _ _ _ _ E Ec) in H.
        apply stems_dropped in H as (Px & Rq & Sq & Cq & Gq & Lq); auto. split; auto.
        destruct B. cbn in *. constructor; rewrite ?Rq, ?Sq, ?Cq, ?Gq, ?Lq; auto; congruence.
      - right. assert (Hh : hint_operator o = true) by (unfold hint_operator; rewrite Ho; apply orb_true_r).
        pose proof (apart_here _ _ _ _ _ A Hh Ec E) as Sp. pose proof (masks_here _ _ _ _ _ _ _ _ M Ho Ec E) as Mb.
        rewrite (step_code _ _ _ _ _ _ E Ec) in H.
        apply (mask_dropped o (loaded p xs (m ++ c)) m c) in H as (Px & Rq & Sq & Cq & Gq & Lq); auto; [|apply Po]. split; auto.
        destruct B. cbn in *. constructor; rewrite ?Rq, ?Sq, ?Cq, ?Gq, ?Lq; auto; congruence. }
    destruct X as [(Px & q' & S' & B')|(Px & B')]; unfold outline; cbn [filter]; rewrite Px; fold (outline ops).
    + specialize (IH q' B' Pq Mq Aq). destruct h; auto.
      * destruct IH as (m & IH). exists (S m). eapply goes_emit; eauto.
      * destruct IH as (m & q'' & IH). exists (S m), q''. eapply goes_emit; eauto.
    + apply (IH p' B' Pq Mq Aq).
Qed.

Lemma outlines code code' g g' l l' : unhinted k code code' -> Forall2 (unhinted k) g g' -> Forall2 (unhinted k) l l' ->
  masks_of cfg k (new_program code g l) -> hints_apart cfg (new_program code g l) ->
  (forall ops, emits cfg (new_program code g l) ops -> emits cfg (new_program code' g' l') (outline ops)) /\
  (forall ops w, shows cfg (new_program code g l) (Ok (ops, w)) -> exists w', shows cfg (new_program code' g' l') (Ok (outline ops, w'))).
Proof.
  intros U Ug Ul M A.
  assert (B : bare (new_program code g l) (new_program code' g' l')) by (constructor; cbn; auto).
  pose proof (new_possible code g l) as Po. split.
  - intros ops H. apply goes_emits in H as (n & G). apply goes_emits. apply (goes_bare _ _ _ _ G _ B Po M A).
  - intros ops w H. apply shows_goes in H as (n & ops' & h & G & N & E). destruct h; try discriminate.
    injection E as -> ->. destruct (goes_bare _ _ _ _ G _ B Po M A) as (m & q' & G'). exists (width q').
    apply shows_goes. exists m, (outline ops'), (Ended q'). split; [exact G'|]. split; [discriminate|reflexivity].
Qed.

(** The width can be put in front. *)
Lemma outlines_width code code' g g' l l' ops w e o arguments :
  unhinted k code code' -> Forall2 (unhinted k) g g' -> Forall2 (unhinted k) l l' ->
  masks_of cfg k (new_program code g l) -> hints_apart cfg (new_program code g l) ->
  shows cfg (new_program code g l) (Ok (ops, Some w)) -> t2_number e w ->
  first_clearing cfg (new_program code' g' l') o arguments -> may_have_width o = true -> left_over o arguments [] ->
  shows cfg (new_program (e ++ code') g' l') (Ok (outline ops, Some w)).
Proof.
  intros U Ug Ul M A Sh E F Mw L. destruct (outlines _ _ _ _ _ _ U Ug Ul M A) as [_ O].
  destruct (width_in_front cfg w code' g' l' e o arguments E F Mw L) as (_ & W & _).
  apply W. apply (O _ _ Sh).
Qed.
End Hints.

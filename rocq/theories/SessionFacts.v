(** SessionFacts: calls of [next] after errors. *)
From Verif Require Import Base Float T2Number T2Operation T2Program T2Machine BaseFacts SpecMachine T2OperatorFacts T2NumberFacts StepFacts
  ClearFacts RunFacts EvalFacts IntegralFacts StackFacts ExecutionFacts ProgramFacts FailureFacts MachineFacts AftermathFacts.
Local Open Scope list_scope.
Local Open Scope Z_scope.

Section machine.
  Context (left : cursor) (cfg : config).

  (** ** Calls *)

  Lemma advancing_ok p x q : (exists fuel, advancing left cfg fuel p = (Ok x, q)) <-> nexts cfg p (Ok (x, q)).
  Proof.
    split.
    - intros (fuel & H). split; [discriminate|]. exists fuel. pose proof (advancing_agrees left cfg fuel p) as G. rewrite H in G.
      unfold agree_next in G. destruct (next cfg fuel p) as [[y r]| | |]; cbn [fst] in G; congruence.
    - intros (_ & fuel & H). exists fuel. pose proof (advancing_agrees left cfg fuel p) as G. rewrite H in G. exact G.
  Qed.

  Lemma advancing_panic p k : (exists fuel, fst (advancing left cfg fuel p) = Panic k) <-> nexts cfg p (Panic k).
  Proof.
    split.
    - intros (fuel & H). split; [discriminate|]. exists fuel. pose proof (advancing_agrees left cfg fuel p) as G.
      unfold agree_next in G. destruct (next cfg fuel p) as [[y r]| | |]; try (rewrite G in H; cbn [fst] in H); congruence.
    - intros (_ & fuel & H). exists fuel. pose proof (advancing_agrees left cfg fuel p) as G. rewrite H in G. exact G.
  Qed.

  Lemma advancing_err fuel : forall p k q, valid_program p -> possible p -> advancing left cfg fuel p = (Err k, q) ->
    exists p', trace cfg p [] p' /\ step cfg p' = Err k /\ round left cfg p' = (Err k, q) /\ leaves left p' q.
  Proof.
    induction fuel as [|fuel IH]; intros p k q V P; [discriminate|]. cbn [advancing]. unfold andthen.
    pose proof (round_agrees left cfg p) as G. destruct (step cfg p) as [[x r|r]|e|e|] eqn:E; unfold agree in G.
    - rewrite G. discriminate.
    - rewrite G. intros H. apply IH in H as (p' & T & H).
      + exists p'. split; auto. eapply trace_again; eauto.
      + exact (step_valid _ _ _ V E).
      + exact (step_possible _ _ _ P E).
    - destruct (round left cfg p) as [y r] eqn:R. cbn [fst] in G. subst y. intros H. injection H as -> ->.
      exists p. split; [constructor|]. split; [exact E|]. split; [exact R|]. eapply round_leaves; eauto.
    - destruct (round left cfg p) as [y r]. cbn [fst] in G. subst y. discriminate.
    - destruct (round left cfg p) as [y r]. cbn [fst] in G. subst y. discriminate.
  Qed.

  Lemma advancing_trace p p' k q : trace cfg p [] p' -> round left cfg p' = (Err k, q) ->
    exists fuel, advancing left cfg fuel p = (Err k, q).
  Proof.
    intros T R. remember [] as ops eqn:Eo. induction T as [p|p p1 ops p' H T IH|]; [| |discriminate].
    - exists 1%nat. cbn [advancing]. unfold andthen. rewrite R. reflexivity.
    - destruct (IH Eo R) as (fuel & F). exists (Datatypes.S fuel). cbn [advancing]. unfold andthen.
      pose proof (round_agrees left cfg p) as G. rewrite H in G. unfold agree in G. rewrite G. exact F.
  Qed.

  Lemma next_left p k q : valid_program p -> possible p ->
    ((exists fuel, advancing left cfg fuel p = (Err k, q)) <->
     exists p', trace cfg p [] p' /\ step cfg p' = Err k /\ leaves left p' q).
  Proof.
    intros V P. split.
    - intros (fuel & H). apply advancing_err in H as (p' & T & E & _ & L); eauto.
    - intros (p' & T & E & L). apply advancing_trace with p'; auto. apply leaves_round; auto.
      + exact (proj1 (trace_valid _ _ _ _ T V)).
      + exact (trace_possible _ _ _ _ T P).
  Qed.

  (** ** What is kept *)

  Lemma remaining_valid o st st' : remaining o st st' -> Forall binary32 st -> Forall binary32 st'.
  Proof.
    assert (R : forall l : list f32, Forall binary32 l -> Forall binary32 (removelast l)).
    { intros l F. destruct (exists_last_or l) as [->|(s & x & ->)]; [exact F|]. rewrite removelast_last. apply Forall_app in F. tauto. }
    intros H F. destruct H as [o s D|s N|s deep j' J' E' Sf|o s So Ni Nr|o s D]; auto.
    subst s. apply R. apply Forall_app in F. tauto.
  Qed.

  Lemma leaves_keeps p q : leaves left p q -> valid_program p -> possible p ->
    valid_program q /\ possible q /\ width q = width p /\ global q = global p /\ local q = local p.
  Proof.
    intros L V P. assert (D : forall o p', 0 <= declared_by o p' < 2 ^ 64) by (intros; apply Z.mod_pos_bound; lia).
    assert (Lo : forall xs t, ahead p xs t -> forall r, valid_program (loaded p xs r))
      by (intros xs t (e & _ & X) r; eapply loaded_valid; eauto).
    destruct L as [p xs A|p xs b s u x A N U|p xs A|p xs b r A C F No|p xs b r A No|p xs o r A M|p xs r n c c' cs A E C|p xs o r st A Re];
      (split; [|split; [try exact P; apply D|repeat split; reflexivity]]); try (eapply Lo; eauto; fail).
    all: destruct (Lo _ _ A r) as [V1 V2]. split; [first [exact V1|eapply remaining_valid; eauto]|exact V2].
  Qed.

  Lemma session_keeps p rs q : session left cfg p rs q -> valid_program p -> possible p ->
    valid_program q /\ possible q /\ (forall w, width p = Some w -> width q = Some w) /\ global q = global p /\ local q = local p.
  Proof.
    induction 1 as [p|fuel p x p' rs q H T IH|fuel p k p' rs q H T IH]; intros V P; auto.
    - assert (N : nexts cfg p (Ok (x, p'))) by (apply advancing_ok; eauto).
      pose proof N as N'. apply nexts_trace in N' as (p1 & T1 & S1).
      pose proof (proj1 (trace_valid _ _ _ _ T1 V)) as V1. pose proof (trace_possible _ _ _ _ T1 P) as P1.
      pose proof (step_valid _ _ _ V1 S1) as V2. pose proof (step_possible _ _ _ P1 S1) as P2.
      assert (V3 : valid_program p') by (destruct x as [y|]; cbn in V2; [exact (proj1 V2)|exact V2]).
      destruct (trace_subs _ _ _ _ T1) as [G L]. destruct (step_subs _ _ _ S1) as [G' L'].
      destruct (IH V3 P2) as (A & B & C & D & E). repeat split; try tauto; try congruence; try apply A; try apply B.
      intros w W. apply C. eapply width_kept; eauto.
    - apply advancing_err in H as (p1 & T1 & E1 & _ & Le); auto.
      pose proof (proj1 (trace_valid _ _ _ _ T1 V)) as V1. pose proof (trace_possible _ _ _ _ T1 P) as P1.
      destruct (leaves_keeps _ _ Le V1 P1) as (V2 & P2 & W & G & L). destruct (trace_subs _ _ _ _ T1) as [G' L'].
      destruct (IH V2 P2) as (A & B & C & D & E). split; [exact A|]. split; [exact B|]. split; [|split; congruence].
      intros w W'. apply C. rewrite W. rewrite <- W'. apply trace_silent_width with cfg. exact T1.
  Qed.

  Lemma new_valid code g l : valid_program (new_program code g l).
  Proof. split; [constructor|discriminate]. Qed.
  Lemma new_possible code g l : possible (new_program code g l).
  Proof. unfold possible. cbn. lia. Qed.

  Lemma session_panics code g l rs p k : Z.of_nat (length g) < 2 ^ 31 -> Z.of_nat (length l) < 2 ^ 31 ->
    session left cfg (new_program code g l) rs p ->
    ((exists fuel, fst (advancing left cfg fuel p) = Panic k) <->
     k = ArithmeticOverflow /\ overflow_checks cfg = true /\
     exists q xs o r, trace cfg p [] q /\ ahead q xs (t2_bytes o ++ r) /\ extreme o (loaded q xs r)).
  Proof.
    intros Lg Ll S0. destruct (session_keeps _ _ _ S0 (new_valid _ _ _) (new_possible _ _ _)) as (V & P & _ & G & L).
    cbn [global local new_program] in G, L. rewrite advancing_panic. split.
    - intros N. apply nexts_trace_panic in N as (q & T & H). destruct (trace_subs _ _ _ _ T) as [G' L'].
      apply step_panic in H as (-> & O & e & xs & o & r & R & E & X).
      + split; [reflexivity|]. split; [exact O|]. exists q, xs, o, r. split; [exact T|]. split; [exists e; auto|exact X].
      + exact (proj1 (trace_valid _ _ _ _ T V)).
      + exact (trace_possible _ _ _ _ T P).
      + rewrite L', L. exact Ll.
      + rewrite G', G. exact Lg.
    - intros (-> & O & q & xs & o & r & T & (e & R & E) & X). rewrite (trace_nexts _ _ _ _ T).
      destruct (trace_subs _ _ _ _ T) as [G' L']. split; [discriminate|]. exists 1%nat. cbn [next].
      rewrite (step_code cfg q e xs o r E R), execute_extreme; auto; cbn [local global loaded set_stack set_routine].
      + rewrite L', L. exact Ll.
      + rewrite G', G. exact Lg.
  Qed.

  (** ** The end *)

  Lemma round_end p : routine p = [] -> round left cfg p = (Ok (Some None), p).
  Proof. intros R. unfold round, andthen, get. rewrite R. reflexivity. Qed.

  Lemma session_end p rs q : routine p = [] -> session left cfg p rs q -> q = p /\ Forall (eq (Ok None)) rs.
  Proof.
    intros R H. revert R. induction H as [p|fuel p x p' rs q H T IH|fuel p k p' rs q H T IH]; intros R; auto.
    - destruct fuel as [|fuel]; [discriminate|]. cbn [advancing] in H. unfold andthen in H. rewrite round_end in H by auto.
      injection H as <- <-. destruct (IH R) as [-> F]. auto.
    - destruct fuel as [|fuel]; [discriminate|]. cbn [advancing] in H. unfold andthen in H. rewrite round_end in H by auto. discriminate.
  Qed.

  (** ** The same error for ever *)

  Lemma session_stuck p n : routine p = [x0c] -> value_left left 2 [x0c] = [x0c] ->
    session left cfg p (repeat (Err UnexpectedEof) n) p.
  Proof.
    intros R L. induction n as [|n IH]; [constructor|]. cbn [repeat]. apply session_failed with 1%nat p; [|exact IH].
    cbn [advancing]. unfold andthen. rewrite (round_cut left cfg p []).
    - f_equal. unfold loaded. rewrite L, app_nil_r, <- R. destruct p; reflexivity.
    - exists []. split; [exact R|constructor].
  Qed.

  (** ** Progress *)

  Definition bare (p : program) : Prop := valid_program p /\ possible p /\ global p = [] /\ local p = [] /\ callers p = [].

  Lemma suffix_length {A} (s t u : list A) : s = t ++ u -> (length u <= length s)%nat.
  Proof. intros ->. rewrite app_length. lia. Qed.

  Lemma ahead_length p xs t : ahead p xs t -> (length t <= length (routine p))%nat.
  Proof. intros (e & -> & _). rewrite app_length. lia. Qed.

  Lemma t2_bytes_length o : (1 <= length (t2_bytes o))%nat.
  Proof. destruct (t2_bytes o) eqn:E; [apply t2_bytes_not_nil in E; contradiction|]. cbn. lia. Qed.

  Lemma step_bare p s : bare p -> step cfg p = Ok s ->
    let q := match s with Yield _ q => q | Again q => q end in
    bare q /\ (length (routine q) <= length (routine p))%nat /\
    (s <> Yield None q -> (length (routine q) < length (routine p))%nat).
  Proof.
    intros (V & P & G & L & C) H.
    assert (B : let q := match s with Yield _ q => q | Again q => q end in valid_program q /\ possible q /\ global q = [] /\ local q = []).
    { pose proof (step_valid _ _ _ V H) as V'. pose proof (step_possible _ _ _ P H) as P'. pose proof (step_subs _ _ _ H) as [G' L'].
      destruct s as [[y|] q|q]; cbn in *; repeat split; try congruence; try tauto; try apply V'; try apply P'. }
    apply step_inv in H as [[R ->]|(e & xs & o & r & E & R & H)].
    - cbn. repeat split; auto; try apply B. congruence.
    - assert (Len : (length r < length (routine p))%nat).
      { rewrite R, !app_length. pose proof (t2_bytes_length o). lia. }
      assert (K : let q := match s with Yield _ q => q | Again q => q end in callers q = [] /\ (length (routine q) <= length r)%nat).
      { destruct s as [[y|] q|q].
        - apply execute_yields in H as (_ & _ & su & _ & _ & _ & Cq & _ & _ & M). cbn [callers loaded set_stack set_routine routine] in Cq, M.
          rewrite C in Cq. split; [exact Cq|]. destruct (mask_operator o); [destruct M as (mask & ->); rewrite app_length; lia|rewrite M; lia].
        - apply execute_none in H as (_ & r' & U & ->). cbn [callers loaded set_stack set_routine routine set_width set_frames] in *.
          rewrite C in U. cbn in U. injection U as <-. split; [reflexivity|lia].
        - apply execute_again in H as [(_ & st & _ & ->)|[(D & H)|(_ & c & cs & E' & _)]].
          + cbn [callers loaded set_stack set_routine routine]. auto.
          + apply call_inv in H as (st & code & I & _). cbn [local global loaded set_stack set_routine] in I. rewrite G, L in I. destruct D as [-> | ->]; destruct I.
          + cbn [callers loaded set_stack set_routine] in E'. congruence. }
      destruct K as [K1 K2]. cbn zeta. split; [|split; [lia|intros _; lia]]. unfold bare. cbn zeta in B. destruct B as (B1 & B2 & B3 & B4). auto 6.
  Qed.

  Lemma leaves_bare p k q : forward left -> value_left left 2 [x0c] = [] -> bare p -> step cfg p = Err k -> leaves left p q ->
    bare q /\ (length (routine q) < length (routine p))%nat.
  Proof.
    intros Fw Z (V & P & G & L & C) H Le. destruct (leaves_keeps _ _ Le V P) as (V' & P' & _ & G' & L').
    assert (K : callers q = [] /\ (length (routine q) < length (routine p))%nat).
    { destruct Le as [p xs A|p xs b s u x A N U|p xs A|p xs b r A Cb F No|p xs b r A No|p xs o r A M|p xs r n c c' cs A E Cc|p xs o r st A Re];
        cbn [callers loaded set_stack set_routine routine set_stems set_frames]; (split; [auto; fail|]); try pose proof (ahead_length _ _ _ A) as Al.
      - destruct (routine p) eqn:R; [rewrite (step_empty cfg p R) in H; discriminate|]. cbn. lia.
      - destruct (proj1 (Fw (Z.of_nat (length (s ++ u))) s)) as (t & E). apply suffix_length in E. cbn in Al. lia.
      - rewrite Z. cbn in *. lia.
      - cbn in Al. lia.
      - cbn in Al. lia.
      - rewrite app_length in Al. pose proof (t2_bytes_length o).
        destruct (proj2 (Fw ((declared_by o (loaded p xs r) + 7) mod 2 ^ 64 / 8) r)) as (t & E). apply suffix_length in E. lia.
      - rewrite C in E. exfalso. destruct n as [|[|n]]; cbn in E; discriminate.
      - rewrite app_length in Al. pose proof (t2_bytes_length o). lia. }
    destruct K as [K1 K2]. split; [|exact K2]. unfold bare. repeat split; try apply V'; try apply P'; congruence.
  Qed.

  Lemma trace_bare p q : bare p -> trace cfg p [] q -> bare q /\ (length (routine q) <= length (routine p))%nat.
  Proof.
    intros B T. remember [] as ops eqn:Eo. induction T as [p|p p1 ops q H T IH|]; [auto| |discriminate].
    destruct (step_bare p _ B H) as (B1 & L1 & _). destruct (IH B1 Eo) as [B2 L2]. split; auto. lia.
  Qed.

  Lemma session_progress p rs q : forward left -> value_left left 2 [x0c] = [] -> bare p -> session left cfg p rs q ->
    (length (filter fruitful rs) + length (routine q) <= length (routine p))%nat.
  Proof.
    intros Fw Z B H. revert B. induction H as [p|fuel p x p' rs q H T IH|fuel p k p' rs q H T IH]; intros B.
    - cbn. lia.
    - assert (N : nexts cfg p (Ok (x, p'))) by (apply advancing_ok; eauto). apply nexts_trace in N as (p1 & T1 & S1).
      destruct (trace_bare _ _ B T1) as [B1 L1]. destruct (step_bare _ _ B1 S1) as (B2 & L2 & L3). specialize (IH B2).
      destruct x as [y|]; cbn [filter fruitful length]; [|lia]. specialize (L3 ltac:(discriminate)). lia.
    - pose proof B as (V & P & _). apply advancing_err in H as (p1 & T1 & E1 & _ & Le); auto.
      destruct (trace_bare _ _ B T1) as [B1 L1]. destruct (leaves_bare _ _ _ Fw Z B1 E1 Le) as [B2 L2]. specialize (IH B2).
      cbn [filter fruitful length]. lia.
  Qed.
End machine.

Lemma new_bare code : bare (new_program code [] []).
Proof. split; [apply new_valid|]. split; [apply new_possible|]. auto. Qed.

Lemma code_progress left cfg code rs q : forward left -> value_left left 2 [x0c] = [] ->
  session left cfg (new_program code [] []) rs q -> (length (filter fruitful rs) <= length code)%nat.
Proof.
  intros Fw Z H. pose proof (session_progress left cfg _ _ _ Fw Z (new_bare code) H) as L. cbn [routine new_program] in L. lia.
Qed.

Lemma session_left left cfg code g l rs p k q : session left cfg (new_program code g l) rs p ->
  ((exists fuel, advancing left cfg fuel p = (Err k, q)) <->
   exists p', trace cfg p [] p' /\ step cfg p' = Err k /\ leaves left p' q).
Proof.
  intros S0. destruct (session_keeps _ _ _ _ _ S0 (new_valid _ _ _) (new_possible _ _ _)) as (V & P & _). apply next_left; auto.
Qed.

Lemma session_kept left cfg code g l rs p rs' q : session left cfg (new_program code g l) rs p -> session left cfg p rs' q ->
  global q = g /\ local q = l /\ forall w, width p = Some w -> width q = Some w.
Proof.
  intros S0 S1. destruct (session_keeps _ _ _ _ _ S0 (new_valid _ _ _) (new_possible _ _ _)) as (V & P & _ & G & L).
  destruct (session_keeps _ _ _ _ _ S1 V P) as (_ & _ & W & G' & L'). cbn [global local new_program] in G, L.
  split; [congruence|]. split; [congruence|exact W].
Qed.

(** 02 is no operator; 1 hmoveto. *)
Lemma error_not_final left cfg : exists code q x,
  session left cfg (new_program code [] []) [Err Other; Ok (Some x)] q.
Proof.
  exists [x02; x8c; x16]. eexists _, _.
  apply session_failed with 1%nat (new_program [x8c; x16] [] []); [reflexivity|].
  eapply (session_returned left cfg 1); [vm_compute; reflexivity|]. constructor.
Qed.

Lemma error_for_ever cfg : exists code, forall n, exists q,
  session stays cfg (new_program code [] []) (repeat (Err UnexpectedEof) n) q.
Proof. exists [x0c]. intros n. eexists. apply session_stuck; reflexivity. Qed.

(** After an end of file, the end. *)
Lemma eof_drops cfg p q : valid_program p -> possible p -> round drops cfg p = (Err UnexpectedEof, q) -> routine q = [].
Proof.
  intros V P R. pose proof (round_leaves drops cfg p UnexpectedEof q V P R) as L.
  assert (H : step cfg p = Err UnexpectedEof) by (apply (round_left drops cfg p UnexpectedEof q V P); exact R).
  destruct L as [p xs A|p xs b s u x A N U|p xs A|p xs b r A C F No|p xs b r A No|p xs o r A M|p xs r n c c' cs A E C|p xs o r st A Re];
    try reflexivity; exfalso.
  - assert (F' : ~ t2_first b) by (intros F'; destruct (first_number b F') as (s & x & N); exact (F s x N)).
    rewrite (round_unknown drops cfg p xs b r A C F' No) in R. discriminate.
  - rewrite (round_unknown_pair drops cfg p xs b r A No) in R. discriminate.
  - rewrite (round_operator drops cfg p xs _ r A), (end_trailing drops cfg (loaded p xs r) n c c' cs E C) in R. discriminate.
  - rewrite (step_operator cfg p xs o r A) in H. apply execute_kind in H; [discriminate|].
    destruct Re as [o s D|s N|s deep j' J' E' Sf|o s So Ni Nr|o s D]; auto.
    + destruct D as [->|[->| ->]]; reflexivity.
    + destruct o; try discriminate; reflexivity.
    + destruct D as [D|[D|[->|[->|[->| ->]]]]]; try reflexivity; destruct o; try discriminate; reflexivity.
Qed.

Lemma session_eof cfg code g l rs p fuel q rs' q' : session drops cfg (new_program code g l) rs p ->
  advancing drops cfg fuel p = (Err UnexpectedEof, q) -> session drops cfg q rs' q' -> q' = q /\ Forall (eq (Ok None)) rs'.
Proof.
  intros S0 H S1. destruct (session_keeps _ _ _ _ _ S0 (new_valid _ _ _) (new_possible _ _ _)) as (V & P & _).
  apply advancing_err in H as (p1 & T1 & _ & R & _); auto. eapply session_end; [|exact S1].
  eapply eof_drops; [| |exact R].
  - exact (proj1 (trace_valid _ _ _ _ T1 V)).
  - exact (trace_possible _ _ _ _ T1 P).
Qed.

(** FiniteFacts: how large the numbers of an execution can be. *)
From Coq Require Import Reals Lra.
From Verif Require Import Base Float T2Number T2Operation T2Program BaseFacts SpecProgram T2NumberFacts StepFacts ClearFacts
  RunFacts FloatFacts EvalFacts IntegralFacts StackFacts ExecutionFacts SubroutineFacts BoundFacts SpecFinite.
From Flocq Require Import Core.
Local Open Scope list_scope.
Local Open Scope Z_scope.

(** ** What the operators make of numbers with a property *)

Section Keeps.
Context (P Q : f32 -> Prop) (PQ : forall x, P x -> Q x).

Lemma pop_keeps st x st' : Forall P st -> pop st = Ok (x, st') -> P x /\ Forall P st'.
Proof. intros V H. apply pop_inv in H. subst. apply Forall_snoc in V. tauto. Qed.
Lemma pop_bool_keeps st x st' : Forall P st -> pop_bool st = Ok (x, st') -> Forall P st'.
Proof. intros V H. apply pop_bool_inv in H as [y ->]. apply Forall_snoc in V. tauto. Qed.
Lemma pop_i32_keeps st x st' : Forall P st -> pop_i32 st = Ok (x, st') -> Forall P st'.
Proof. intros V H. apply pop_i32_inv in H as [y ->]. apply Forall_snoc in V. tauto. Qed.
Lemma read_keeps i st x : Forall P st -> read_from_top i st = Ok x -> P x.
Proof.
  unfold read_from_top. intros V. destruct (_ <=? _); [discriminate|]. destruct (nth_error _ _) eqn:E; [|discriminate].
  intros H. injection H as ->. apply nth_error_In in E. rewrite Forall_forall in V. auto.
Qed.

Lemma up_keeps k m : (forall st, m = Ok st -> Forall P st) -> forall st, up k m = Ok st -> Forall P st.
Proof.
  intros V st H. unfold up in H. inv_ok H. inv_ok H. destruct a0 as [x st']. specialize (V _ H0).
  destruct (pop_keeps _ _ _ V H1) as [Vx Vs]. unfold vec_insert in H. destruct (Nat.leb _ _); [|discriminate].
  injection H as <-. rewrite <- (firstn_skipn k st') in Vs. apply Forall_app in Vs as [V1 V2].
  apply Forall_app. split; auto.
Qed.

Lemma down_keeps k m : (forall st, m = Ok st -> Forall P st) -> forall st, down k m = Ok st -> Forall P st.
Proof.
  intros V st H. unfold down in H. inv_ok H. inv_ok H. destruct a0 as [x st']. specialize (V _ H0).
  injection H as <-. unfold vec_remove in H1. destruct (nth_error a k) eqn:E; [|discriminate]. injection H1 as -> <-.
  apply Forall_snoc. split.
  - rewrite <- (firstn_skipn k a) in V. apply Forall_app in V as [V1 V2]. apply Forall_app. split; auto.
    assert (skipn k a = x :: skipn (S k) a) as Ek.
    { clear -E. revert a E. induction k as [|k IH]; intros [|y a] E; try discriminate; cbn in *; [congruence|auto]. }
    rewrite Ek in V2. inversion V2. auto.
  - apply nth_error_In in E. rewrite Forall_forall in V. auto.
Qed.

Lemma iter_keeps f n : (forall m, (forall st, m = Ok st -> Forall P st) -> forall st, f m = Ok st -> Forall P st) ->
  forall m, (forall st, m = Ok st -> Forall P st) -> forall st, Z.iter n f m = Ok st -> Forall P st.
Proof.
  intros F m V. destruct (Z.le_gt_cases 0 n) as [L|L].
  - rewrite iter_nat_Z by auto. generalize (Z.to_nat n). intros k. induction k as [|k IH]; [exact V|].
    cbn [Nat.iter nat_rect]. apply F. exact IH.
  - destruct n; try lia. exact V.
Qed.

Definition closes (o : t2_operator) (st : list f32) : Prop :=
  match o with
  | T2_Abs => forall x, P x -> Q (f32_abs x)
  | T2_Neg => forall x, P x -> Q (f32_neg x)
  | T2_Sqrt => forall st' x, st = st' ++ [x] -> P x -> Q (f32_sqrt x)
  | T2_Add => forall x y, P x -> P y -> Q (f32_add x y)
  | T2_Sub => forall x y, P x -> P y -> Q (f32_sub x y)
  | T2_Mul => forall x y, P x -> P y -> Q (f32_mul x y)
  | T2_Div => forall st' x y, st = st' ++ [x; y] -> P x -> P y -> Q (f32_div x y)
  | T2_And | T2_Or | T2_Not | T2_Eq => Q f32_one /\ Q f32_zero
  | _ => True
  end.

Lemma lift_keeps st : Forall P st -> Forall Q st.
Proof. apply Forall_impl. exact PQ. Qed.

Lemma effect_keeps cfg o st st' : Forall P st -> effect cfg o st = Ok st' -> stack_operator o = true -> closes o st -> Forall Q st'.
Proof.
  intros V H S C. unfold effect in H. rewrite execute_stack in H by auto.
  unfold with_stack in H. cbn [stack] in H.
  destruct o; try discriminate; cbn [execute stack] in H; unfold effect, execute, with_stack in H; cbn [stack] in H;
    unfold unary, binary, push_bool, push in H; cbn [closes] in C.
  all: repeat match type of H with
    | context [bind (pop ?s) _] => let E := fresh "E" in destruct (pop s) as [[? ?]| | |] eqn:E; cbn [bind stack set_stack] in H; try discriminate H
    | context [bind (pop_bool ?s) _] => let E := fresh "E" in destruct (pop_bool s) as [[? ?]| | |] eqn:E; cbn [bind stack set_stack] in H; try discriminate H
    | context [bind (pop_i32 ?s) _] => let E := fresh "E" in destruct (pop_i32 s) as [[? ?]| | |] eqn:E; cbn [bind stack set_stack] in H; try discriminate H
    | context [bind (read_from_top ?i ?s) _] => let E := fresh "E" in destruct (read_from_top i s) as [?| | |] eqn:E; cbn [bind stack set_stack] in H; try discriminate H
    end.
  all: repeat match goal with
    | V : Forall P ?s, E : pop ?s = Ok (_, _) |- _ =>
        let E' := fresh "I" in pose proof (pop_inv _ _ _ E) as E'; apply (pop_keeps _ _ _ V) in E as [? ?]
    | V : Forall P ?s, E : pop_bool ?s = Ok (_, _) |- _ => apply (pop_bool_keeps _ _ _ V) in E
    | V : Forall P ?s, E : pop_i32 ?s = Ok (_, _) |- _ => apply (pop_i32_keeps _ _ _ V) in E
    | V : Forall P ?s, E : read_from_top _ ?s = Ok _ |- _ => apply (read_keeps _ _ _ V) in E
    end.
  all: try (injection H as <-; rewrite ?Forall_snoc; repeat split; auto using lift_keeps;
    try (destruct C; match goal with |- Q (if ?b then _ else _) => destruct b; assumption end);
    try (match goal with |- Q (if ?b then _ else _) => destruct b; auto; fail end);
    try (subst; rewrite <- ?app_assoc in *; eapply C; eauto; reflexivity); fail).
  destruct (roll cfg st) as [st1| | |] eqn:R; cbn in H; try discriminate. injection H as <-. clear S. apply lift_keeps.
  unfold roll in R. inv_ok R. destruct a as [sh st2]. inv_ok R. destruct a as [sp st3].
  apply (pop_i32_keeps _ _ _ V) in H. apply (pop_i32_keeps _ _ _ H) in H0.
  destruct (sp <? 0); [discriminate|]. destruct (_ <? sp); [discriminate|]. destruct (0 <? sp); [|congruence].
  destruct (sh ?= 0).
  - congruence.
  - inv_ok R. revert R. apply iter_keeps; [apply down_keeps|]. intros s' E. congruence.
  - revert R. apply iter_keeps; [apply up_keeps|]. intros s' E. congruence.
Qed.

(** The numbers of a state. *)
Definition all_numbers (R : f32 -> Prop) (p : program) : Prop :=
  Forall R (stack p) /\ (forall w, width p = Some w -> R w).

Definition result_keeps (s : stepped) : Prop :=
  match s with
  | Again p => all_numbers Q p
  | Yield None p => all_numbers P p
  | Yield (Some x) p => all_numbers P p /\ Forall P (snd x)
  end.

Lemma execute_keeps cfg o p s : all_numbers P p -> execute cfg o p = Ok s ->
  (stack_operator o = true -> closes o (stack p)) -> result_keeps s.
Proof.
  intros [V W] H C. destruct s as [[x|] p'|p'].
  - apply execute_yields in H as (_ & _ & surplus & L & K & Wd & _). destruct L as (E & _).
    rewrite E in V. apply Forall_app in V as [V1 V2]. repeat split; auto.
    + rewrite K. constructor.
    + intros w Hw. rewrite Wd in Hw. unfold width_after in Hw. destruct (width p) eqn:Ew; [apply W; congruence|].
      apply last_error_in in Hw. rewrite Forall_forall in V1. auto.
  - apply execute_none in H as (_ & r & _ & ->). split; [exact V|]. intros w Hw.
    cbn [width set_width set_frames stack] in Hw.
    destruct (vec_pop (stack p)) as [[t st]|] eqn:Ev; [|apply W; auto].
    destruct (width p) eqn:Ew; [apply W; congruence|]. injection Hw as ->.
    apply vec_pop_inv in Ev. rewrite Ev in V. apply Forall_snoc in V. tauto.
  - apply execute_again in H as [(S & st & E & ->)|[(_ & H)|(_ & c & cs & _ & ->)]].
    + split; [|intros w Hw; apply PQ, W; exact Hw]. eapply effect_keeps; eauto.
    + unfold call in H. inv_ok H. destruct a as [a st]. inv_ok H. destruct (_ || _); [discriminate|].
      destruct (nth_error _ _); [|discriminate]. injection H as <-. split; [|intros w Hw; apply PQ, W; exact Hw].
      apply lift_keeps. eapply pop_i32_keeps; eauto.
    + split; [apply lift_keeps; auto|intros w Hw; apply PQ, W; exact Hw].
Qed.
End Keeps.

(** ** Bounds *)

Definition within (k : Z) (x : f32) : Prop := binary32 x /\ bounded k x.

Lemma pow_bpow k : 0 <= k -> IZR (2 ^ k) = bpow radix2 k.
Proof. intros H. rewrite <- IZR_Zpower by auto. reflexivity. Qed.

Lemma rounded_within r s x k : 0 <= k < 128 -> (Rabs r <= IZR (2 ^ k))%R -> rounded r s x -> within k x.
Proof.
  intros K B R. rewrite pow_bpow in B by lia. split; [apply R|].
  destruct (rounded_bound r s x k ltac:(lia) B R) as [F V]. split; auto. rewrite pow_bpow by lia. exact V.
Qed.

Lemma within_more k k' x : 0 <= k <= k' -> within k x -> within k' x.
Proof.
  intros K (B & F & V). split; auto. split; auto. apply Rle_trans with (1 := V). apply IZR_le. apply Z.pow_le_mono_r; lia.
Qed.

Lemma pow_succ k : 0 <= k -> IZR (2 ^ (k + 1)) = (IZR (2 ^ k) + IZR (2 ^ k))%R.
Proof. intros H. rewrite <- plus_IZR. f_equal. rewrite Z.pow_add_r by lia. lia. Qed.

Lemma number_within e x : t2_number e x -> within 15 x.
Proof.
  intros N. pose proof (t2_number_finite _ _ N) as [B _]. destruct (t2_number_bound _ _ N) as [F V].
  split; auto. split; auto.
Qed.

Lemma numbers_within e xs k : 15 <= k -> each t2_number e xs -> Forall (within k) xs.
Proof.
  intros K. induction 1 as [|e x es xs N E IH]; constructor; auto. apply (within_more 15); [lia|]. eapply number_within; eauto.
Qed.

Lemma grown_closes k o st k' : 0 <= k -> 0 <= k' < 128 -> grown k o st k' ->
  (forall x, within k x -> within k' x) /\ closes (within k) (within k') o st.
Proof.
  intros K K' G.
  assert (Same : k' = k \/ k < k' -> forall x, within k x -> within k' x).
  { intros D x. apply within_more. lia. }
  assert (Bits : within k f32_one /\ within k f32_zero).
  { split; apply (within_more 0); try lia; (split; [reflexivity|]); (split; [reflexivity|]).
    - unfold value, f32_one. cbn. unfold F2R. cbn. rewrite Rabs_right; lra.
    - unfold value, f32_zero. cbn. rewrite Rabs_R0. lra. }
  destruct o; cbn [grown] in G; cbn [closes]; try (subst k'; split; auto; fail).
  - (* abs *)
    subst k'. split; auto. intros x (B & F & V). destruct (f32_abs_correct x F) as (E & Fa & _).
    split; [apply f32_abs_valid; auto|]. split; auto. rewrite E, Rabs_Rabsolu. exact V.
  - (* add *)
    subst k'. split; [apply Same; lia|]. intros x y (Bx & Fx & Vx) (By & Fy & Vy).
    eapply rounded_within; [lia| |apply f32_add_correct; auto]. rewrite pow_succ by lia.
    apply Rle_trans with (1 := Rabs_triang _ _). lra.
  - (* sub *)
    subst k'. split; [apply Same; lia|]. intros x y (Bx & Fx & Vx) (By & Fy & Vy).
    eapply rounded_within; [lia| |apply f32_sub_correct; auto]. rewrite pow_succ by lia.
    apply Rle_trans with (1 := Rabs_triang _ _). rewrite Rabs_Ropp. lra.
  - (* div *)
    destruct G as (st0 & x0 & y0 & j & E0 & J & D & ->). split; [apply Same; lia|].
    intros st' x y E (Bx & Fx & Vx) (By & Fy & Vy). rewrite E0 in E.
    assert (Ey : y0 = y).
    { change [x0; y0] with ([x0] ++ [y0]) in E. change [x; y] with ([x] ++ [y]) in E. rewrite !app_assoc in E.
      apply app_inj_tail in E. tauto. }
    subst y0. assert (P2 : (0 < IZR (2 ^ j))%R) by (apply IZR_lt; apply Z.pow_pos_nonneg; lia).
    assert (Ny : value y <> 0%R) by (intros N; rewrite N, Rabs_R0 in D; lra).
    pose proof (Rabs_pos_lt _ Ny) as Py.
    eapply rounded_within; [lia| |apply f32_div_correct; auto].
    rewrite Z.pow_add_r, mult_IZR by lia. unfold Rdiv. rewrite Rabs_mult, Rabs_inv.
    apply Rmult_le_compat; auto using Rabs_pos.
    + apply Rlt_le, Rinv_0_lt_compat. exact Py.
    + apply (Rmult_le_reg_l (Rabs (value y))); auto. rewrite Rinv_r by lra. exact D.
  - (* neg *)
    subst k'. split; auto. intros x (B & F & V). destruct (f32_neg_correct x F) as (E & Fa & _).
    split; [apply f32_neg_valid; auto|]. split; auto. rewrite E, Rabs_Ropp. exact V.
  - (* mul *)
    subst k'. split; [apply Same; lia|]. intros x y (Bx & Fx & Vx) (By & Fy & Vy).
    eapply rounded_within; [lia| |apply f32_mul_correct; auto].
    replace (2 * k) with (k + k) by lia. rewrite Z.pow_add_r, mult_IZR by lia. rewrite Rabs_mult.
    apply Rmult_le_compat; auto using Rabs_pos.
  - (* sqrt *)
    destruct G as (st0 & x0 & E0 & N0 & ->). split; auto. intros st' x E (Bx & Fx & Vx). rewrite E0 in E.
    apply app_inj_tail in E as [_ <-]. destruct (f32_sqrt_correct x0 Bx Fx N0) as (B & F & V & _).
    split; auto. split; auto. rewrite V, pow_bpow by lia. apply nearest_bound; [lia|].
    rewrite <- pow_bpow by lia. rewrite Rabs_right by (apply Rle_ge, sqrt_pos).
    rewrite Rabs_right in Vx by lra.
    apply Rsqr_incr_0_var; [|apply IZR_le; apply Z.pow_nonneg; lia]. rewrite Rsqr_sqrt by auto.
    apply Rle_trans with (1 := Vx). unfold Rsqr. rewrite <- mult_IZR. apply IZR_le.
    assert (0 < 2 ^ k) by (apply Z.pow_pos_nonneg; lia). nia.
Qed.

Lemma bounds_grow k o st k' : 0 <= k -> grown k o st k' -> k <= k'.
Proof.
  intros K G. destruct o; cbn [grown] in G; try lia; try (destruct G as (? & ? & ? & j & _ & J & _ & ->); lia);
    destruct G as (? & ? & _ & _ & ->); lia.
Qed.

Lemma grows_more cfg p k ops q k' : grows cfg p k ops q k' -> 0 <= k -> k <= k'.
Proof.
  induction 1 as [p k|p o st k k1 p' ops q k2 A G E T IH|p k x p' ops q k1 E T IH]; intros K; [lia| |auto].
  pose proof (bounds_grow _ _ _ _ K G). lia.
Qed.

Lemma all_more k k' p : 0 <= k <= k' -> all_numbers (within k) p -> all_numbers (within k') p.
Proof.
  intros K [V W]. split; [revert V; apply Forall_impl; intros x; apply within_more; auto|].
  intros w E. apply (within_more k); auto.
Qed.

Lemma loaded_within k p e xs r : 15 <= k -> all_numbers (within k) p -> each t2_number e xs -> all_numbers (within k) (loaded p xs r).
Proof.
  intros K [V W] E. split; [|exact W]. apply Forall_app. split; auto. eapply numbers_within; eauto.
Qed.

Lemma grows_within cfg p k ops q k' : grows cfg p k ops q k' -> 15 <= k -> k' < 128 -> all_numbers (within k) p ->
  Forall (fun op => Forall (within k') (snd op)) ops /\ all_numbers (within k') q.
Proof.
  induction 1 as [p k|p o st k k1 p' ops q k2 A G E T IH|p k x p' ops q k1 E T IH]; intros K K' V.
  - split; auto.
  - assert (K1 : k <= k1) by (apply (bounds_grow k o st); auto; lia). assert (K2 : k1 <= k2) by (apply (grows_more _ _ _ _ _ _ T); lia).
    apply IH; auto; try lia. destruct A as (e & xs & r & R & X & ->).
    rewrite (step_code _ _ _ _ _ _ X R) in E.
    destruct (grown_closes k o (stack p ++ xs) k1 ltac:(lia) ltac:(lia) G) as [PQ C].
    exact (execute_keeps _ _ PQ cfg o _ _ (loaded_within _ _ _ _ r K V X) E (fun _ => C)).
  - assert (K2 : k <= k1) by (apply (grows_more _ _ _ _ _ _ T); lia).
    apply step_inv in E as [[_ E]|(e & xs & o & r & X & R & E)]; [discriminate|].
    apply execute_yields in E as Y. destruct Y as (Po & _).
    destruct (execute_keeps (within k) (within k) (fun _ H => H) cfg o _ _ (loaded_within _ _ _ _ r K V X) E) as [V' Vx].
    { intros So. destruct o; discriminate. }
    destruct (IH K K' V') as [I1 I2]. split; auto. constructor; auto.
    revert Vx. apply Forall_impl. intros y. apply within_more. lia.
Qed.

Lemma new_within code g l : all_numbers (within 15) (new_program code g l).
Proof. split; [apply Forall_nil|discriminate]. Qed.

Lemma programs_bounded cfg code g l ops q k : grows cfg (new_program code g l) 15 ops q k -> k < 128 ->
  Forall (fun op => Forall (bounded k) (snd op)) ops /\ Forall (bounded k) (stack q) /\
  (forall w, width q = Some w -> bounded k w).
Proof.
  intros G K. destruct (grows_within _ _ _ _ _ _ G ltac:(lia) K (new_within _ _ _)) as (F & V & W).
  split; [|split].
  - revert F. apply Forall_impl. intros op. apply Forall_impl. intros x []. auto.
  - revert V. apply Forall_impl. intros x []. auto.
  - intros w E. apply W. exact E.
Qed.

(** ** Code without two-byte operators *)

Lemma simple_code o : ~ In x0c (t2_bytes o) -> stack_operator o = false.
Proof. destruct o; cbn; intros N; auto; exfalso; apply N; auto. Qed.

Definition simple (c : list byte) : Prop := ~ In x0c c.

Lemma simple_app a b : simple (a ++ b) -> simple b.
Proof. unfold simple. rewrite in_app_iff. tauto. Qed.

Definition plain (p : program) : Prop :=
  simple (routine p) /\ Forall simple (callers p) /\ Forall simple (global p) /\ Forall simple (local p).

Lemma plain_again cfg p q : plain p -> all_numbers written p -> step cfg p = Ok (Again q) -> plain q /\ all_numbers written q.
Proof.
  intros (Sr & Sc & Sg & Sl) V H. apply step_inv in H as [[_ H]|(e & xs & o & r & E & R & H)]; [discriminate|].
  rewrite R in Sr. assert (So : simple (t2_bytes o)) by (unfold simple in *; rewrite !in_app_iff in Sr; tauto).
  apply simple_app, simple_app in Sr. apply simple_code in So.
  assert (Vl : all_numbers written (loaded p xs r)).
  { destruct V as [V W]. split; [|exact W]. apply Forall_app. split; [exact V|]. clear -E.
    induction E; constructor; auto. eexists; eauto. }
  split.
  - apply execute_again in H as [(So' & _)|[(Oc & H)|(-> & c & cs & Cc & ->)]]; [congruence| |].
    + assert (Q : exists st body, (In body (global p) \/ In body (local p)) /\ q = set_frames (set_stack (loaded p xs r) st) body (r :: callers p)).
      { destruct Oc; subst o; apply call_inv in H as (st & body & I & ->); exists st, body; split; try reflexivity; auto. }
      destruct Q as (st & body & I & ->). rewrite Forall_forall in Sg, Sl.
      repeat split; cbn; auto; try (rewrite Forall_forall; auto). destruct I; auto.
    + change (callers p = c :: cs) in Cc. rewrite Cc in Sc. inversion Sc. repeat split; cbn; auto.
  - refine (execute_keeps written written (fun _ H => H) cfg o _ _ Vl H _). congruence.
Qed.

Lemma plain_emit cfg p x q : plain p -> all_numbers written p -> step cfg p = Ok (Yield (Some x) q) ->
  plain q /\ all_numbers written q /\ Forall written (snd x).
Proof.
  intros (Sr & Sc & Sg & Sl) V H. apply step_inv in H as [[_ H]|(e & xs & o & r & E & R & H)]; [discriminate|].
  rewrite R in Sr. assert (So : simple (t2_bytes o)) by (unfold simple in *; rewrite !in_app_iff in Sr; tauto).
  apply simple_app, simple_app in Sr. apply simple_code in So.
  assert (Vl : all_numbers written (loaded p xs r)).
  { destruct V as [V W]. split; [|exact W]. apply Forall_app. split; [exact V|]. clear -E.
    induction E; constructor; auto. eexists; eauto. }
  destruct (execute_keeps written written (fun _ H => H) cfg o _ _ Vl H ltac:(congruence)) as [V' Vx].
  split; [|split; auto].
  apply execute_yields in H as (_ & _ & sp & _ & _ & _ & Cq & Gq & Lq & M).
  unfold plain. rewrite Cq, Gq, Lq. repeat split; auto. change (routine (loaded p xs r)) with r in M.
  destruct (mask_operator o); [destruct M as [m M]; rewrite M in Sr; exact (simple_app _ _ Sr)|rewrite M; exact Sr].
Qed.

Lemma plain_trace cfg p ops q : trace cfg p ops q -> plain p -> all_numbers written p ->
  Forall (fun op => Forall written (snd op)) ops /\ all_numbers written q.
Proof.
  induction 1 as [p|p p' ops q E T IH|p x p' ops q E T IH]; intros S V; [auto| |].
  - destruct (plain_again _ _ _ S V E). auto.
  - destruct (plain_emit _ _ _ _ S V E) as (S' & V' & Vx). destruct (IH S' V'). auto.
Qed.

Lemma plain_programs cfg code g l ops q :
  ~ In x0c code -> Forall (fun c => ~ In x0c c) g -> Forall (fun c => ~ In x0c c) l ->
  trace cfg (new_program code g l) ops q ->
  Forall (fun op => Forall written (snd op)) ops /\ Forall written (stack q) /\ (forall w, width q = Some w -> written w).
Proof.
  intros C G L T. destruct (plain_trace _ _ _ _ T) as (F & V & W); auto.
  - repeat split; auto. cbn. auto.
  - split; [apply Forall_nil|discriminate].
Qed.

Lemma written_bounded x : written x -> bounded 15 x.
Proof. intros [e E]. apply (number_within e x E). Qed.

(** ** Numbers that are not finite *)

Lemma not_finite cfg :
  (forall code, In code [ [x8c; x8b; x0c; x0c; x16; x0e]; [x8b; x8b; x0c; x0c; x16; x0e]; [x8a; x0c; x1a; x16; x0e];
      [x1c; x7f; xff; x0c; x1b; x0c; x18; x0c; x1b; x0c; x18; x0c; x1b; x0c; x18; x0c; x1b; x0c; x18; x16; x0e] ] ->
    exists fuel x q, run cfg fuel (new_program code [] []) = Ok ([(T2_HMoveTo, [x])], q) /\ ~ finite x) /\
  (exists fuel ops w q, run cfg fuel (new_program [x8c; x8b; x0c; x0c; x90; x16; x0e] [] []) = Ok (ops, q) /\
    width q = Some w /\ ~ finite w).
Proof.
  destruct cfg as [[] [] []]; (split;
  [intros code I; destruct I as [<-|[<-|[<-|[<-|[]]]]]; exists 20%nat; eexists _, _;
      (split; [vm_compute; reflexivity|unfold finite; cbn; discriminate])
  |exists 20%nat; eexists _, _, _; split; [vm_compute; reflexivity|];
    split; [reflexivity|unfold finite; cbn; discriminate]]).
Qed.

Lemma two_large : (1 <= Rabs (value (f32_of_i32 2)) * IZR (2 ^ 0))%R.
Proof.
  assert (E : value (f32_of_i32 2) = 2%R).
  { vm_compute (f32_of_i32 2). unfold value. cbn. unfold Flocq.Core.Defs.F2R. cbn. lra. }
  rewrite E. cbn. rewrite Rabs_pos_eq; lra.
Qed.

(** ExecutionFacts: invariants of executions, ends, panics, termination. *)
From Verif Require Import Base Float T2Operation T2Program BaseFacts SpecProgram T2NumberFacts StepFacts ClearFacts RunFacts
  ListingFacts FloatFacts EvalFacts IntegralFacts StackFacts.
Local Open Scope Z_scope.

(** ** Valid data *)

Lemma numbers_valid e xs : each t2_number e xs -> Forall binary32 xs.
Proof. induction 1 as [|e x es xs (r & _ & B & _) E IH]; constructor; auto. Qed.

Lemma last_error_in l x : last_error l = Some x -> In x l.
Proof. apply nth_error_In. Qed.

Lemma loaded_valid p e xs r : valid_program p -> each t2_number e xs -> valid_program (loaded p xs r).
Proof.
  intros [V W] E. split; [|exact W]. apply Forall_app. split; auto. eapply numbers_valid; eauto.
Qed.

Definition valid_result (s : stepped) : Prop :=
  match s with
  | Again p => valid_program p
  | Yield None p => valid_program p
  | Yield (Some x) p => valid_program p /\ Forall binary32 (snd x)
  end.

Lemma execute_valid cfg o p s : valid_program p -> execute cfg o p = Ok s -> valid_result s.
Proof.
  intros [V W] H. destruct s as [[x|] p'|p'].
  - apply execute_yields in H as (_ & _ & surplus & L & K & Wd & _). destruct L as (E & _).
    rewrite E in V. apply Forall_app in V as [V1 V2]. repeat split; auto.
    + rewrite K. constructor.
    + intros w Hw. rewrite Wd in Hw. unfold width_after in Hw. destruct (width p) eqn:Ew; [apply W; congruence|].
      apply last_error_in in Hw. rewrite Forall_forall in V1. auto.
  - apply execute_none in H as (_ & r & _ & ->). split; [exact V|]. intros w Hw.
    cbn [width set_width set_frames stack] in Hw.
    destruct (vec_pop (stack p)) as [[t st]|] eqn:Ev; [|apply W; auto].
    destruct (width p) eqn:Ew; [apply W; congruence|]. injection Hw as ->.
    apply vec_pop_inv in Ev. rewrite Ev in V. apply Forall_snoc in V. tauto.
  - apply execute_again in H as [(S & st & E & ->)|[(_ & H)|(_ & c & cs & _ & ->)]].
    + split; [|exact W]. eapply effect_valid; eauto.
    + unfold call in H. inv_ok H. destruct a as [a st]. inv_ok H. destruct (_ || _); [discriminate|].
      destruct (nth_error _ _); [|discriminate]. injection H as <-. split; [|exact W].
      eapply pop_i32_valid; eauto.
    + split; auto.
Qed.

Lemma step_valid cfg p s : valid_program p -> step cfg p = Ok s -> valid_result s.
Proof.
  intros V H. apply step_inv in H as [[_ ->]|(e & xs & o & r & E & _ & H)]; [exact V|].
  eapply execute_valid; [|exact H]. eapply loaded_valid; eauto.
Qed.

Lemma trace_valid cfg p ops q : trace cfg p ops q -> valid_program p ->
  valid_program q /\ Forall (fun op => Forall binary32 (snd op)) ops.
Proof.
  induction 1 as [p|p p' ops q S T IH|p x p' ops q S T IH]; intros V.
  - split; auto.
  - apply IH. exact (step_valid _ _ _ V S).
  - destruct (step_valid _ _ _ V S) as [V' Vx]. destruct (IH V'). split; auto.
Qed.

(** ** Possible states *)

Lemma add_u64_range cfg a b n : add_u64 cfg a b = Ok n -> 0 <= n < 2 ^ 64.
Proof.
  unfold add_u64, in_u64. destruct (Z.leb_spec 0 (a + b)), (Z.ltb_spec (a + b) (2 ^ 64)); cbn [andb].
  1: intros H1; injection H1 as <-; lia.
  all: destruct (overflow_checks cfg); [discriminate|]; intros H1; injection H1 as <-; unfold as_u64; apply Z.mod_pos_bound; lia.
Qed.

Lemma execute_possible cfg o p s : possible p -> execute cfg o p = Ok s ->
  possible (match s with Yield _ q => q | Again q => q end).
Proof.
  intros P H. destruct s as [[x|] q|q].
  - pose proof (execute_yields _ _ _ _ _ H) as (Po & _). unfold possible.
    destruct (path_operator o) eqn:Ep.
    { rewrite execute_path in H by auto. apply clear_stems in H as [-> _]. exact P. }
    destruct (stem_operator o) eqn:Es.
    { assert (E : execute cfg o p = (let* n := add_u64 cfg (stems p) (Z.shiftr (Z.of_nat (length (stack p))) 1) in
          clear o (alternatives_of o) (set_stems p n))) by (destruct o; try discriminate; reflexivity).
      rewrite E in H. inv_ok H. apply clear_stems in H as [-> _]. eapply add_u64_range; eauto. }
    destruct (mask_operator o) eqn:Em.
    { assert (E : execute cfg o p = (let* n := add_u64 cfg (stems p) (Z.shiftr (Z.of_nat (length (stack p))) 1) in
        let* m := add_u64 cfg n 7 in
        let* (_, r) := take_vec cfg 1 take_byte (Z.shiftr m 3) (routine p) in
        clear o (alternatives_of o) (set_routine (set_stems p n) r))) by (destruct o; try discriminate; reflexivity).
      rewrite E in H. inv_ok H. inv_ok H. inv_ok H. destruct a1 as [bs r].
      apply clear_stems in H as [-> _]. eapply add_u64_range; eauto. }
    unfold path_or_hint in Po. rewrite Ep, Es, Em in Po. discriminate.
  - apply execute_none in H as (_ & r & _ & ->). exact P.
  - apply execute_again_stems in H. unfold possible in *. lia.
Qed.

Lemma step_possible cfg p s : possible p -> step cfg p = Ok s ->
  possible (match s with Yield _ q => q | Again q => q end).
Proof.
  intros P H. apply step_inv in H as [[_ ->]|(e & xs & o & r & E & _ & H)]; [exact P|].
  eapply execute_possible; [|exact H]. exact P.
Qed.

Lemma trace_possible cfg p ops q : trace cfg p ops q -> possible p -> possible q.
Proof.
  induction 1 as [p|p p' ops q S T IH|p x p' ops q S T IH]; intros P; auto; apply IH; exact (step_possible _ _ _ P S).
Qed.

(** ** endchar *)

Lemma unwind_ok r cs : Forall (fun c => c = []) (removelast (r :: cs)) -> unwind r cs = Ok (last (r :: cs) []).
Proof.
  revert r. induction cs as [|c cs IH]; intros r H; [reflexivity|].
  change (removelast (r :: c :: cs)) with (r :: removelast (c :: cs)) in H. inversion H; subst.
  cbn [unwind done]. rewrite IH by auto. reflexivity.
Qed.

Lemma unwind_err r cs : ~ Forall (fun c => c = []) (removelast (r :: cs)) -> unwind r cs = Err Other.
Proof.
  revert r. induction cs as [|c cs IH]; intros r H; [destruct H; constructor|].
  change (removelast (r :: c :: cs)) with (r :: removelast (c :: cs)) in H. cbn [unwind].
  destruct r; [|reflexivity]. cbn [done]. apply IH. intros K. apply H. constructor; auto.
Qed.

(** ** Panics *)

Definition quiet {A} (m : outcome A) : Prop := match m with Panic _ => False | _ => True end.

Lemma quiet_bind {A B} (m : outcome A) (f : A -> outcome B) : quiet m -> (forall a, m = Ok a -> quiet (f a)) -> quiet (bind m f).
Proof. destruct m; cbn; auto. Qed.

Lemma quiet_pop st : quiet (pop st).
Proof. unfold pop. destruct (vec_pop st) as [[? ?]|]; exact I. Qed.
Lemma quiet_pop_bool st : quiet (pop_bool st).
Proof. unfold pop_bool. destruct (vec_pop st) as [[? ?]|]; exact I. Qed.
Lemma quiet_pop_i32 st : quiet (pop_i32 st).
Proof. unfold pop_i32. destruct (vec_pop st) as [[? ?]|]; [destruct (f32_eqb _ _)|]; exact I. Qed.
Lemma quiet_read i st : 0 <= i -> quiet (read_from_top i st).
Proof.
  intros H. unfold read_from_top. destruct (Z.leb_spec (Z.of_nat (length st)) i); [exact I|].
  destruct (nth_error st _) eqn:E; [exact I|]. apply nth_error_None in E. lia.
Qed.

Lemma up_length k st st' : up k (Ok st) = Ok st' -> length st' = length st.
Proof.
  unfold up. cbn [bind]. intros H. inv_ok H. destruct a as [x l]. apply pop_inv in H0. subst st.
  unfold vec_insert in H. destruct (Nat.leb_spec k (length l)); [|discriminate]. injection H as <-.
  rewrite !app_length. cbn [length]. rewrite skipn_length, firstn_length. lia.
Qed.

Lemma up_quiet k st : (k < length st)%nat -> quiet (up k (Ok st)).
Proof.
  intros L. unfold up. cbn [bind]. apply quiet_bind; [apply quiet_pop|]. intros [x l] H. apply pop_inv in H. subst st.
  rewrite app_length in L. cbn in L. unfold vec_insert. destruct (Nat.leb_spec k (length l)); [exact I|lia].
Qed.

Lemma down_length k st st' : down k (Ok st) = Ok st' -> length st' = length st.
Proof.
  unfold down. cbn [bind]. intros H. inv_ok H. destruct a as [x l]. injection H as <-. unfold vec_remove in H0.
  destruct (nth_error st k) eqn:E; [|discriminate].
  assert (l = firstn k st ++ skipn (S k) st) as -> by congruence.
  assert (k < length st)%nat by (apply nth_error_Some; congruence). unfold push.
  rewrite !app_length. cbn [length]. rewrite skipn_length, firstn_length. lia.
Qed.

Lemma down_quiet k st : (k < length st)%nat -> quiet (down k (Ok st)).
Proof.
  intros L. unfold down. cbn [bind]. apply quiet_bind; [|intros [? ?] _; exact I].
  unfold vec_remove. destruct (nth_error st k) eqn:E; [exact I|]. apply nth_error_None in E. lia.
Qed.

Lemma iter_quiet (f : outcome (list f32) -> outcome (list f32)) k n :
  (forall st, (k < length st)%nat -> quiet (f (Ok st))) ->
  (forall st st', f (Ok st) = Ok st' -> length st' = length st) ->
  (forall e, f (Err e) = Err e) -> (f OutOfFuel = OutOfFuel) ->
  forall st, (k < length st)%nat -> quiet (Z.iter n f (Ok st)).
Proof.
  intros Q L E O st H. destruct (Z.le_gt_cases 0 n) as [N|N].
  - rewrite iter_nat_Z by auto. generalize (Z.to_nat n). intros j.
    enough (G : quiet (Nat.iter j f (Ok st)) /\ forall st', Nat.iter j f (Ok st) = Ok st' -> length st' = length st) by apply G.
    induction j as [|j [Qj Lj]]; [split; [exact I|cbn; congruence]|].
    cbn [Nat.iter nat_rect]. change (nat_rect _ ?a ?g j) with (Nat.iter j f (Ok st)).
    destruct (Nat.iter j f (Ok st)) as [st1|k1|k1|] eqn:E1.
    + specialize (Lj st1 eq_refl). split; [apply Q; lia|]. intros st' E'. apply L in E'. lia.
    + rewrite E. split; [exact I|discriminate].
    + destruct Qj.
    + rewrite O. split; [exact I|discriminate].
  - destruct n; try lia. exact I.
Qed.

(** [roll] panics for one shift only. *)
Lemma roll_panic cfg st k : Forall binary32 st -> roll cfg st = Panic k ->
  k = ArithmeticOverflow /\ overflow_checks cfg = true /\ exists st' n j N, st = st' ++ [n; j] /\
    stands_for n N /\ 0 < N <= Z.of_nat (length st') /\ stands_for j (- 2 ^ 31).
Proof.
  intros V H. unfold roll in H. pose proof (quiet_pop_i32 st) as Q1.
  destruct (pop_i32 st) as [[sh st1]| | |] eqn:E1; cbn [bind] in H; try discriminate; [|destruct Q1].
  pose proof (quiet_pop_i32 st1) as Q2.
  destruct (pop_i32 st1) as [[sp st2]| | |] eqn:E2; cbn [bind] in H; try discriminate; [|destruct Q2].
  destruct (Z.ltb_spec sp 0); [discriminate|]. destruct (Z.ltb_spec (Z.of_nat (length st2)) sp); [discriminate|].
  destruct (Z.ltb_spec 0 sp); [|discriminate].
  assert (Lp : (Z.to_nat (Z.of_nat (length st2) - sp) < length st2)%nat) by lia.
  destruct (Z.compare_spec sh 0) as [->|L|L]; [discriminate| |].
  - unfold neg_i32 in H. destruct (in_i32 (- sh)) eqn:Ei.
    + cbn [bind] in H. exfalso.
      assert (Q : quiet (Z.iter (- sh) (down (Z.to_nat (Z.of_nat (length st2) - sp))) (Ok st2))).
      { apply (iter_quiet _ _ _ (down_quiet _) (down_length _)); auto. }
      unfold down in Q. rewrite H in Q. exact Q.
    + destruct (overflow_checks cfg) eqn:O.
      * injection H as <-. repeat split; auto.
        destruct (stands_for_pop _ _ _ V E1) as (j & -> & Sj). apply Forall_snoc in V as [V _].
        destruct (stands_for_pop _ _ _ V E2) as (n & -> & Sn).
        exists st2, n, j, sp. split; [rewrite <- app_assoc; reflexivity|]. split; auto. split; [lia|].
        pose proof (stands_for_range _ _ Sj) as Rj.
        unfold in_i32 in Ei. destruct (Z.leb_spec (- 2 ^ 31) (- sh)), (Z.ltb_spec (- sh) (2 ^ 31)); try discriminate; try lia.
        replace (- 2 ^ 31) with sh by lia. exact Sj.
      * cbn [bind] in H. exfalso.
        assert (Q : quiet (Z.iter (as_i32 (- sh)) (down (Z.to_nat (Z.of_nat (length st2) - sp))) (Ok st2))).
        { apply (iter_quiet _ _ _ (down_quiet _) (down_length _)); auto. }
        unfold down in Q. rewrite H in Q. exact Q.
  - exfalso.
    assert (Q : quiet (Z.iter sh (up (Z.to_nat (Z.of_nat (length st2) - sp))) (Ok st2))).
    { apply (iter_quiet _ _ _ (up_quiet _) (up_length _)); auto. }
    unfold up in Q. rewrite H in Q. exact Q.
Qed.

Lemma effect_panic cfg o st k : Forall binary32 st -> stack_operator o = true -> effect cfg o st = Panic k ->
  o = T2_Roll /\ roll cfg st = Panic k.
Proof.
  intros V So H. unfold effect in H.
  assert (G : o = T2_Roll \/ quiet (effect cfg o st)).
  { destruct o; try discriminate; auto; right; unfold effect, execute, with_stack; cbn [stack]; unfold unary, binary.
    all: match goal with |- quiet match bind ?m _ with _ => _ end =>
      enough (Q : quiet m) by (destruct m; [exact I|exact I|destruct Q|exact I]) end.
    all: repeat first [exact I | apply quiet_pop | apply quiet_pop_bool | apply quiet_pop_i32
      | apply quiet_read; try destruct (0 <=? _) eqn:?; lia | apply quiet_bind | intros [? ?] _ | intros ? _]. }
  destruct G as [->|Q]; [|unfold effect in Q; rewrite H in Q; destruct Q].
  split; auto. cbn [execute stack] in H. unfold with_stack in H. destruct (roll cfg st); cbn in H; congruence.
Qed.

Lemma clear_quiet o p : path_or_hint o = true -> quiet (clear o (alternatives_of o) p).
Proof.
  intros P. pose proof (alternatives_described o P) as D.
  destruct (clear_cases _ _ p D) as [(surplus & operands & L)|L].
  - rewrite (clear_ok _ _ _ _ _ D L). exact I.
  - rewrite (clear_err _ _ _ D L). exact I.
Qed.

Lemma add_u64_panic cfg a b k : add_u64 cfg a b = Panic k -> 0 <= a -> 0 <= b ->
  k = ArithmeticOverflow /\ overflow_checks cfg = true /\ 2 ^ 64 <= a + b.
Proof.
  unfold add_u64, in_u64. intros H A B. destruct (Z.leb_spec 0 (a + b)), (Z.ltb_spec (a + b) (2 ^ 64)); cbn [andb] in H; try lia.
  - discriminate.
  - destruct (overflow_checks cfg); [|discriminate]. injection H as <-. auto.
Qed.

Lemma execute_panic cfg o p k : valid_program p -> possible p ->
  Z.of_nat (length (local p)) < 2 ^ 31 -> Z.of_nat (length (global p)) < 2 ^ 31 ->
  execute cfg o p = Panic k -> k = ArithmeticOverflow /\ overflow_checks cfg = true /\ extreme o p.
Proof.
  intros [V _] [P0 P1] Ll Lg H. pose proof (declared_nonneg o (length (stack p))) as Dn.
  destruct (stack_operator o) eqn:So.
  { rewrite execute_stack in H by auto. unfold with_stack in H.
    destruct (effect cfg o (stack p)) as [| |k'|] eqn:E; cbn in H; try discriminate. injection H as <-.
    apply effect_panic in E as [-> E]; auto. apply roll_panic in E; auto. }
  destruct (path_operator o) eqn:Ep.
  { exfalso. rewrite execute_path in H by auto. pose proof (clear_quiet o p (path_is _ Ep)) as Q. rewrite H in Q. exact Q. }
  destruct (stem_operator o) eqn:Es.
  { assert (E : execute cfg o p = (let* n := add_u64 cfg (stems p) (Z.shiftr (Z.of_nat (length (stack p))) 1) in
        clear o (alternatives_of o) (set_stems p n))) by (destruct o; try discriminate; reflexivity).
    rewrite E, (declared_pairs o) in H by auto.
    destruct (add_u64 cfg (stems p) (declared o (length (stack p)))) as [n| |k'|] eqn:A; cbn [bind] in H; try discriminate.
    - exfalso. pose proof (clear_quiet o (set_stems p n) (stem_is _ Es)) as Q. rewrite H in Q. exact Q.
    - injection H as <-. apply add_u64_panic in A as (-> & O & L); auto. repeat split; auto.
      destruct o; try discriminate; cbn [extreme]; left; auto. }
  destruct (mask_operator o) eqn:Em.
  { assert (E : execute cfg o p = (let* n := add_u64 cfg (stems p) (Z.shiftr (Z.of_nat (length (stack p))) 1) in
      let* m := add_u64 cfg n 7 in
      let* (_, r) := take_vec cfg 1 take_byte (Z.shiftr m 3) (routine p) in
      clear o (alternatives_of o) (set_routine (set_stems p n) r))) by (destruct o; try discriminate; reflexivity).
    rewrite E, (declared_pairs o) in H by auto.
    assert (X : 2 ^ 64 <= stems p + declared o (length (stack p)) + 7 -> extreme o p).
    { intros X. destruct o; try discriminate; cbn [extreme]; auto. }
    destruct (add_u64 cfg (stems p) (declared o (length (stack p)))) as [n| |k'|] eqn:A; cbn [bind] in H; try discriminate.
    2: { injection H as <-. apply add_u64_panic in A as (-> & O & L); auto. repeat split; auto. apply X. lia. }
    pose proof (add_u64_range _ _ _ _ A) as Rn.
    destruct (add_u64 cfg n 7) as [m| |k'|] eqn:B; cbn [bind] in H; try discriminate.
    2: { injection H as <-. apply add_u64_panic in B as (-> & O & L); try lia. repeat split; auto. apply X.
         unfold add_u64 in A. rewrite O in A. destruct (in_u64 _); [|discriminate]. injection A as <-. lia. }
    exfalso. pose proof (add_u64_range _ _ _ _ B) as Rm.
    rewrite take_vec_byte in H.
    - destruct (_ <=? _); cbn [bind] in H; [|discriminate].
      match type of H with clear _ _ ?q = _ => pose proof (clear_quiet o q (mask_is _ Em)) as Q end.
      rewrite H in Q. exact Q.
    - apply Z.shiftr_nonneg. lia.
    - rewrite Z.shiftr_div_pow2 by lia. change (2 ^ 3) with 8. unfold isize_max.
      apply Z.le_trans with (2 ^ 64 / 8); [apply Z.div_le_mono; lia|]. vm_compute. discriminate. }
  assert (C : forall subs, call cfg subs p = Panic k -> Z.of_nat (length subs) < 2 ^ 31 ->
    k = ArithmeticOverflow /\ overflow_checks cfg = true /\
    exists st a v b, stack p = st ++ [a] /\ stands_for a v /\ biased (Z.of_nat (length subs)) b /\ 2 ^ 31 <= v + b).
  { intros subs Hc L. destruct (stack p) as [|a st _] eqn:K using rev_ind.
    { rewrite call_empty in Hc by auto. discriminate. }
    assert (Ba : binary32 a) by (apply Forall_snoc in V; tauto).
    assert (N : forall v, integral a v -> ~ 0 <= v + bias (Z.of_nat (length subs)) < Z.of_nat (length subs)).
    { intros v Iv R. destruct (nth_error subs (Z.to_nat (v + bias (Z.of_nat (length subs))))) as [c|] eqn:En.
      - rewrite (call_ok cfg subs p st a v c) in Hc by (auto; lia). discriminate.
      - apply nth_error_None in En. lia. }
    destruct (call_other cfg subs p st a K Ba L N) as [E|(E & O & v & Iv & Lv)]; [congruence|].
    rewrite E in Hc. injection Hc as <-. repeat split; auto. exists st, a, v, (bias (Z.of_nat (length subs))).
    repeat split; auto. apply bias_biased. }
  destruct o; try discriminate; cbn [execute] in H.
  - destruct (call cfg (local p) p) as [| |k'|] eqn:E; cbn in H; try discriminate. injection H as ->. apply C in E; auto.
  - destruct (callers p); discriminate.
  - exfalso. destruct (unwind (routine p) (callers p)) eqn:E; cbn in H; try discriminate.
    destruct (Forall_dec (fun c => c = @nil byte) ltac:(intros [|? ?]; [left; auto|right; discriminate]) (removelast (routine p :: callers p))) as [F|F].
    + rewrite (unwind_ok _ _ F) in E. discriminate.
    + rewrite (unwind_err _ _ F) in E. discriminate.
  - destruct (call cfg (global p) p) as [| |k'|] eqn:E; cbn in H; try discriminate. injection H as ->. apply C in E; auto.
Qed.

Lemma add_u64_over cfg a b : overflow_checks cfg = true -> 2 ^ 64 <= a + b -> add_u64 cfg a b = Panic ArithmeticOverflow.
Proof.
  intros O H. unfold add_u64, in_u64. rewrite O. destruct (Z.ltb_spec (a + b) (2 ^ 64)); [lia|].
  rewrite andb_false_r. reflexivity.
Qed.

Lemma roll_least cfg st n j N : stands_for n N -> 0 < N <= Z.of_nat (length st) -> stands_for j (- 2 ^ 31) ->
  roll cfg (st ++ [n; j]) = if overflow_checks cfg then Panic ArithmeticOverflow else Ok st.
Proof.
  intros Sn L Sj. unfold roll. rewrite push_two, (pop_stands_for _ _ _ Sj). cbn [bind].
  rewrite (pop_stands_for _ _ _ Sn). cbn [bind].
  destruct (Z.ltb_spec N 0); [lia|]. destruct (Z.ltb_spec (Z.of_nat (length st)) N); [lia|].
  destruct (Z.ltb_spec 0 N); [|lia]. change (- 2 ^ 31 ?= 0) with Lt. cbn [bind]. unfold neg_i32.
  change (in_i32 (- - 2 ^ 31)) with false. destruct (overflow_checks cfg); reflexivity.
Qed.

Lemma execute_extreme cfg o p : Z.of_nat (length (local p)) < 2 ^ 31 -> Z.of_nat (length (global p)) < 2 ^ 31 ->
  overflow_checks cfg = true -> extreme o p -> execute cfg o p = Panic ArithmeticOverflow.
Proof.
  intros Ll Lg O X.
  destruct (stem_operator o) eqn:Es.
  { assert (L : 2 ^ 64 <= stems p + declared o (length (stack p))).
    { destruct o; try discriminate; destruct X as [[_ X]|[X _]]; try discriminate; auto. }
    assert (E : execute cfg o p = (let* n := add_u64 cfg (stems p) (Z.shiftr (Z.of_nat (length (stack p))) 1) in
        clear o (alternatives_of o) (set_stems p n))) by (destruct o; try discriminate; reflexivity).
    rewrite E, (declared_pairs o), add_u64_over by auto. reflexivity. }
  destruct (mask_operator o) eqn:Em.
  { assert (L : 2 ^ 64 <= stems p + declared o (length (stack p)) + 7).
    { destruct o; try discriminate; destruct X as [[X _]|[_ X]]; try discriminate; auto. }
    assert (E : execute cfg o p = (let* n := add_u64 cfg (stems p) (Z.shiftr (Z.of_nat (length (stack p))) 1) in
      let* m := add_u64 cfg n 7 in
      let* (_, r) := take_vec cfg 1 take_byte (Z.shiftr m 3) (routine p) in
      clear o (alternatives_of o) (set_routine (set_stems p n) r))) by (destruct o; try discriminate; reflexivity).
    rewrite E, (declared_pairs o) by auto.
    destruct (add_u64 cfg (stems p) (declared o (length (stack p)))) as [n|k|k|] eqn:A; unfold add_u64 in A; rewrite O in A;
      destruct (in_u64 _); try discriminate; try (injection A as <-; cbn [bind]).
    - rewrite add_u64_over by auto. reflexivity.
    - reflexivity. }
  destruct o; try discriminate; cbn [extreme] in X; try (destruct X as [[X _]|[X _]]; discriminate); cbn [execute].
  all: try (destruct X as (st & n & j & N & K & Sn & L & Sj); rewrite K, (roll_least cfg _ _ _ _ Sn L Sj), O; reflexivity).
  all: destruct X as (st & a & v & b & K & Sa & B & L); apply biased_bias in B; subst b.
  - rewrite (call_overflow cfg _ _ _ _ _ K Sa Ll L), O. reflexivity.
  - rewrite (call_overflow cfg _ _ _ _ _ K Sa Lg L), O. reflexivity.
Qed.

Lemma execute_subs cfg o p s : execute cfg o p = Ok s ->
  let q := match s with Yield _ q => q | Again q => q end in global q = global p /\ local q = local p.
Proof.
  intros H. destruct s as [[x|] q|q]; cbn zeta.
  - apply execute_yields in H as (_ & _ & surplus & _ & _ & _ & _ & -> & -> & _). auto.
  - apply execute_none in H as (_ & r & _ & ->). auto.
  - apply execute_again in H as [(_ & st & _ & ->)|[(_ & H)|(_ & c & cs & _ & ->)]]; auto.
    apply call_inv in H as (st & code & _ & ->). auto.
Qed.

Lemma step_subs cfg p s : step cfg p = Ok s ->
  let q := match s with Yield _ q => q | Again q => q end in global q = global p /\ local q = local p.
Proof.
  intros H. apply step_inv in H as [[_ ->]|(e & xs & o & r & E & _ & H)]; [auto|]. apply execute_subs in H. exact H.
Qed.

Lemma trace_subs cfg p ops q : trace cfg p ops q -> global q = global p /\ local q = local p.
Proof.
  induction 1 as [p|p p' ops q H T [IH1 IH2]|p x p' ops q H T [IH1 IH2]]; auto;
    apply step_subs in H; cbn in H; destruct H; split; congruence.
Qed.

Lemma step_panic cfg p k : valid_program p -> possible p ->
  Z.of_nat (length (local p)) < 2 ^ 31 -> Z.of_nat (length (global p)) < 2 ^ 31 ->
  (step cfg p = Panic k <-> k = ArithmeticOverflow /\ overflow_checks cfg = true /\
   exists e xs o r, routine p = e ++ t2_bytes o ++ r /\ each t2_number e xs /\ extreme o (loaded p xs r)).
Proof.
  intros V P Ll Lg. split.
  - intros H. destruct (step_cases cfg p) as [E|[(e & xs & o & r & X & E)|(k' & E)]].
    + rewrite step_empty in H by auto. discriminate.
    + rewrite (step_code _ _ _ _ _ _ X E) in H.
      apply execute_panic in H as (-> & O & Ex); auto; [|eapply loaded_valid; eauto]. repeat split; auto.
      exists e, xs, o, r. auto.
    + congruence.
  - intros (-> & O & e & xs & o & r & R & E & X). rewrite (step_code _ _ _ _ _ _ E R). apply execute_extreme; auto.
Qed.

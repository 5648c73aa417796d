(** DeepFacts: more operands below those on the stack. *)
From Coq Require Import Lia Arith.
From Verif Require Import Base Float T2Number T2Operation T2Program BaseFacts SpecProgram SpecDeep StepFacts ClearFacts
  EvalFacts RunFacts StackFacts ProgramFacts RewriteFacts WidthFacts.
Local Open Scope list_scope.
Local Open Scope Z_scope.

Section Deep.
Variable d : list f32.

Lemma vec_pop_deep {A} (b st st' : list A) x : vec_pop st = Some (x, st') -> vec_pop (b ++ st) = Some (x, b ++ st').
Proof.
  destruct (exists_last_or st) as [->|(s & y & ->)]; [discriminate|].
  rewrite app_assoc, !vec_pop_app. intros E. injection E as -> ->. reflexivity.
Qed.

Lemma pop_deep st x st' : pop st = Ok (x, st') -> pop (d ++ st) = Ok (x, d ++ st').
Proof.
  unfold pop. destruct (vec_pop st) as [[y s]|] eqn:E; [|discriminate]. intros H. injection H as -> ->.
  rewrite (vec_pop_deep _ _ _ _ E). reflexivity.
Qed.

Lemma pop_bool_deep st x st' : pop_bool st = Ok (x, st') -> pop_bool (d ++ st) = Ok (x, d ++ st').
Proof.
  unfold pop_bool. destruct (vec_pop st) as [[y s]|] eqn:E; [|discriminate]. intros H. injection H as <- ->.
  rewrite (vec_pop_deep _ _ _ _ E). reflexivity.
Qed.

Lemma pop_i32_deep st x st' : pop_i32 st = Ok (x, st') -> pop_i32 (d ++ st) = Ok (x, d ++ st').
Proof.
  unfold pop_i32. destruct (vec_pop st) as [[y s]|] eqn:E; [|discriminate].
  rewrite (vec_pop_deep _ _ _ _ E). destruct (f32_eqb _ _); [|discriminate]. intros H. injection H as <- ->. reflexivity.
Qed.

Lemma read_deep i st x : 0 <= i -> read_from_top i st = Ok x -> read_from_top i (d ++ st) = Ok x.
Proof.
  intros N. unfold read_from_top. rewrite app_length.
  destruct (Z.leb_spec (Z.of_nat (length st)) i) as [L|L]; [discriminate|].
  destruct (Z.leb_spec (Z.of_nat (length d + length st)) i) as [L'|L']; [lia|].
  rewrite nth_error_app2 by lia.
  replace (Z.to_nat (Z.of_nat (length d + length st) - 1 - i) - length d)%nat
    with (Z.to_nat (Z.of_nat (length st) - 1 - i)) by lia.
  auto.
Qed.

Lemma insert_deep {A} (b l l' : list A) n x : vec_insert n x l = Ok l' -> vec_insert (length b + n) x (b ++ l) = Ok (b ++ l').
Proof.
  unfold vec_insert. rewrite app_length. destruct (Nat.leb_spec n (length l)); [|discriminate]. intros E. injection E as <-.
  destruct (Nat.leb_spec (length b + n) (length b + length l)); [|lia].
  rewrite firstn_app_2, skipn_app, skipn_all2 by lia. replace (length b + n - length b)%nat with n by lia.
  rewrite <- app_assoc. reflexivity.
Qed.

Lemma remove_deep {A} (b l l' : list A) n x : vec_remove n l = Ok (x, l') -> vec_remove (length b + n) (b ++ l) = Ok (x, b ++ l').
Proof.
  unfold vec_remove. rewrite nth_error_app2 by lia. replace (length b + n - length b)%nat with n by lia.
  destruct (nth_error l n) as [y|] eqn:E; [|discriminate]. intros H. injection H as -> <-.
  rewrite firstn_app_2, skipn_app, skipn_all2 by lia. replace (S (length b + n) - length b)%nat with (S n) by lia.
  rewrite <- app_assoc. reflexivity.
Qed.

Lemma iter_deep (f g : outcome (list f32) -> outcome (list f32)) :
  (forall m s, f m = Ok s -> exists t, m = Ok t) ->
  (forall t s, f (Ok t) = Ok s -> g (Ok (d ++ t)) = Ok (d ++ s)) ->
  forall n t s, Z.iter n f (Ok t) = Ok s -> Z.iter n g (Ok (d ++ t)) = Ok (d ++ s).
Proof.
  intros I F n t s. destruct (Z.leb_spec 0 n) as [N|N].
  2: { destruct n; [lia|lia|]. cbn [Z.iter]. intros H. injection H as ->. reflexivity. }
  rewrite !iter_nat_Z by auto. generalize (Z.to_nat n). intros k. revert s.
  induction k as [|k IH]; intros s H; cbn [Nat.iter nat_rect] in *; [injection H as ->; reflexivity|].
  destruct (I _ _ H) as (u & E). 
  change (nat_rect (fun _ => outcome (list f32)) (Ok t) (fun _ => f) k) with (Nat.iter k f (Ok t)) in *.
  change (nat_rect (fun _ => outcome (list f32)) (Ok (d ++ t)) (fun _ => g) k) with (Nat.iter k g (Ok (d ++ t))) in *.
  rewrite E in H. rewrite (IH _ E). apply F. exact H.
Qed.

Lemma roll_deep cfg st st' : roll cfg st = Ok st' -> roll cfg (d ++ st) = Ok (d ++ st').
Proof.
  unfold roll. intros H. inv_ok H. destruct a as [shift s1]. inv_ok H. destruct a as [span s2].
  rewrite (pop_i32_deep _ _ _ H0). cbn [bind]. rewrite (pop_i32_deep _ _ _ H1). cbn [bind].
  destruct (span <? 0) eqn:S0; [discriminate|].
  destruct (Z.ltb_spec (Z.of_nat (length s2)) span) as [L|L]; [discriminate|].
  rewrite app_length. destruct (Z.ltb_spec (Z.of_nat (length d + length s2)) span) as [L'|L']; [lia|].
  destruct (0 <? span) eqn:S1; [|injection H as ->; reflexivity].
  apply Z.ltb_ge in S0.
  replace (Z.to_nat (Z.of_nat (length d + length s2) - span)) with (length d + Z.to_nat (Z.of_nat (length s2) - span))%nat by lia.
  destruct (Z.compare_spec shift 0) as [E|E|E].
  - injection H as ->. reflexivity.
  - inv_ok H. rewrite H2. cbn [bind].
    revert H. apply iter_deep.
    + intros m s Hm. destruct m; try discriminate. eauto.
    + intros t s Hm. cbn [bind] in *. inv_ok Hm. destruct a0 as [x u]. rewrite (remove_deep _ _ _ _ _ H). cbn [bind].
      injection Hm as <-. unfold push. rewrite app_assoc. reflexivity.
  - revert H. apply iter_deep.
    + intros m s Hm. destruct m; try discriminate. eauto.
    + intros t s Hm. cbn [bind] in *. inv_ok Hm. destruct a as [x u]. rewrite (pop_deep _ _ _ H). cbn [bind].
      apply insert_deep. exact Hm.
Qed.

Lemma effect_deep cfg o st st' : stack_operator o = true -> effect cfg o st = Ok st' -> effect cfg o (d ++ st) = Ok (d ++ st').
Proof.
  intros S. unfold effect.
  destruct o; try discriminate; cbn [execute stack]; unfold with_stack, unary, binary;
    repeat match goal with
    | |- ?P -> _ =>
        match P with
        | context [pop ?s] =>
            let E := fresh "E" in destruct (pop s) as [[? ?]|?|?|] eqn:E; cbn [bind];
            [rewrite (pop_deep _ _ _ E); cbn [bind] | discriminate ..]
        | context [pop_bool ?s] =>
            let E := fresh "E" in destruct (pop_bool s) as [[? ?]|?|?|] eqn:E; cbn [bind];
            [rewrite (pop_bool_deep _ _ _ E); cbn [bind] | discriminate ..]
        | context [pop_i32 ?s] =>
            let E := fresh "E" in destruct (pop_i32 s) as [[? ?]|?|?|] eqn:E; cbn [bind];
            [rewrite (pop_i32_deep _ _ _ E); cbn [bind] | discriminate ..]
        | context [read_from_top ?i ?s] =>
            let E := fresh "E" in destruct (read_from_top i s) eqn:E; cbn [bind]; [|discriminate ..];
            let L := fresh "L" in assert (L : 0 <= i) by (try lia; match goal with |- context [if ?b then _ else _] => destruct b eqn:?; lia end);
            rewrite (read_deep _ _ _ L E); cbn [bind]
        | context [roll cfg ?s] =>
            let E := fresh "E" in destruct (roll cfg s) eqn:E; cbn [bind]; [|discriminate ..];
            rewrite (roll_deep _ _ _ E); cbn [bind]
        end
    end; cbn [bind stack set_stack]; unfold push_bool, push; intros H; injection H as <-; rewrite <- ?app_assoc; reflexivity.
Qed.

Lemma call_deep cfg subs p p' : call cfg subs p = Ok p' -> call cfg subs (deepened d p) = Ok (deepened d p').
Proof.
  unfold call. intros H. inv_ok H. destruct a as [a st]. inv_ok H. cbn [stack deepened set_stack].
  rewrite (pop_i32_deep _ _ _ H0). cbn [bind]. rewrite H1. cbn [bind].
  destruct ((a0 <? 0) || _); [discriminate|]. destruct (nth_error subs _); [|discriminate].
  injection H as <-. reflexivity.
Qed.

Lemma execute_deep cfg o p p' : execute cfg o p = Ok (Again p') -> execute cfg o (deepened d p) = Ok (Again (deepened d p')).
Proof.
  intros H. apply execute_again in H as [(S & st & E & ->)|[(O & H)|(-> & c & cs & E & ->)]].
  - rewrite execute_stack by auto. cbn [stack deepened set_stack]. rewrite (effect_deep _ _ _ _ S E). reflexivity.
  - apply call_deep in H. destruct O as [-> | ->]; cbn [execute deepened set_stack local global] in *; unfold deepened in *; rewrite H; reflexivity.
  - cbn [execute deepened set_stack callers]. rewrite E. reflexivity.
Qed.

Lemma step_deep cfg p p' : step cfg p = Ok (Again p') -> step cfg (deepened d p) = Ok (Again (deepened d p')).
Proof.
  intros H. apply step_inv in H as [[_ H]|(e & xs & o & r & E & R & H)]; [discriminate|].
  rewrite (step_code cfg (deepened d p) e xs o r E R). apply execute_deep in H. rewrite <- H. f_equal.
  unfold deepened, loaded, set_stack, set_routine. cbn. rewrite app_assoc. reflexivity.
Qed.

Lemma trace_deep cfg p q : trace cfg p [] q -> trace cfg (deepened d p) [] (deepened d q).
Proof.
  intros T. remember [] as ops eqn:E. induction T as [p|p p' ops q S T IH|]; [constructor| |discriminate].
  eapply trace_again; [apply step_deep; exact S|auto].
Qed.
End Deep.

(** ** The width does not matter *)

Section Wide.
Variables (cfg : config) (w : f32).

Definition wide (p : program) : program := set_width p (Some w).
Definition wide_step (s : stepped) : stepped :=
  match s with Yield x q => Yield x (wide q) | Again q => Again (wide q) end.
Definition wide_outcome (m : outcome stepped) : outcome stepped :=
  match m with Ok s => Ok (wide_step s) | Err k => Err k | Panic k => Panic k | OutOfFuel => OutOfFuel end.

Lemma clear_wide o p : path_or_hint o = true ->
  clear o (alternatives_of o) (wide p) = wide_outcome (clear o (alternatives_of o) p).
Proof.
  intros P. pose proof (alternatives_described o P) as D.
  destruct (clear_cases _ _ p D) as [(surplus & operands & L)|L].
  - rewrite (clear_ok _ _ p _ _ D L), (clear_ok _ _ (wide p) _ _ D L). reflexivity.
  - rewrite (clear_err _ _ p D L), (clear_err _ _ (wide p) D L). reflexivity.
Qed.

Lemma execute_wide o p : execute cfg o (wide p) = wide_outcome (execute cfg o p).
Proof.
  destruct (stack_operator o) eqn:S.
  { rewrite !execute_stack by auto. unfold wide. cbn [stack set_width]. destruct (effect cfg o (stack p)); reflexivity. }
  destruct (path_operator o) eqn:P.
  { rewrite !execute_path by auto. apply clear_wide, path_is, P. }
  destruct (stem_operator o) eqn:St.
  { assert (E : forall p, execute cfg o p = (let* n := add_u64 cfg (stems p) (Z.shiftr (Z.of_nat (length (stack p))) 1) in
        clear o (alternatives_of o) (set_stems p n))) by (destruct o; try discriminate; reflexivity).
    rewrite !E. unfold wide at 1 2. cbn [stack stems set_width].
    destruct (add_u64 _ _ _); try reflexivity. cbn [bind]. rewrite <- clear_wide by (apply stem_is, St). reflexivity. }
  destruct (mask_operator o) eqn:M.
  { assert (E : forall p, execute cfg o p = (let* n := add_u64 cfg (stems p) (Z.shiftr (Z.of_nat (length (stack p))) 1) in
        let* m := add_u64 cfg n 7 in
        let* (_, r) := take_vec cfg 1 take_byte (Z.shiftr m 3) (routine p) in
        clear o (alternatives_of o) (set_routine (set_stems p n) r))) by (destruct o; try discriminate; reflexivity).
    rewrite !E. unfold wide at 1 2 3. cbn [stack stems set_width routine].
    destruct (add_u64 _ _ _); try reflexivity. cbn [bind]. destruct (add_u64 _ _ _); try reflexivity. cbn [bind].
    destruct (take_vec _ _ _ _ _) as [[? ?]| | |]; try reflexivity. cbn [bind].
    rewrite <- clear_wide by (unfold path_or_hint; rewrite M, Bool.orb_true_r; reflexivity). reflexivity. }
  destruct o; try discriminate; unfold wide; cbn [execute set_width callers routine local global];
    try reflexivity.
  all: try (destruct (callers p); reflexivity).
  all: try (destruct (unwind _ _); try reflexivity; cbn [bind stack set_frames set_width width];
            destruct (vec_pop _) as [[? ?]|]; reflexivity).
  all: unfold call; cbn [stack]; destruct (pop_i32 _) as [[? ?]| | |]; try reflexivity; cbn [bind];
    destruct (add_i32 _ _ _); try reflexivity; cbn [bind]; destruct (_ || _); [reflexivity|];
    destruct (nth_error _ _); reflexivity.
Qed.

Lemma step_wide p : step cfg (wide p) = wide_outcome (step cfg p).
Proof.
  unfold step. unfold wide at 1 2 3 4. cbn [routine stack set_width].
  destruct (done (routine p)); [reflexivity|].
  destruct (push_operands _ _ _) as [[[st c] r]| | |]; try reflexivity. cbn [bind].
  destruct (read_t2_operator c r) as [[o r']| | |]; try reflexivity. cbn [bind].
  rewrite <- execute_wide. reflexivity.
Qed.

Definition wide_halt (h h' : halt) : Prop :=
  match h, h' with
  | Pending, Pending => True
  | Ended q, Ended q' => width q' = Some w
  | Raised k, Raised k' => k = k'
  | Panicked k, Panicked k' => k = k'
  | _, _ => False
  end.

(** The same except for the width, or both at the end. *)
Definition wider (m m' : outcome stepped) : Prop :=
  m' = wide_outcome m \/
  exists q q', m = Ok (Yield None q) /\ m' = Ok (Yield None q') /\ width q' = Some w.

Lemma wider_wide p : wider (step cfg p) (step cfg (wide p)).
Proof. left. apply step_wide. Qed.

Lemma goes_wide n p p' ops h : wider (step cfg p) (step cfg p') -> goes cfg n p ops h ->
  exists h', goes cfg n p' ops h' /\ wide_halt h h'.
Proof.
  intros E G. revert p' E.
  induction G as [n p|n p q H|n p k H|n p k H|n p q ops h H G IH|n p x q ops h H G IH]; intros p' E;
    [exists Pending; split; [constructor|exact I]| ..];
    rewrite H in E; (destruct E as [E|(q1 & q2 & E1 & E2 & W)]; [|try discriminate]).
  - exists (Ended (wide q)). split; [|reflexivity]. apply goes_ended. exact E.
  - exists (Ended q2). split; auto. apply goes_ended. exact E2.
  - exists (Raised k). split; [|reflexivity]. apply goes_raised. exact E.
  - exists (Panicked k). split; [|reflexivity]. apply goes_panicked. exact E.
  - destruct (IH _ (wider_wide q)) as (h' & G' & W). exists h'. split; auto. eapply goes_again; eauto.
  - destruct (IH _ (wider_wide q)) as (h' & G' & W). exists h'. split; auto. eapply goes_emit; eauto.
Qed.

Lemma goes_narrow n p p' ops h' : wider (step cfg p) (step cfg p') -> goes cfg n p' ops h' ->
  exists h, goes cfg n p ops h /\ wide_halt h h'.
Proof.
  intros E G. revert p E.
  induction G as [n p'|n p' q H|n p' k H|n p' k H|n p' q ops h H G IH|n p' x q ops h H G IH]; intros p E;
    [exists Pending; split; [constructor|exact I]| ..];
    rewrite H in E; (destruct E as [E|(q1 & q2 & E1 & E2 & W)]; [|try discriminate]);
    try (destruct (step cfg p) as [[y q0|q0]|k0|k0|] eqn:Es; try discriminate; cbn in E).
  - injection E as <- ->. exists (Ended q0). split; [apply goes_ended; auto|reflexivity].
  - injection E2 as <-. exists (Ended q1). split; auto. apply goes_ended. exact E1.
  - injection E as ->. exists (Raised k0). split; [apply goes_raised; auto|reflexivity].
  - injection E as ->. exists (Panicked k0). split; [apply goes_panicked; auto|reflexivity].
  - injection E as ->. destruct (IH _ (wider_wide q0)) as (h0 & G' & W). exists h0. split; auto. eapply goes_again; eauto.
  - injection E as <- ->. destruct (IH _ (wider_wide q0)) as (h0 & G' & W). exists h0. split; auto. eapply goes_emit; eauto.
Qed.

(** A silent beginning. *)
Lemma goes_after p q n ops h : trace cfg p [] q -> goes cfg n p ops h ->
  (ops = [] /\ h = Pending) \/ exists m, goes cfg m q ops h.
Proof.
  intros T. remember [] as none eqn:E0. revert n. induction T as [p|p p' none q S T IH|]; intros n G; [eauto| |discriminate].
  inversion G; subst; try congruence; auto.
  match goal with H : step cfg p = Ok (Again ?a), G' : goes _ _ ?a _ _ |- _ => rewrite S in H; injection H as <-; eauto end.
Qed.

(** ** The width in front *)

Lemma clears_wide o st : may_have_width o = true -> left_over o st [] -> forall p, stack p = st -> width p = None ->
  wider (execute cfg o p) (execute cfg o (deepened [w] p)).
Proof.
  intros M [[-> E]|[N (x & E & L & B)]] p Ep W.
  - subst st. unfold deepened. cbn [execute set_stack routine callers]. rewrite Ep.
    destruct (unwind _ _); try (left; reflexivity). right. do 2 eexists. repeat split. cbn. rewrite W. reflexivity.
  - cbn [app] in E. subst x.
    assert (P : path_or_hint o = true) by (destruct o; try discriminate; try reflexivity; congruence).
    assert (L1 : longest o st [] st) by (split; [reflexivity|split; auto]).
    assert (L2 : longest o (w :: st) [w] st).
    { split; [reflexivity|]. split; auto. intros m Lm Le. destruct (Nat.eq_dec m (S (length st))) as [-> |Ne].
      - exfalso. clear - M L Lm. destruct o; try discriminate; cbn [legal_count] in *; try lia;
          destruct L as [k Lk]; destruct Lm as [k' Lk']; lia.
      - apply B; auto. cbn [length] in Le. lia. }
    assert (H : Z.shiftr (Z.of_nat (length (w :: st))) 1 = Z.shiftr (Z.of_nat (length st)) 1 \/ path_operator o = true).
    { destruct (path_operator o) eqn:Po; auto. left. rewrite !Z.shiftr_div_pow2 by lia. cbn [length].
      change (2 ^ 1) with 2. rewrite Nat2Z.inj_succ.
      assert (Ev : exists k, Z.of_nat (length st) = 2 * k).
      { destruct o; try discriminate; cbn [legal_count] in L;
          try (exists 0; lia); destruct L as [k ->]; exists (1 + Z.of_nat k); lia. }
      destruct Ev as [k ->]. replace (Z.succ (2 * k)) with (1 + k * 2) by lia. rewrite Z.div_add by lia.
      rewrite (Z.mul_comm 2 k), Z.div_mul by lia. reflexivity. }
    pose proof (alternatives_described o P) as D.
    assert (C : forall q q', stack q = w :: st -> stack q' = st -> width q = None -> width q' = None ->
      set_stack q [] = set_stack q' [] ->
      clear o (alternatives_of o) q = wide_outcome (clear o (alternatives_of o) q')).
    { intros q q' Sq Sq' Wq Wq' Eq. rewrite (clear_ok _ _ q [w] st D) by (rewrite Sq; auto).
      rewrite (clear_ok _ _ q' [] st D) by (rewrite Sq'; auto). rewrite Wq, Wq', Eq. reflexivity. }
    left. destruct (path_operator o) eqn:Po.
    { rewrite !execute_path by auto. apply C; auto. unfold deepened. cbn. rewrite Ep. reflexivity. }
    destruct H as [H|H]; [|discriminate].
    destruct (stem_operator o) eqn:St.
    { assert (Ex : forall p, execute cfg o p = (let* n := add_u64 cfg (stems p) (Z.shiftr (Z.of_nat (length (stack p))) 1) in
        clear o (alternatives_of o) (set_stems p n))) by (destruct o; try discriminate; reflexivity).
      rewrite !Ex. unfold deepened. cbn [stack set_stack stems app]. rewrite Ep, H.
      destruct (add_u64 _ _ _); try reflexivity. cbn [bind]. apply C; auto. }
    destruct (mask_operator o) eqn:Mo.
    { assert (Ex : forall p, execute cfg o p = (let* n := add_u64 cfg (stems p) (Z.shiftr (Z.of_nat (length (stack p))) 1) in
        let* m := add_u64 cfg n 7 in
        let* (_, r) := take_vec cfg 1 take_byte (Z.shiftr m 3) (routine p) in
        clear o (alternatives_of o) (set_routine (set_stems p n) r))) by (destruct o; try discriminate; reflexivity).
      rewrite !Ex. unfold deepened. cbn [stack set_stack stems app routine]. rewrite Ep, H.
      destruct (add_u64 _ _ _); try reflexivity. cbn [bind]. destruct (add_u64 _ _ _); try reflexivity. cbn [bind].
      destruct (take_vec _ _ _ _ _) as [[? ?]| | |]; try reflexivity. cbn [bind]. apply C; auto. }
    destruct o; discriminate.
Qed.

Lemma shows_goes p r : shows cfg p r <-> exists n ops h, goes cfg n p ops h /\ h <> Pending /\
  r = match h with Ended q => Ok (ops, width q) | Raised k => Err k | Panicked k => Panic k | Pending => OutOfFuel end.
Proof.
  split.
  - intros (r' & R & ->). apply runs_goes in R as (n & ops & h & G & N & ->). exists n, ops, h.
    split; auto. split; auto. destruct h; reflexivity.
  - intros (n & ops & h & G & N & ->). exists (result_of ops h). split; [eapply goes_runs; eauto|].
    destruct h; reflexivity.
Qed.

Lemma halts_wide p p' :
  (forall n ops h, goes cfg n p ops h -> exists m h', goes cfg m p' ops h' /\ wide_halt h h') ->
  (forall n ops h', goes cfg n p' ops h' -> exists m h, goes cfg m p ops h /\ wide_halt h h') ->
  same_but_width cfg w p p'.
Proof.
  intros A B. split; [|split; [|split; [|split]]].
  - intros ops. rewrite !goes_emits. split; intros (n & G).
    + destruct (A _ _ _ G) as (m & [] & G' & W); try contradiction. eauto.
    + destruct (B _ _ _ G) as (m & [] & G' & W); try contradiction. eauto.
  - intros ops. split.
    + intros (v & S). apply shows_goes in S as (n & ops' & h & G & N & E). destruct h; try discriminate. injection E as <- ->.
      destruct (A _ _ _ G) as (m & [] & G' & W); try contradiction. apply shows_goes. exists m, ops, (Ended q0).
      split; auto. split; [discriminate|]. cbn in W. rewrite W. reflexivity.
    + intros S. apply shows_goes in S as (n & ops' & h & G & N & E). destruct h; try discriminate. injection E as <- E.
      destruct (B _ _ _ G) as (m & [] & G' & W); try contradiction. exists (width q0). apply shows_goes.
      exists m, ops, (Ended q0). split; auto. split; [discriminate|reflexivity].
  - intros ops v S. apply shows_goes in S as (n & ops' & h & G & N & E). destruct h; try discriminate. injection E as <- ->.
    destruct (B _ _ _ G) as (m & [] & G' & W); try contradiction. exact W.
  - intros k. split; intros S; apply shows_goes in S as (n & ops' & h & G & N & E); destruct h; try discriminate; injection E as <-.
    + destruct (A _ _ _ G) as (m & [] & G' & W); try contradiction. cbn in W. subst. apply shows_goes.
      do 3 eexists. split; [exact G'|]. split; [discriminate|reflexivity].
    + destruct (B _ _ _ G) as (m & [] & G' & W); try contradiction. cbn in W. subst. apply shows_goes.
      do 3 eexists. split; [exact G'|]. split; [discriminate|reflexivity].
  - intros k. split; intros S; apply shows_goes in S as (n & ops' & h & G & N & E); destruct h; try discriminate; injection E as <-.
    + destruct (A _ _ _ G) as (m & [] & G' & W); try contradiction. cbn in W. subst. apply shows_goes.
      do 3 eexists. split; [exact G'|]. split; [discriminate|reflexivity].
    + destruct (B _ _ _ G) as (m & [] & G' & W); try contradiction. cbn in W. subst. apply shows_goes.
      do 3 eexists. split; [exact G'|]. split; [discriminate|reflexivity].
Qed.

Lemma width_in_front code g l e o st : t2_number e w -> first_clearing cfg (new_program code g l) o st ->
  may_have_width o = true -> left_over o st [] ->
  same_but_width cfg w (new_program code g l) (new_program (e ++ code) g l).
Proof.
  intros N (_ & q & e' & xs & r & T & R & E & ->) M L.
  set (p := new_program code g l) in *. set (p' := new_program (e ++ code) g l).
  assert (Ne : code <> []).
  { intros ->. inversion T as [|a b c d S T'|]; subst.
    - cbn in R. destruct (t2_bytes_first o) as (b & t & B & _). rewrite B in R. destruct e'; discriminate.
    - rewrite step_empty in S by reflexivity. discriminate. }
  assert (P : step cfg p' = step cfg (deepened [w] p)).
  { rewrite (step_numbers cfg p' e [w] code); [|rewrite <- (app_nil_r e); repeat constructor; auto|auto|reflexivity].
    reflexivity. }
  assert (Q : wider (step cfg q) (step cfg (deepened [w] q))).
  { rewrite (step_code cfg q e' xs o r E R), (step_code cfg (deepened [w] q) e' xs o r E R).
    replace (loaded (deepened [w] q) xs r) with (deepened [w] (loaded q xs r)) by reflexivity.
    eapply clears_wide; eauto. cbn. rewrite (trace_silent_width _ _ _ T). reflexivity. }
  pose proof (trace_deep [w] _ _ _ T) as T'.
  apply halts_wide.
  - intros n ops h G. destruct (goes_after _ _ _ _ _ T G) as [[-> ->]|(m & G')].
    { exists 0%nat, Pending. split; [constructor|exact I]. }
    destruct (goes_wide _ _ _ _ _ Q G') as (h' & G2 & W).
    destruct (trace_goes _ _ _ _ T' _ _ _ G2) as (m' & G3). exists m', h'. split; auto.
    eapply goes_same; [|exact G3]. auto.
  - intros n ops h' G. eapply goes_same in G; [|exact P].
    destruct (goes_after _ _ _ _ _ T' G) as [[-> ->]|(m & G')].
    { exists 0%nat, Pending. split; [constructor|exact I]. }
    destruct (goes_narrow _ _ _ _ _ Q G') as (h & G2 & W).
    destruct (trace_goes _ _ _ _ T _ _ _ G2) as (m' & G3). exists m', h. auto.
Qed.
End Wide.

(** Two widths. *)
Lemma same_but_widths cfg p p1 p2 w1 w2 : same_but_width cfg w1 p p1 -> same_but_width cfg w2 p p2 ->
  same_but_width cfg w2 p1 p2.
Proof.
  intros (A1 & B1 & C1 & D1 & E1) (A2 & B2 & C2 & D2 & E2). split; [|split; [|split; [|split]]]; auto.
  - intros ops. rewrite <- A1. apply A2.
  - intros ops. rewrite <- B2. rewrite B1. split; [intros (v & S); rewrite <- (C1 _ _ S); exact S|eauto].
  - intros k. rewrite <- D1. apply D2.
  - intros k. rewrite <- E1. apply E2.
Qed.

Lemma width_changed cfg w w' code g l e e' o st : t2_number e w -> t2_number e' w' ->
  first_clearing cfg (new_program code g l) o st -> may_have_width o = true -> left_over o st [] ->
  same_but_width cfg w' (new_program (e ++ code) g l) (new_program (e' ++ code) g l).
Proof. intros N N' F M L. eapply same_but_widths; eapply width_in_front; eauto. Qed.

(** StackFacts: stack operators, calls, and expressions. *)
From Verif Require Import Base Float T2Operation T2Program BaseFacts SpecProgram T2NumberFacts StepFacts ClearFacts RunFacts FloatFacts EvalFacts IntegralFacts.
Local Open Scope Z_scope.

(** ** Rotation *)

Lemma rotated_zero xs : rotated 0 xs xs.
Proof.
  split; auto. intros i x H. rewrite Z.add_0_r, Z.mod_small, Nat2Z.id; auto.
  assert (i < length xs)%nat by (apply nth_error_Some; congruence). lia.
Qed.

Lemma rotated_add a b xs ys zs : rotated a xs ys -> rotated b ys zs -> rotated (a + b) xs zs.
Proof.
  intros [L1 R1] [L2 R2]. split; [congruence|]. intros i x H.
  specialize (R1 i x H). specialize (R2 _ _ R1).
  assert (i < length xs)%nat by (apply nth_error_Some; congruence).
  assert (0 <= (Z.of_nat i + a) mod Z.of_nat (length xs)) by (apply Z.mod_pos_bound; lia).
  rewrite L1, Z2Nat.id, Zplus_mod_idemp_l in R2 by auto.
  replace (Z.of_nat i + (a + b)) with (Z.of_nat i + a + b) by lia. exact R2.
Qed.

Lemma rotated_up xs y : rotated 1 (xs ++ [y]) (y :: xs).
Proof.
  split; [rewrite app_length; cbn; lia|]. intros i x H. rewrite app_length. cbn [length].
  destruct (Nat.lt_ge_cases i (length xs)) as [L|L].
  - rewrite nth_error_app1 in H by auto. rewrite Z.mod_small by lia.
    replace (Z.to_nat (Z.of_nat i + 1)) with (S i) by lia. exact H.
  - rewrite nth_error_app2 in H by auto. destruct (i - length xs)%nat eqn:D; [|destruct n; discriminate].
    replace (Z.of_nat i + 1) with (Z.of_nat (length xs + 1)) by lia. rewrite Z_mod_same_full. exact H.
Qed.

Lemma rotated_down xs y : rotated (-1) (y :: xs) (xs ++ [y]).
Proof.
  split; [rewrite app_length; cbn; lia|]. intros i x H. cbn [length].
  assert (i < S (length xs))%nat by (change (S (length xs)) with (length (y :: xs)); apply nth_error_Some; congruence).
  destruct i as [|i]; cbn [nth_error] in H.
  - injection H as ->. replace ((Z.of_nat 0 + -1) mod Z.of_nat (S (length xs))) with (Z.of_nat (length xs)).
    + rewrite Nat2Z.id, nth_error_app2, Nat.sub_diag by lia. reflexivity.
    + symmetry. cbn [Z.of_nat]. rewrite <- (Z.mod_small (Z.of_nat (length xs)) (Z.of_nat (S (length xs)))) by lia.
      rewrite <- (Z_mod_plus_full (0 + -1) 1). f_equal. lia.
  - rewrite Z.mod_small by lia. replace (Z.to_nat (Z.of_nat (S i) + -1)) with i by lia.
    rewrite nth_error_app1 by lia. exact H.
Qed.

Lemma nth_error_same {A} (l : list A) : forall l', (forall k, nth_error l k = nth_error l' k) -> l = l'.
Proof.
  induction l as [|x l IH]; intros [|x' l'] H; auto; try (specialize (H 0%nat); discriminate).
  pose proof (H 0%nat) as H0. injection H0 as ->. f_equal. apply IH. intros k. apply (H (S k)).
Qed.

Lemma rotated_unique j xs ys zs : xs <> [] -> rotated j xs ys -> rotated j xs zs -> ys = zs.
Proof.
  intros N [L1 R1] [L2 R2]. set (n := Z.of_nat (length xs)) in *.
  assert (P : 0 < n) by (unfold n; destruct xs; [congruence|cbn; lia]).
  apply nth_error_same. intros k.
  destruct (Nat.lt_ge_cases k (length xs)) as [L|L].
  - set (i := Z.to_nat ((Z.of_nat k - j) mod n)).
    assert (B : 0 <= (Z.of_nat k - j) mod n < n) by (apply Z.mod_pos_bound; auto).
    destruct (nth_error xs i) as [x|] eqn:E.
    + pose proof (R1 _ _ E) as A1. pose proof (R2 _ _ E) as A2. unfold i in A1, A2.
      rewrite Z2Nat.id, Zplus_mod_idemp_l in A1, A2 by lia.
      replace (Z.of_nat k - j + j) with (Z.of_nat k) in A1, A2 by lia.
      rewrite Z.mod_small, Nat2Z.id in A1, A2 by lia. congruence.
    + apply nth_error_None in E. unfold i, n in *. lia.
  - rewrite (proj2 (nth_error_None ys k)), (proj2 (nth_error_None zs k)) by lia. reflexivity.
Qed.

(** ** The loops of [roll] *)

Definition up (position : nat) (m : outcome (list f32)) : outcome (list f32) :=
  let* st := m in let* (operand, st) := pop st in vec_insert position operand st.
Definition down (position : nat) (m : outcome (list f32)) : outcome (list f32) :=
  let* st := m in let* (operand, st) := vec_remove position st in Ok (push operand st).

Lemma up_one deep xs y : up (length deep) (Ok (deep ++ xs ++ [y])) = Ok (deep ++ y :: xs).
Proof.
  unfold up. cbn [bind]. rewrite app_assoc, pop_app. cbn [bind]. unfold vec_insert.
  rewrite app_length. replace (Nat.leb (length deep) (length deep + length xs)) with true by (symmetry; apply Nat.leb_le; lia).
  rewrite firstn_app, firstn_all, Nat.sub_diag, skipn_app, skipn_all, Nat.sub_diag. cbn. rewrite app_nil_r. reflexivity.
Qed.

Lemma down_one deep xs y : down (length deep) (Ok (deep ++ y :: xs)) = Ok (deep ++ xs ++ [y]).
Proof.
  unfold down. cbn [bind]. unfold vec_remove. rewrite nth_error_app2, Nat.sub_diag by lia. cbn [nth_error bind].
  rewrite firstn_app, firstn_all, Nat.sub_diag.
  replace (deep ++ y :: xs) with ((deep ++ [y]) ++ xs) by (rewrite <- app_assoc; reflexivity).
  rewrite skipn_app. replace (S (length deep)) with (length (deep ++ [y])) by (rewrite app_length; cbn; lia).
  rewrite skipn_all, Nat.sub_diag. cbn. rewrite app_nil_r. unfold push. rewrite <- app_assoc. reflexivity.
Qed.

Lemma up_many deep n : forall xs, xs <> [] -> exists ys,
  Nat.iter n (up (length deep)) (Ok (deep ++ xs)) = Ok (deep ++ ys) /\ rotated (Z.of_nat n) xs ys.
Proof.
  induction n as [|n IH]; intros xs N.
  - exists xs. split; [reflexivity|apply rotated_zero].
  - destruct (IH xs N) as (ys & E & R). destruct ys as [|y ys _] using rev_ind.
    { destruct R as [L _]. destruct xs; [congruence|discriminate]. }
    exists (y :: ys). split.
    + cbn [Nat.iter nat_rect]. change (nat_rect _ ?a ?f n) with (Nat.iter n (up (length deep)) (Ok (deep ++ xs))).
      rewrite E. apply up_one.
    + replace (Z.of_nat (S n)) with (Z.of_nat n + 1) by lia. eapply rotated_add; [exact R|apply rotated_up].
Qed.

Lemma down_many deep n : forall xs, xs <> [] -> exists ys,
  Nat.iter n (down (length deep)) (Ok (deep ++ xs)) = Ok (deep ++ ys) /\ rotated (- Z.of_nat n) xs ys.
Proof.
  induction n as [|n IH]; intros xs N.
  - exists xs. split; [reflexivity|apply rotated_zero].
  - destruct (IH xs N) as (ys & E & R). destruct ys as [|y ys].
    { destruct R as [L _]. destruct xs; [congruence|discriminate]. }
    exists (ys ++ [y]). split.
    + cbn [Nat.iter nat_rect]. change (nat_rect _ ?a ?f n) with (Nat.iter n (down (length deep)) (Ok (deep ++ xs))).
      rewrite E. apply down_one.
    + replace (- Z.of_nat (S n)) with (- Z.of_nat n + -1) by lia. eapply rotated_add; [exact R|apply rotated_down].
Qed.

Lemma iter_nat_Z {A} n (f : A -> A) x : 0 <= n -> Z.iter n f x = Nat.iter (Z.to_nat n) f x.
Proof.
  intros H. destruct n as [|p|p]; [reflexivity| |lia]. cbn [Z.iter Z.to_nat]. rewrite Pos2Nat.inj_iter. reflexivity.
Qed.

Lemma roll_ok cfg deep xs n j N J : integral n (Z.of_nat (length xs)) -> integral j J ->
  Z.of_nat (length xs) < 2 ^ 31 -> - 2 ^ 31 < J < 2 ^ 31 -> N = n ->
  exists ys, roll cfg (deep ++ xs ++ [N; j]) = Ok (deep ++ ys) /\ rotated J xs ys.
Proof.
  intros In Ij Ln Lj ->. unfold roll.
  replace (deep ++ xs ++ [n; j]) with (((deep ++ xs) ++ [n]) ++ [j]) by (rewrite <- !app_assoc; reflexivity).
  rewrite (pop_i32_integral _ _ _ Ij) by lia. cbn [bind].
  rewrite (pop_i32_integral _ _ _ In) by lia. cbn [bind].
  replace (Z.min J (2 ^ 31 - 1)) with J by lia.
  replace (Z.min (Z.of_nat (length xs)) (2 ^ 31 - 1)) with (Z.of_nat (length xs)) by lia.
  rewrite app_length. destruct (Z.ltb_spec (Z.of_nat (length xs)) 0); [lia|].
  destruct (Z.ltb_spec (Z.of_nat (length deep + length xs)) (Z.of_nat (length xs))); [lia|].
  destruct xs as [|x xs].
  { cbn. exists []. split; [reflexivity|]. split; auto. intros [|i] y; discriminate. }
  remember (x :: xs) as xs' eqn:E. assert (N : xs' <> []) by (subst; discriminate). clear E x xs.
  destruct (Z.ltb_spec 0 (Z.of_nat (length xs'))); [|destruct xs'; cbn in *; [congruence|lia]].
  replace (Z.to_nat (Z.of_nat (length deep + length xs') - Z.of_nat (length xs'))) with (length deep) by lia.
  destruct (Z.compare_spec J 0) as [->|L|L].
  - exists xs'. split; [reflexivity|apply rotated_zero].
  - unfold neg_i32, in_i32. destruct (Z.leb_spec (- 2 ^ 31) (- J)), (Z.ltb_spec (- J) (2 ^ 31)); try lia. cbn [andb bind].
    change (fun m => let* st := m in let* (operand, st0) := vec_remove (length deep) st in Ok (push operand st0)) with (down (length deep)).
    rewrite iter_nat_Z by lia. destruct (down_many deep (Z.to_nat (- J)) xs' N) as (ys & -> & R).
    exists ys. split; auto. rewrite Z2Nat.id in R by lia. rewrite Z.opp_involutive in R. exact R.
  - change (fun m => let* st := m in let* (operand, st0) := pop st in vec_insert (length deep) operand st0) with (up (length deep)).
    rewrite iter_nat_Z by lia. destruct (up_many deep (Z.to_nat J) xs' N) as (ys & -> & R).
    exists ys. split; auto. rewrite Z2Nat.id in R by lia. exact R.
Qed.

(** Spans that are not possible. *)
Lemma roll_span cfg st n j N J : integral n N -> integral j J -> - 2 ^ 31 <= J <= 2 ^ 31 ->
  - 2 ^ 31 <= N < 2 ^ 31 -> N < 0 \/ Z.of_nat (length st) < N -> roll cfg (st ++ [n; j]) = Err Other.
Proof.
  intros In Ij Lj Ln S. unfold roll. rewrite push_two.
  rewrite (pop_i32_integral _ _ _ Ij) by lia. cbn [bind].
  rewrite (pop_i32_integral _ _ _ In) by lia. cbn [bind].
  replace (Z.min N (2 ^ 31 - 1)) with N by lia.
  destruct (Z.ltb_spec N 0); auto. destruct (Z.ltb_spec (Z.of_nat (length st)) N); auto. lia.
Qed.

(** ** Index, duplicate *)

Lemma read_top st i x : nth_error (rev st) i = Some x -> read_from_top (Z.of_nat i) st = Ok x.
Proof.
  intros H. assert (i < length st)%nat by (rewrite <- rev_length; apply nth_error_Some; congruence).
  unfold read_from_top. destruct (Z.leb_spec (Z.of_nat (length st)) (Z.of_nat i)); [lia|].
  assert (E : nth_error st (Z.to_nat (Z.of_nat (length st) - 1 - Z.of_nat i)) = Some x); [|rewrite E; reflexivity].
  replace (Z.to_nat (Z.of_nat (length st) - 1 - Z.of_nat i)) with (length st - S i)%nat by lia.
  rewrite nth_error_nth' with (d := x) by lia. f_equal.
  rewrite <- rev_nth by auto. apply nth_error_nth. exact H.
Qed.

Lemma effect_dup cfg st x : effect cfg T2_Dup (st ++ [x]) = Ok (st ++ [x; x]).
Proof.
  unfold effect, execute, with_stack. cbn [stack]. change 0 with (Z.of_nat 0).
  rewrite (read_top (st ++ [x]) 0 x) by (rewrite rev_app_distr; reflexivity).
  cbn. unfold push. rewrite <- app_assoc. reflexivity.
Qed.

Lemma effect_index cfg st i n x : integral i n -> - 2 ^ 31 <= n < 2 ^ 31 ->
  nth_error (rev st) (Z.to_nat n) = Some x -> effect cfg T2_Index (st ++ [i]) = Ok (st ++ [x]).
Proof.
  intros I R H. unfold effect, execute, with_stack. cbn [stack].
  rewrite (pop_i32_integral _ _ _ I) by lia. cbn [bind]. replace (Z.min n (2 ^ 31 - 1)) with n by lia.
  replace (if 0 <=? n then n else 0) with (Z.of_nat (Z.to_nat n)) by (destruct (Z.leb_spec 0 n); lia).
  rewrite (read_top _ _ _ H). reflexivity.
Qed.

Lemma effect_index_deep cfg st i n : integral i n -> - 2 ^ 31 <= n < 2 ^ 31 ->
  (length st <= Z.to_nat n)%nat -> effect cfg T2_Index (st ++ [i]) = Err Other.
Proof.
  intros I R H. unfold effect, execute, with_stack. cbn [stack].
  rewrite (pop_i32_integral _ _ _ I) by lia. cbn [bind]. replace (Z.min n (2 ^ 31 - 1)) with n by lia.
  replace (if 0 <=? n then n else 0) with (Z.of_nat (Z.to_nat n)) by (destruct (Z.leb_spec 0 n); lia).
  unfold read_from_top. destruct (Z.leb_spec (Z.of_nat (length st)) (Z.of_nat (Z.to_nat n))); [reflexivity|lia].
Qed.

Lemma effect_short cfg o st : stack_operator o = true -> (length st < arity o)%nat -> effect cfg o st = Err Other.
Proof.
  intros S L. destruct o; try discriminate; destruct st as [|a [|b [|c [|d st]]]]; cbn in L; try lia; try reflexivity.
  unfold effect, execute, roll, pop_i32. cbn. destruct (f32_eqb _ _); reflexivity.
Qed.

(** ** Calls *)

Lemma bias_biased n : biased n (bias n).
Proof. unfold biased, bias. destruct (Z.ltb_spec n 1240), (Z.ltb_spec n 33900); lia. Qed.

Lemma biased_bias n b : biased n b -> b = bias n.
Proof. unfold biased, bias. destruct (Z.ltb_spec n 1240), (Z.ltb_spec n 33900); lia. Qed.

Lemma bias_range n : 107 <= bias n <= 32768.
Proof. unfold bias. destruct (n <? 1240), (n <? 33900); lia. Qed.

Lemma call_ok cfg subs p st a v code : stack p = st ++ [a] -> integral a v ->
  Z.of_nat (length subs) < 2 ^ 31 -> 0 <= v + bias (Z.of_nat (length subs)) ->
  nth_error subs (Z.to_nat (v + bias (Z.of_nat (length subs)))) = Some code ->
  call cfg subs p = Ok (set_frames (set_stack p st) code (routine p :: callers p)).
Proof.
  intros K I C N H. pose proof (bias_range (Z.of_nat (length subs))) as B.
  assert (Z.to_nat (v + bias (Z.of_nat (length subs))) < length subs)%nat by (apply nth_error_Some; congruence).
  unfold call. rewrite K, (pop_i32_integral _ _ _ I) by lia. cbn [bind].
  replace (Z.min v (2 ^ 31 - 1)) with v by lia. unfold add_i32, in_i32.
  destruct (Z.leb_spec (- 2 ^ 31) (v + bias (Z.of_nat (length subs)))); [|lia].
  destruct (Z.ltb_spec (v + bias (Z.of_nat (length subs))) (2 ^ 31)); [|lia]. cbn [andb bind].
  destruct (Z.ltb_spec (v + bias (Z.of_nat (length subs))) 0); [lia|].
  destruct (Z.leb_spec (Z.of_nat (length subs)) (v + bias (Z.of_nat (length subs)))); [lia|]. cbn [orb].
  rewrite H. reflexivity.
Qed.

Lemma call_empty cfg subs p : stack p = [] -> call cfg subs p = Err Other.
Proof. intros K. unfold call. rewrite K. reflexivity. Qed.

Lemma as_i32_wrap x : 2 ^ 31 <= x < 2 ^ 32 -> as_i32 x = x - 2 ^ 32.
Proof.
  intros H. unfold as_i32. replace (x + 2 ^ 31) with (x - 2 ^ 31 + 1 * 2 ^ 32) by lia.
  rewrite Z_mod_plus_full, Z.mod_small by lia. lia.
Qed.

(** An operand that does not select a subroutine. *)
Lemma call_other cfg subs p st a : stack p = st ++ [a] -> binary32 a -> Z.of_nat (length subs) < 2 ^ 31 ->
  (forall v, integral a v -> ~ 0 <= v + bias (Z.of_nat (length subs)) < Z.of_nat (length subs)) ->
  call cfg subs p = Err Other \/
  call cfg subs p = Panic ArithmeticOverflow /\ overflow_checks cfg = true /\
  exists v, stands_for a v /\ 2 ^ 31 <= v + bias (Z.of_nat (length subs)).
Proof.
  intros K B C H. pose proof (bias_range (Z.of_nat (length subs))) as Bb.
  unfold call. rewrite K. destruct (pop_i32 (st ++ [a])) as [r|k|k|] eqn:E.
  2-4: unfold pop_i32 in E; rewrite vec_pop_app in E; destruct (f32_eqb _ _); try discriminate.
  2: injection E as <-; auto.
  destruct (pop_i32_accepts _ _ _ B E) as (v & I & R). specialize (H v I).
  rewrite (pop_i32_integral _ _ _ I R) in E. assert (r = (Z.min v (2 ^ 31 - 1), st)) as -> by congruence. cbn [bind].
  set (b := bias (Z.of_nat (length subs))) in *. set (w := Z.min v (2 ^ 31 - 1)).
  unfold add_i32, in_i32. destruct (Z.leb_spec (- 2 ^ 31) (w + b)); [|lia].
  destruct (Z.ltb_spec (w + b) (2 ^ 31)); cbn [andb].
  - left. cbn [bind]. destruct (Z.ltb_spec (w + b) 0); [reflexivity|].
    destruct (Z.leb_spec (Z.of_nat (length subs)) (w + b)); [reflexivity|]. lia.
  - destruct (overflow_checks cfg) eqn:O.
    + right. split; [reflexivity|]. split; auto. exists w. split; auto. exists v. auto.
    + left. cbn [bind]. rewrite as_i32_wrap by lia.
      destruct (Z.ltb_spec (w + b - 2 ^ 32) 0); [reflexivity|lia].
Qed.

Lemma call_overflow cfg subs p st a v : stack p = st ++ [a] -> stands_for a v -> Z.of_nat (length subs) < 2 ^ 31 ->
  2 ^ 31 <= v + bias (Z.of_nat (length subs)) ->
  call cfg subs p = if overflow_checks cfg then Panic ArithmeticOverflow else Err Other.
Proof.
  intros K Sa C H. pose proof (bias_range (Z.of_nat (length subs))) as Bb. pose proof (stands_for_range _ _ Sa) as Rv.
  unfold call. rewrite K, (pop_stands_for _ _ _ Sa). cbn [bind].
  set (b := bias (Z.of_nat (length subs))) in *. unfold add_i32, in_i32.
  destruct (Z.leb_spec (- 2 ^ 31) (v + b)); [|lia]. destruct (Z.ltb_spec (v + b) (2 ^ 31)); [lia|]. cbn [andb].
  destruct (overflow_checks cfg); [reflexivity|]. cbn [bind]. rewrite as_i32_wrap by lia.
  destruct (Z.ltb_spec (v + b - 2 ^ 32) 0); [reflexivity|lia].
Qed.

(** ** Expressions *)

(** Rounds that return nothing, up to the numbers that follow. *)
Definition leads (cfg : config) (p p' : program) : Prop := exists q, trace cfg p [] q /\ step cfg q = step cfg p'.

Lemma leads_refl cfg p : leads cfg p p.
Proof. exists p. split; [constructor|reflexivity]. Qed.

Lemma leads_step cfg p p' q : step cfg p = Ok (Again p') -> leads cfg p' q -> leads cfg p q.
Proof. intros H (r & T & E). exists r. split; auto. eapply trace_again; eauto. Qed.

Lemma trace_same cfg p q ops q' : step cfg p = step cfg q -> trace cfg q ops q' ->
  exists p', trace cfg p ops p' /\ step cfg p' = step cfg q'.
Proof.
  intros E T. inversion T; subst.
  - exists p. split; [constructor|auto].
  - exists q'. split; auto. eapply trace_again; eauto. congruence.
  - exists q'. split; auto. eapply trace_emit; eauto. congruence.
Qed.

Lemma leads_trans cfg p q r : leads cfg p q -> leads cfg q r -> leads cfg p r.
Proof.
  intros (p' & T & E) (q' & T' & E'). destruct (trace_same _ _ _ _ _ E T') as (p'' & T'' & E'').
  exists p''. split; [exact (trace_app _ _ _ _ _ _ T T'')|congruence].
Qed.

Lemma leads_same cfg p q : step cfg p = step cfg q -> leads cfg p q.
Proof. intros E. exists p. split; [constructor|auto]. Qed.

Lemma leads_nexts cfg p q r : leads cfg p q -> nexts cfg p r <-> nexts cfg q r.
Proof.
  intros (p' & T & E). rewrite (trace_nexts _ _ _ _ T). apply nexts_same. exact E.
Qed.

Lemma leads_runs cfg p q r : leads cfg p q -> runs cfg p r <-> runs cfg q r.
Proof.
  intros (p' & T & E). rewrite (trace_runs _ _ _ _ T). split.
  - intros (r' & R & ->). rewrite prefixed_nil. apply (runs_same _ _ _ _ E). exact R.
  - intros R. exists r. rewrite prefixed_nil. split; auto. apply (runs_same _ _ _ _ E). exact R.
Qed.

Lemma loaded_loaded p xs ys r s : loaded (loaded p xs r) ys s = loaded p (xs ++ ys) s.
Proof. unfold loaded. cbn. rewrite app_assoc. reflexivity. Qed.

(** An operator after expressions. *)
Lemma leads_operator cfg o p xs ys s : stack_operator o = true ->
  (forall st, effect cfg o (st ++ xs) = Ok (st ++ ys)) ->
  leads cfg (loaded p xs (t2_bytes o ++ s)) (loaded p ys s).
Proof.
  intros S E. eapply leads_step; [|apply leads_refl].
  rewrite (step_code _ _ [] [] o s) by (auto; constructor).
  rewrite execute_stack by auto. unfold loaded. cbn. rewrite app_nil_r, E. reflexivity.
Qed.

Lemma not_nil_app {A} (l l' : list A) : l' <> [] -> l ++ l' <> [].
Proof. destruct l; auto. discriminate. Qed.

Lemma expression_leads cfg e x : expression_encoding e x -> forall p s, s <> [] -> routine p = e ++ s ->
  leads cfg p (loaded p [evaluate x] s).
Proof.
  assert (U : forall o f ea a,
    (forall p s, s <> [] -> routine p = ea ++ s -> leads cfg p (loaded p [evaluate a] s)) ->
    stack_operator o = true -> (forall st x, effect cfg o (st ++ [x]) = Ok (st ++ [f x])) ->
    forall p s, s <> [] -> routine p = (ea ++ t2_bytes o) ++ s -> leads cfg p (loaded p [f (evaluate a)] s)).
  { intros o f ea a H S E p s N R. rewrite <- app_assoc in R.
    eapply leads_trans; [apply (H p (t2_bytes o ++ s)); auto; apply not_nil_app; auto|].
    apply leads_operator; auto. }
  assert (B : forall o f ea a eb b,
    (forall p s, s <> [] -> routine p = ea ++ s -> leads cfg p (loaded p [evaluate a] s)) ->
    (forall p s, s <> [] -> routine p = eb ++ s -> leads cfg p (loaded p [evaluate b] s)) ->
    stack_operator o = true -> (forall st x y, effect cfg o (st ++ [x; y]) = Ok (st ++ [f x y])) ->
    forall p s, s <> [] -> routine p = (ea ++ eb ++ t2_bytes o) ++ s ->
    leads cfg p (loaded p [f (evaluate a) (evaluate b)] s)).
  { intros o f ea a eb b Ha Hb S E p s N R. rewrite <- !app_assoc in R.
    eapply leads_trans; [apply (Ha p (eb ++ t2_bytes o ++ s)); auto; apply not_nil_app, not_nil_app; auto|].
    eapply leads_trans; [apply (Hb _ (t2_bytes o ++ s)); [apply not_nil_app; auto|reflexivity]|].
    rewrite loaded_loaded. apply leads_operator; auto. intros st. apply E. }
  induction 1 as [e x H|ea a _ IH|ea a _ IH|ea a _ IH|ea a _ IH|ea eb a b _ IHa _ IHb|ea eb a b _ IHa _ IHb
    |ea eb a b _ IHa _ IHb|ea eb a b _ IHa _ IHb|ea eb a b _ IHa _ IHb|ea eb a b _ IHa _ IHb|ea eb a b _ IHa _ IHb
    |e1 e2 ea eb s1 s2 v1 v2 _ IH1 _ IH2 _ IHa _ IHb]; cbn [evaluate].
  - intros p s N R. apply leads_same, (step_numbers cfg p e); auto.
    rewrite <- (app_nil_r e). constructor; auto. constructor.
  - apply (U T2_Abs f32_abs); auto using effect_abs.
  - apply (U T2_Neg f32_neg); auto using effect_neg.
  - apply (U T2_Sqrt f32_sqrt); auto using effect_sqrt.
  - apply (U T2_Not (fun x => of_truth (negb (truth x)))); auto using effect_not.
  - apply (B T2_Add f32_add); auto using effect_add.
  - apply (B T2_Sub f32_sub); auto using effect_sub.
  - apply (B T2_Div f32_div); auto using effect_div.
  - apply (B T2_Mul f32_mul); auto using effect_mul.
  - apply (B T2_And (fun x y => of_truth (truth x && truth y))); auto using effect_and.
  - apply (B T2_Or (fun x y => of_truth (truth x || truth y))); auto using effect_or.
  - apply (B T2_Eq (fun x y => of_truth (f32_eqb x y))); auto using effect_eq.
  - intros p s N R. rewrite <- !app_assoc in R.
    eapply leads_trans; [apply (IH1 p (e2 ++ ea ++ eb ++ t2_bytes T2_IfElse ++ s)); auto; repeat apply not_nil_app; auto|].
    eapply leads_trans; [apply (IH2 _ (ea ++ eb ++ t2_bytes T2_IfElse ++ s)); [repeat apply not_nil_app; auto|reflexivity]|].
    eapply leads_trans; [apply (IHa _ (eb ++ t2_bytes T2_IfElse ++ s)); [repeat apply not_nil_app; auto|reflexivity]|].
    eapply leads_trans; [apply (IHb _ (t2_bytes T2_IfElse ++ s)); [repeat apply not_nil_app; auto|reflexivity]|].
    rewrite !loaded_loaded. apply leads_operator; auto. intros st. cbn [app]. apply effect_ifelse.
Qed.

Lemma expressions_leads cfg e xs : each expression_encoding e xs -> forall p s, s <> [] -> routine p = e ++ s ->
  leads cfg p (loaded p (map evaluate xs) s).
Proof.
  induction 1 as [|e x es xs H E IH]; intros p s N R.
  - apply leads_same. unfold loaded. cbn in *. rewrite app_nil_r, <- R. destruct p. reflexivity.
  - rewrite <- app_assoc in R.
    eapply leads_trans; [apply (expression_leads cfg e x H p (es ++ s)); auto; apply not_nil_app; auto|].
    eapply leads_trans; [apply (IH _ s); [auto|reflexivity]|]. rewrite loaded_loaded. apply leads_refl.
Qed.

(** ** Every value is a binary32 datum *)

Lemma Forall_snoc {A} (P : A -> Prop) l x : Forall P (l ++ [x]) <-> Forall P l /\ P x.
Proof. rewrite Forall_app. split; intros [H K]; split; auto. inversion K; auto. Qed.

Lemma stands_for_pop st v st' : Forall binary32 st -> pop_i32 st = Ok (v, st') ->
  exists x, st = st' ++ [x] /\ stands_for x v.
Proof.
  intros B H. destruct (pop_i32_inv _ _ _ H) as [x ->]. exists x. split; auto.
  apply Forall_snoc in B as [_ B]. destruct (pop_i32_accepts _ _ _ B H) as (u & I & R).
  rewrite (pop_i32_integral _ _ _ I R) in H. injection H as <-. exists u. auto.
Qed.

Lemma pop_valid st x st' : Forall binary32 st -> pop st = Ok (x, st') -> binary32 x /\ Forall binary32 st'.
Proof. intros V H. apply pop_inv in H. subst. apply Forall_snoc in V. tauto. Qed.
Lemma pop_bool_valid st x st' : Forall binary32 st -> pop_bool st = Ok (x, st') -> Forall binary32 st'.
Proof. intros V H. apply pop_bool_inv in H as [y ->]. apply Forall_snoc in V. tauto. Qed.
Lemma pop_i32_valid st x st' : Forall binary32 st -> pop_i32 st = Ok (x, st') -> Forall binary32 st'.
Proof. intros V H. apply pop_i32_inv in H as [y ->]. apply Forall_snoc in V. tauto. Qed.
Lemma of_truth_valid (b : bool) : binary32 (if b then f32_one else f32_zero).
Proof. destruct b; reflexivity. Qed.
Lemma read_valid i st x : Forall binary32 st -> read_from_top i st = Ok x -> binary32 x.
Proof.
  unfold read_from_top. intros V. destruct (_ <=? _); [discriminate|]. destruct (nth_error _ _) eqn:E; [|discriminate].
  intros H. injection H as ->. apply nth_error_In in E. rewrite Forall_forall in V. auto.
Qed.

Lemma up_valid k m : (forall st, m = Ok st -> Forall binary32 st) -> forall st, up k m = Ok st -> Forall binary32 st.
Proof.
  intros V st H. unfold up in H. inv_ok H. inv_ok H. destruct a0 as [x st']. specialize (V _ H0).
  destruct (pop_valid _ _ _ V H1) as [Vx Vs]. unfold vec_insert in H. destruct (Nat.leb _ _); [|discriminate].
  injection H as <-. rewrite <- (firstn_skipn k st') in Vs. apply Forall_app in Vs as [V1 V2].
  apply Forall_app. split; auto.
Qed.

Lemma down_valid k m : (forall st, m = Ok st -> Forall binary32 st) -> forall st, down k m = Ok st -> Forall binary32 st.
Proof.
  intros V st H. unfold down in H. inv_ok H. inv_ok H. destruct a0 as [x st']. specialize (V _ H0).
  injection H as <-. unfold vec_remove in H1. destruct (nth_error a k) eqn:E; [|discriminate]. injection H1 as -> <-.
  apply Forall_snoc. split.
  - rewrite <- (firstn_skipn k a) in V. apply Forall_app in V as [V1 V2]. apply Forall_app. split; auto.
    assert (skipn k a = x :: skipn (S k) a) as Ek.
    { clear -E. revert a E. induction k as [|k IH]; intros [|y a] E; try discriminate; cbn in *; [congruence|auto]. }
    rewrite Ek in V2. inversion V2. auto.
  - apply nth_error_In in E. rewrite Forall_forall in V. auto.
Qed.

Lemma iter_valid f n : (forall m, (forall st, m = Ok st -> Forall binary32 st) -> forall st, f m = Ok st -> Forall binary32 st) ->
  forall m, (forall st, m = Ok st -> Forall binary32 st) -> forall st, Z.iter n f m = Ok st -> Forall binary32 st.
Proof.
  intros F m V. destruct (Z.le_gt_cases 0 n) as [L|L].
  - rewrite iter_nat_Z by auto. generalize (Z.to_nat n). intros k. induction k as [|k IH]; [exact V|].
    cbn [Nat.iter nat_rect]. apply F. exact IH.
  - destruct n; try lia. exact V.
Qed.

Lemma effect_valid cfg o st st' : Forall binary32 st -> effect cfg o st = Ok st' -> stack_operator o = true ->
  Forall binary32 st'.
Proof.
  intros V H S. unfold effect in H. rewrite execute_stack in H by auto.
  unfold with_stack in H. cbn [stack] in H.
  destruct o; try discriminate; cbn [execute stack] in H; unfold effect, execute, with_stack in H; cbn [stack] in H;
    unfold unary, binary, push_bool, push in H.
  all: repeat match type of H with
    | context [bind (pop ?s) _] => let E := fresh "E" in destruct (pop s) as [[? ?]| | |] eqn:E; cbn [bind stack set_stack] in H; try discriminate H
    | context [bind (pop_bool ?s) _] => let E := fresh "E" in destruct (pop_bool s) as [[? ?]| | |] eqn:E; cbn [bind stack set_stack] in H; try discriminate H
    | context [bind (pop_i32 ?s) _] => let E := fresh "E" in destruct (pop_i32 s) as [[? ?]| | |] eqn:E; cbn [bind stack set_stack] in H; try discriminate H
    | context [bind (read_from_top ?i ?s) _] => let E := fresh "E" in destruct (read_from_top i s) as [?| | |] eqn:E; cbn [bind stack set_stack] in H; try discriminate H
    end.
  all: repeat match goal with
    | V : Forall binary32 ?s, E : pop ?s = Ok (_, _) |- _ => apply (pop_valid _ _ _ V) in E as [? ?]
    | V : Forall binary32 ?s, E : pop_bool ?s = Ok (_, _) |- _ => apply (pop_bool_valid _ _ _ V) in E
    | V : Forall binary32 ?s, E : pop_i32 ?s = Ok (_, _) |- _ => apply (pop_i32_valid _ _ _ V) in E
    | V : Forall binary32 ?s, E : read_from_top _ ?s = Ok _ |- _ => apply (read_valid _ _ _ V) in E
    end.
  all: try (injection H as <-; rewrite ?Forall_snoc; repeat split;
    auto using f32_abs_valid, f32_neg_valid, f32_sqrt_valid, f32_add_valid, f32_sub_valid, f32_mul_valid, f32_div_valid, of_truth_valid;
    destruct (f32_leb _ _); assumption).
  destruct (roll cfg st) as [st1| | |] eqn:R; cbn in H; try discriminate. injection H as <-. clear S.
  unfold roll in R. inv_ok R. destruct a as [sh st2]. inv_ok R. destruct a as [sp st3].
  apply (pop_i32_valid _ _ _ V) in H. apply (pop_i32_valid _ _ _ H) in H0.
  destruct (sp <? 0); [discriminate|]. destruct (_ <? sp); [discriminate|]. destruct (0 <? sp); [|congruence].
  destruct (sh ?= 0).
  - congruence.
  - inv_ok R. revert R. apply iter_valid; [apply down_valid|]. intros s' E. congruence.
  - revert R. apply iter_valid; [apply up_valid|]. intros s' E. congruence.
Qed.

(** EffortFacts: the rounds of the loops of [Roll]. *)
From Coq Require Import Reals.
From Verif Require Import Base Float T2Number T2Operation T2Program T2Effort BaseFacts SpecProgram SpecExecution SpecEffort T2NumberFacts StepFacts ClearFacts
  RunFacts FloatFacts EvalFacts IntegralFacts StackFacts ExecutionFacts SubroutineFacts ProgramFacts ReferenceFacts RecursionFacts.
Local Open Scope list_scope.
Local Open Scope Z_scope.

(** ** Agreement *)

Lemma counted_nat {A} (n : nat) (body : A -> outcome A) a :
  fst (counted (Z.of_nat n) body a) = Nat.iter n (fun m => let* a := m in body a) (Ok a) /\
  0 <= snd (counted (Z.of_nat n) body a) <= Z.of_nat n /\
  (forall b, fst (counted (Z.of_nat n) body a) = Ok b -> snd (counted (Z.of_nat n) body a) = Z.of_nat n).
Proof.
  unfold counted. rewrite iter_nat_Z, Nat2Z.id by lia.
  induction n as [|n (IH1 & IH2 & IH3)]; [cbn; repeat split; lia|].
  cbn [Nat.iter nat_rect]. change (nat_rect _ ?a (fun _ => ?f) n) with (Nat.iter n f a).
  destruct (Nat.iter n _ (Ok a, 0)) as [m k]. cbn [fst snd] in *. rewrite <- IH1.
  destruct m as [b|e|w|]; cbn [fst snd bind]; split; auto; split; try lia; try discriminate.
  intros c _. rewrite (IH3 b eq_refl). lia.
Qed.

Lemma counted_spec {A} n (body : A -> outcome A) a :
  fst (counted n body a) = Z.iter n (fun m => let* a := m in body a) (Ok a) /\
  0 <= snd (counted n body a) <= Z.max 0 n /\
  (forall b, fst (counted n body a) = Ok b -> snd (counted n body a) = Z.max 0 n).
Proof.
  destruct (Z.le_gt_cases 0 n) as [L|L].
  - destruct (counted_nat (Z.to_nat n) body a) as (H1 & H2 & H3). rewrite Z2Nat.id in * by lia.
    rewrite iter_nat_Z by lia. rewrite Z.max_r by lia. auto.
  - destruct n; try lia. cbn. repeat split; lia.
Qed.

Lemma first_agrees {A B} (m : outcome A) (k : A -> outcome B * Z) (h : A -> outcome B) :
  (forall a, fst (k a) = h a) -> fst (first m k) = let* a := m in h a.
Proof. intros H. destruct m; cbn; auto. Qed.

Lemma roll_counted_agrees cfg st : fst (roll_counted cfg st) = roll cfg st.
Proof.
  unfold roll_counted, roll. apply first_agrees. intros [shift st1]. apply first_agrees. intros [span st2].
  destruct (span <? 0); [reflexivity|]. destruct (Z.of_nat (length st2) <? span); [reflexivity|].
  destruct (0 <? span); [|reflexivity]. destruct (shift ?= 0); [reflexivity| |].
  - apply first_agrees. intros n. apply counted_spec.
  - apply counted_spec.
Qed.

Lemma step_counted_agrees cfg p : fst (step_counted cfg p) = step cfg p.
Proof.
  unfold step_counted, step. destruct (done (routine p)); [reflexivity|].
  apply first_agrees. intros [[st code] r]. apply first_agrees. intros [o r'].
  destruct o; try reflexivity. cbn [execute_counted execute]. pose proof (roll_counted_agrees cfg
    (stack (set_stack (set_routine p r') st))) as E. destruct (roll_counted _ _) as [m k]. cbn [fst] in *. rewrite E. reflexivity.
Qed.

(** ** How many rounds *)

Lemma first_range {A B} (m : outcome A) (k : A -> outcome B * Z) u :
  0 <= u -> (forall a, m = Ok a -> 0 <= snd (k a) <= u) -> 0 <= snd (first m k) <= u.
Proof. intros U H. destruct m; cbn; try lia. auto. Qed.

Lemma pop_i32_range st v st' : pop_i32 st = Ok (v, st') -> - 2 ^ 31 <= v < 2 ^ 31.
Proof.
  unfold pop_i32. destruct (vec_pop st) as [[x s]|]; [|discriminate]. destruct (f32_eqb _ _); [|discriminate].
  intros H. injection H as <- _. apply i32_of_f32_range.
Qed.

Lemma roll_counted_range cfg st : 0 <= snd (roll_counted cfg st) <= 2 ^ 31 - 1.
Proof.
  unfold roll_counted. apply first_range; [lia|]. intros [shift st1] P. apply pop_i32_range in P.
  apply first_range; [lia|]. intros [span st2] _.
  destruct (span <? 0); [cbn; lia|]. destruct (Z.of_nat (length st2) <? span); [cbn; lia|].
  destruct (0 <? span); [|cbn; lia]. destruct (shift ?= 0); [cbn; lia| |].
  - apply first_range; [lia|]. intros n N.
    assert (n < 2 ^ 31).
    { unfold neg_i32 in N. destruct (in_i32 (- shift)) eqn:I.
      - injection N as <-. unfold in_i32 in I. apply andb_prop in I as [_ I]. apply Z.ltb_lt in I. exact I.
      - destruct (overflow_checks cfg); [discriminate|]. injection N as <-.
        unfold in_i32 in I. apply andb_false_iff in I as [I|I]; [apply Z.leb_gt in I|apply Z.ltb_ge in I]; [lia|].
        replace shift with (- 2 ^ 31) by lia. reflexivity. }
    match goal with |- context [counted ?n ?f ?a] => destruct (counted_spec n f a) as (_ & B & _) end. lia.
  - match goal with |- context [counted ?n ?f ?a] => destruct (counted_spec n f a) as (_ & B & _) end. lia.
Qed.

Lemma step_counted_code cfg p e xs o r : each t2_number e xs -> routine p = e ++ t2_bytes o ++ r ->
  step_counted cfg p = execute_counted cfg o (loaded p xs r).
Proof.
  intros E R. unfold step_counted. rewrite R.
  destruct (read_t2_operator_complete o r) as (b & t & Eb & N & RO).
  replace (done (e ++ t2_bytes o ++ r)) with false.
  2: { destruct e; [|reflexivity]. rewrite Eb. reflexivity. }
  rewrite (push_operands_app _ _ E) by lia.
  rewrite Eb at 1. cbn [app]. rewrite Eb. cbn [app]. rewrite push_operands_stop by auto. cbn [first].
  rewrite Eb in RO. cbn [app] in RO. rewrite RO. reflexivity.
Qed.

Lemma execute_counted_range cfg o p : 0 <= snd (execute_counted cfg o p) <= 2 ^ 31 - 1.
Proof.
  pose proof (roll_counted_range cfg (stack p)) as B.
  destruct o; try (cbn; lia). cbn [execute_counted]. destruct (roll_counted cfg (stack p)). exact B.
Qed.

Lemma step_counted_range cfg p : 0 <= snd (step_counted cfg p) <= 2 ^ 31 - 1.
Proof.
  unfold step_counted. destruct (done (routine p)); [cbn; lia|].
  apply first_range; [lia|]. intros [[st code] r] _. apply first_range; [lia|]. intros [o r'] _.
  apply execute_counted_range.
Qed.

Lemma roll_counted_rounds cfg st n j N J : stands_for n N -> 0 < N <= Z.of_nat (length st) -> stands_for j J ->
  snd (roll_counted cfg (st ++ [n; j])) = if J =? - 2 ^ 31 then 0 else Z.abs J.
Proof.
  intros Sn L Sj. pose proof (stands_for_range _ _ Sj) as RJ.
  destruct (Z.eqb_spec J (- 2 ^ 31)) as [->|NE].
  - unfold roll_counted. rewrite push_two, (pop_stands_for _ _ _ Sj). cbn [first].
    rewrite (pop_stands_for _ _ _ Sn). cbn [first].
    destruct (Z.ltb_spec N 0); [lia|]. destruct (Z.ltb_spec (Z.of_nat (length st)) N); [lia|].
    destruct (Z.ltb_spec 0 N); [|lia]. change (- 2 ^ 31 ?= 0) with Lt. cbn [first]. unfold neg_i32.
    change (in_i32 (- - 2 ^ 31)) with false. destruct (overflow_checks cfg); reflexivity.
  - pose proof (roll_counted_agrees cfg (st ++ [n; j])) as A.
    set (deep := firstn (length st - Z.to_nat N) st). set (xs := skipn (length st - Z.to_nat N) st).
    assert (Lx : Z.of_nat (length xs) = N) by (unfold xs; rewrite skipn_length; lia).
    assert (Es : st = deep ++ xs) by (symmetry; apply firstn_skipn).
    destruct (roll_pops cfg deep xs n j J) as (ys & E & _); [rewrite Lx; exact Sn|exact Sj|left; exact NE|].
    rewrite app_assoc, <- Es in E. rewrite E in A. set (res := deep ++ ys) in A. clearbody res. clear E. revert A.
    unfold roll_counted. rewrite push_two, (pop_stands_for _ _ _ Sj). cbn [first].
    rewrite (pop_stands_for _ _ _ Sn). cbn [first].
    destruct (Z.ltb_spec N 0); [lia|]. destruct (Z.ltb_spec (Z.of_nat (length st)) N); [lia|].
    destruct (Z.ltb_spec 0 N); [|lia]. destruct (Z.compare_spec J 0) as [->|LJ|LJ]; [reflexivity| |].
    + unfold neg_i32, in_i32. destruct (Z.leb_spec (- 2 ^ 31) (- J)), (Z.ltb_spec (- J) (2 ^ 31)); try lia. cbn [andb first].
      intros A. match goal with |- context [counted ?n ?f ?a] => destruct (counted_spec n f a) as (_ & _ & C) end. rewrite (C _ A). lia.
    + intros A. match goal with |- context [counted ?n ?f ?a] => destruct (counted_spec n f a) as (_ & _ & C) end. rewrite (C _ A). lia.
Qed.

Lemma roll_counted_none cfg st n j J : stands_for n 0 -> stands_for j J -> snd (roll_counted cfg (st ++ [n; j])) = 0.
Proof.
  intros Sn Sj. unfold roll_counted. rewrite push_two, (pop_stands_for _ _ _ Sj). cbn [first].
  rewrite (pop_stands_for _ _ _ Sn). cbn [first]. destruct (Z.of_nat (length st) <? 0); reflexivity.
Qed.

Lemma step_rounds cfg p e xs r st n j N J : routine p = e ++ t2_bytes T2_Roll ++ r -> each t2_number e xs ->
  stack p ++ xs = st ++ [n; j] -> stands_for n N -> 0 <= N <= Z.of_nat (length st) -> stands_for j J ->
  snd (step_counted cfg p) = if (N =? 0) || (J =? - 2 ^ 31) then 0 else Z.abs J.
Proof.
  intros R X St Sn L Sj. rewrite (step_counted_code cfg p e xs T2_Roll r X R). cbn [execute_counted].
  change (stack (loaded p xs r)) with (stack p ++ xs). rewrite St. destruct (Z.eqb_spec N 0) as [->|NZ]; cbn [orb].
  - rewrite <- (roll_counted_none cfg st n j J Sn Sj). destruct (roll_counted cfg (st ++ [n; j])). reflexivity.
  - rewrite <- (roll_counted_rounds cfg st n j N J Sn ltac:(lia) Sj). destruct (roll_counted cfg (st ++ [n; j])). reflexivity.
Qed.

(** Once a loop has been entered it is gone through. *)
Lemma counted_ok {A} (I : A -> Prop) n (body : A -> outcome A) a :
  (forall a, I a -> exists b, body a = Ok b /\ I b) -> I a -> exists b, fst (counted n body a) = Ok b.
Proof.
  intros H Ia. rewrite (proj1 (counted_spec n body a)). destruct (Z.le_gt_cases 0 n) as [L|L].
  - rewrite iter_nat_Z by exact L. generalize (Z.to_nat n) as m. intros m.
    assert (G : exists b, Nat.iter m (fun m => let* a := m in body a) (Ok a) = Ok b /\ I b).
    { induction m as [|m (b & E & Ib)]; [exists a; auto|]. cbn [Nat.iter nat_rect]. unfold Nat.iter in E. rewrite E. cbn [bind]. apply H, Ib. }
    destruct G as (b & E & _). eauto.
  - destruct n; try lia. cbn. eauto.
Qed.

Lemma roll_counted_failed cfg st k : fst (roll_counted cfg st) = Err k -> snd (roll_counted cfg st) = 0.
Proof.
  unfold roll_counted. destruct (pop_i32 st) as [[shift st1]| | |]; cbn [first]; try reflexivity.
  destruct (pop_i32 st1) as [[span st2]| | |]; cbn [first]; try reflexivity.
  destruct (Z.ltb_spec span 0); [reflexivity|]. destruct (Z.ltb_spec (Z.of_nat (length st2)) span); [reflexivity|].
  destruct (Z.ltb_spec 0 span); [|reflexivity].
  assert (Po : (Z.to_nat (Z.of_nat (length st2) - span) < length st2)%nat) by lia.
  set (position := Z.to_nat (Z.of_nat (length st2) - span)) in *. clearbody position.
  destruct (shift ?= 0); [reflexivity| |].
  - destruct (neg_i32 cfg shift) as [n| | |]; cbn [first]; try reflexivity. intros F. exfalso.
    match type of F with fst (counted ?n ?f ?a) = _ =>
      destruct (counted_ok (fun s => length s = length st2) n f a) as (b & E); [|reflexivity|congruence] end.
    intros s Ls. unfold vec_remove. destruct (nth_error s position) as [x|] eqn:Nx; [|apply nth_error_None in Nx; lia].
    cbn [bind]. eexists. split; [reflexivity|]. unfold push. rewrite !app_length, firstn_length, skipn_length. cbn [length]. lia.
  - intros F. exfalso.
    match type of F with fst (counted ?n ?f ?a) = _ =>
      destruct (counted_ok (fun s => length s = length st2) n f a) as (b & E); [|reflexivity|congruence] end.
    intros s Ls. unfold pop. destruct s as [|x s _] using rev_ind; [cbn in Ls; lia|]. rewrite vec_pop_app. cbn [bind].
    rewrite app_length in Ls. cbn [length] in Ls. unfold vec_insert. destruct (Nat.leb_spec position (length s)); [|lia].
    eexists. split; [reflexivity|]. rewrite app_length, firstn_length. cbn [length]. rewrite skipn_length. lia.
Qed.

Lemma step_failed_rounds cfg p k : step cfg p = Err k -> snd (step_counted cfg p) = 0.
Proof.
  rewrite <- step_counted_agrees. unfold step_counted. destruct (done (routine p)); [discriminate|].
  destruct (push_operands _ _ _) as [[[st code] r]| | |]; cbn [first]; try reflexivity.
  destruct (read_t2_operator code r) as [[o r']| | |]; cbn [first]; try reflexivity.
  destruct o; try reflexivity. cbn [execute_counted].
  pose proof (roll_counted_failed cfg (stack (set_stack (set_routine p r') st))) as H.
  destruct (roll_counted _ _) as [m n]. cbn [fst snd] in *. intros F. destruct m; try discriminate. exact (H _ eq_refl).
Qed.

Lemma step_no_rounds cfg p : (forall e xs r, each t2_number e xs -> routine p <> e ++ t2_bytes T2_Roll ++ r) ->
  snd (step_counted cfg p) = 0.
Proof.
  intros N. pose proof (step_counted_agrees cfg p) as A.
  destruct (step_cases cfg p) as [E|[(e & xs & o & r & X & E)|(k & E)]].
  - unfold step_counted. rewrite E. reflexivity.
  - rewrite (step_counted_code cfg p e xs o r X E). destruct o; try reflexivity. destruct (N e xs r X E).
  - unfold step_counted in *. destruct (done (routine p)); [reflexivity|].
    destruct (push_operands _ _ _) as [[[st code] r]|e|w|] eqn:P; try reflexivity. cbn [first].
    destruct (read_t2_operator code r) as [[o r']|e|w|] eqn:Q; try reflexivity. cbn [first] in *.
    apply push_operands_inv in P as (en & xs & b & t & R & X & -> & -> & -> & _).
    apply read_t2_operator_sound in Q. destruct o; try reflexivity.
    destruct (N en xs r' X). rewrite R, Q. reflexivity.
Qed.

(** ** Executions *)

Lemma spent_trace cfg p k q : spent cfg p k q -> exists ops, trace cfg p ops q.
Proof.
  intros S. induction S as [p|p k p' k' q E S (ops & T)|p k x p' k' q E S (ops & T)].
  - exists []. constructor.
  - exists ops. eapply trace_again; [|exact T]. rewrite <- step_counted_agrees, E. reflexivity.
  - exists (x :: ops). eapply trace_emit; [|exact T]. rewrite <- step_counted_agrees, E. reflexivity.
Qed.

Lemma spent_bound cfg b d p k q : spent cfg p k q -> small b p -> (length (callers p) <= d)%nat ->
  (exists ops' q', trace cfg p ops' q' /\ (d < length (callers q'))%nat) \/
  k + (2 ^ 31 - 1) * Z.of_nat (left b d q) <= (2 ^ 31 - 1) * Z.of_nat (left b d p).
Proof.
  intros T. induction T as [p|p k p' k' q C T IH|p k x p' k' q C T IH]; intros Sm D; [right; lia| |].
  - assert (E : step cfg p = Ok (Again p')) by (rewrite <- step_counted_agrees, C; reflexivity).
    pose proof (step_counted_range cfg p) as R. rewrite C in R. cbn [snd] in R.
    pose proof (step_mass _ _ _ b (d - length (callers p)) Sm E) as M. cbn beta iota in M.
    pose proof (step_small _ _ _ b Sm E) as Sq. cbn beta iota in Sq.
    assert (N : (d < length (callers p') \/ length (callers p') <= d /\ left b d p' < left b d p)%nat).
    { unfold left. destruct M as [[Cc M]|[[Cc M]|[Cc M]]].
      - right. rewrite Cc. split; [exact D|lia].
      - destruct (Nat.lt_ge_cases d (length (callers p'))) as [G|G]; auto. right. split; auto. apply M. lia.
      - right. split; [lia|]. replace (d - length (callers p'))%nat with (S (d - length (callers p))) by lia. exact M. }
    destruct N as [N|[D' M']].
    + left. exists [], p'. split; auto. eapply trace_again; [exact E|]. constructor.
    + destruct (IH Sq D') as [(ops' & q' & T' & G)|G]; [|right; nia].
      left. exists ops', q'. split; auto. eapply trace_again; eauto.
  - assert (E : step cfg p = Ok (Yield (Some x) p')) by (rewrite <- step_counted_agrees, C; reflexivity).
    pose proof (step_counted_range cfg p) as R. rewrite C in R. cbn [snd] in R.
    pose proof (step_mass _ _ _ b (d - length (callers p)) Sm E) as M. cbn beta iota in M.
    pose proof (step_small _ _ _ b Sm E) as Sq. cbn beta iota in Sq. destruct M as [Cc M].
    destruct (IH Sq ltac:(rewrite Cc; exact D)) as [(ops' & q' & T' & G)|G].
    + left. exists (x :: ops'), q'. split; auto. eapply trace_emit; eauto.
    + right. unfold left in *. rewrite Cc in G. nia.
Qed.

Lemma spent_program cfg code g l b d k q :
  Forall (fun c => (length c <= b)%nat) g -> Forall (fun c => (length c <= b)%nat) l ->
  spent cfg (new_program code g l) k q ->
  (exists ops' q', trace cfg (new_program code g l) ops' q' /\ (d < length (callers q'))%nat) \/
  k <= (2 ^ 31 - 1) * Z.of_nat (length code * S b ^ d).
Proof.
  intros G L T. destruct (spent_bound cfg b d _ _ _ T) as [H|H]; [split; assumption|cbn; lia|left; exact H|].
  right. rewrite left_new in H. lia.
Qed.

Lemma spent_alone cfg code k q : spent cfg (new_program code [] []) k q ->
  k <= (2 ^ 31 - 1) * Z.of_nat (length code).
Proof.
  intros T. destruct (spent_program cfg code [] [] 0 0 k q ltac:(constructor) ltac:(constructor) T)
    as [(ops' & q' & T' & G)|H]; [|cbn [Nat.pow] in H; rewrite Nat.mul_1_r in H; exact H].
  apply trace_depth in T'; [|reflexivity|reflexivity]. cbn in T'. lia.
Qed.

Lemma rotated_less j xs ys : rotated j xs ys <-> rotated (j mod Z.of_nat (length xs)) xs ys.
Proof. unfold rotated. setoid_rewrite Zplus_mod_idemp_r. reflexivity. Qed.

(** ** A program that rolls one element 2^30 times, any number of times over *)

(** 0 1 -32768 dup mul roll drop *)
Definition grinding : list byte := [x8b; x8c; x1c; x80; x00; x0c; x1b; x0c; x18; x0c; x1e; x0c; x12].

Definition two_30 : f32 := S754_finite false 8388608 7.

Lemma two_30_stands : stands_for two_30 (2 ^ 30).
Proof.
  exists (2 ^ 30). split; [|split; [lia|reflexivity]]. split; [reflexivity|]. split; [reflexivity|].
  unfold two_30. rewrite value_finite, bpow_IZR, <- mult_IZR by lia. reflexivity.
Qed.

Lemma small_stands v : Z.abs v < 2 ^ 24 -> stands_for (f32_of_i32 v) v.
Proof. intros L. exists v. split; [apply integral_of_i32; exact L|]. split; lia. Qed.
Lemma one_stands : stands_for (f32_of_i32 1) 1.
Proof. apply small_stands. lia. Qed.

Lemma rotated_single j x ys : rotated j [x] ys -> ys = [x].
Proof.
  intros [L R]. specialize (R 0%nat x eq_refl). cbn [length] in *. change (Z.of_nat 1) with 1 in R.
  rewrite Z.mod_1_r in R. cbn in R. destruct ys as [|y [|z ys]]; cbn in *; try lia. congruence.
Qed.

Lemma roll_single cfg p z u x J r : routine p = t2_bytes T2_Roll ++ r -> stack p = [z; u; x] ->
  stands_for u 1 -> stands_for x J -> 0 < J ->
  step_counted cfg p = (Ok (Again (set_stack (set_routine p r) [z])), J).
Proof.
  intros R St Su Sx P. pose proof (step_counted_agrees cfg p) as A.
  assert (K : snd (step_counted cfg p) = J).
  { rewrite (step_rounds cfg p [] [] r [z] u x 1 J); auto; try constructor; try lia.
    - cbn [Z.eqb orb]. destruct (Z.eqb_spec J (- 2 ^ 31)); lia.
    - rewrite St. reflexivity.
    - cbn. lia. }
  rewrite (step_code cfg p [] [] T2_Roll r) in A by (constructor || exact R).
  destruct (roll_pops cfg [] [z] u x J Su Sx ltac:(left; lia)) as (ys & Ey & Ry).
  apply rotated_single in Ry as ->. rewrite execute_stack, effect_roll in A by reflexivity.
  cbn [loaded set_stack set_routine stack] in A. rewrite app_nil_r, St in A. cbn [app] in Ey. rewrite Ey in A.
  destruct (step_counted cfg p) as [m n]. cbn [fst snd] in *. rewrite A, K. reflexivity.
Qed.

Lemma grinding_spent cfg p r : routine p = grinding ++ r -> stack p = [] ->
  (forall k q, spent cfg (set_routine p r) k q -> spent cfg p (2 ^ 30 + k) q) /\
  trace cfg p [] (set_routine p r).
Proof.
  intros R St. destruct p as [rt cs gs ls st sm w]. cbn [routine stack] in R, St. subst rt st.
  cbn [set_routine].
  set (now := fun code st => {| routine := code; callers := cs; global := gs; local := ls; stack := st; stems := sm; width := w |}).
  set (z := f32_of_i32 0). set (u := f32_of_i32 1). set (v := f32_of_i32 (-32768)).
  assert (E1 : step_counted cfg (now (grinding ++ r) []) = (Ok (Again (now (skipn 7 grinding ++ r) [z; u; v; v])), 0))
    by reflexivity.
  assert (E2 : step_counted cfg (now (skipn 7 grinding ++ r) [z; u; v; v]) = (Ok (Again (now (skipn 9 grinding ++ r) [z; u; two_30])), 0))
    by reflexivity.
  assert (E3 := roll_single cfg (now (skipn 9 grinding ++ r) [z; u; two_30]) z u two_30 (2 ^ 30) (skipn 11 grinding ++ r)
    eq_refl eq_refl one_stands two_30_stands ltac:(lia)).
  assert (E4 : step_counted cfg (now (skipn 11 grinding ++ r) [z]) = (Ok (Again (now r [])), 0)) by reflexivity.
  split.
  - intros k q H. replace (2 ^ 30 + k) with (0 + (0 + (2 ^ 30 + (0 + k)))) by lia.
    eapply spent_again; [exact E1|]. eapply spent_again; [exact E2|]. eapply spent_again; [exact E3|].
    eapply spent_again; [exact E4|]. exact H.
  - assert (G : forall p x k, step_counted cfg p = (x, k) -> step cfg p = x)
      by (intros p x k E; rewrite <- step_counted_agrees, E; reflexivity).
    apply G in E1, E2, E3, E4. eapply trace_again; [exact E1|]. eapply trace_again; [exact E2|].
    eapply trace_again; [exact E3|]. eapply trace_again; [exact E4|]. constructor.
Qed.

Lemma grinding_many cfg n : forall p r, routine p = concat (repeat grinding n) ++ r -> stack p = [] ->
  spent cfg p (Z.of_nat n * 2 ^ 30) (set_routine p r) /\ trace cfg p [] (set_routine p r).
Proof.
  induction n as [|n IH]; intros p r R St.
  - cbn in R. assert (E : set_routine p r = p) by (destruct p; cbn in *; subst; reflexivity). rewrite E.
    split; constructor.
  - cbn [repeat concat] in R. rewrite <- app_assoc in R.
    destruct (grinding_spent cfg p _ R St) as [H1 H2].
    destruct (IH (set_routine p (concat (repeat grinding n) ++ r)) r eq_refl St) as [I1 I2].
    split.
    + replace (Z.of_nat (S n) * 2 ^ 30) with (2 ^ 30 + Z.of_nat n * 2 ^ 30) by lia. apply H1. exact I1.
    + change (@nil t2_operation) with (@nil t2_operation ++ []). eapply trace_app; [exact H2|exact I2].
Qed.

Lemma grinds cfg n : exists code q q',
  length code = (1 + 13 * n)%nat /\ spent cfg (new_program code [] []) (Z.of_nat n * 2 ^ 30) q /\
  nexts cfg (new_program code [] []) (Ok (None, q')) /\ width q' = None.
Proof.
  exists (concat (repeat grinding n) ++ [x0e]), (set_routine (new_program (concat (repeat grinding n) ++ [x0e]) [] []) [x0e]),
    (new_program [] [] []).
  destruct (grinding_many cfg n (new_program (concat (repeat grinding n) ++ [x0e]) [] []) [x0e] eq_refl eq_refl) as [H1 H2].
  split; [|split; [exact H1|split; [|reflexivity]]].
  - rewrite app_length. clear. induction n as [|n IH]; [reflexivity|]. cbn [repeat concat]. rewrite app_length.
    change (length grinding) with 13%nat. cbn [length] in *. lia.
  - apply (trace_nexts cfg _ _ _ H2). eapply nexts_yield; [|reflexivity]. reflexivity.
Qed.

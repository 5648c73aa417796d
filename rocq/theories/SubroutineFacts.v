(** SubroutineFacts: frames, inlining, termination, and build profiles. *)
From Verif Require Import Base Float T2Operation T2Program BaseFacts SpecProgram T2NumberFacts StepFacts ClearFacts RunFacts
  ListingFacts FloatFacts EvalFacts IntegralFacts StackFacts ExecutionFacts.
Local Open Scope Z_scope.

(** ** More code after the outermost routine, and more callers *)

Fixpoint extend (t : list byte) (cs : list (list byte)) (r : list byte) (fs : list (list byte)) : list byte * list (list byte) :=
  match fs with
  | [] => (r ++ t, cs)
  | f :: fs => let (a, b) := extend t cs f fs in (r, a :: b)
  end.

Definition lift (t : list byte) (cs : list (list byte)) (p : program) : program :=
  let (r, fs) := extend t cs (routine p) (callers p) in set_frames p r fs.

(** What the innermost routine continues with. *)
Definition tail_of (t : list byte) (fs : list (list byte)) : list byte := match fs with [] => t | _ => [] end.

Lemma lift_stack t cs p : stack (lift t cs p) = stack p.
Proof. unfold lift. destruct (extend _ _ _ _). reflexivity. Qed.
Lemma lift_stems t cs p : stems (lift t cs p) = stems p.
Proof. unfold lift. destruct (extend _ _ _ _). reflexivity. Qed.
Lemma lift_width t cs p : width (lift t cs p) = width p.
Proof. unfold lift. destruct (extend _ _ _ _). reflexivity. Qed.
Lemma lift_local t cs p : local (lift t cs p) = local p.
Proof. unfold lift. destruct (extend _ _ _ _). reflexivity. Qed.
Lemma lift_global t cs p : global (lift t cs p) = global p.
Proof. unfold lift. destruct (extend _ _ _ _). reflexivity. Qed.

Lemma lift_routine t cs p : routine (lift t cs p) = routine p ++ tail_of t (callers p).
Proof.
  unfold lift. destruct (callers p) as [|c fs]; cbn [extend tail_of].
  - reflexivity.
  - destruct (extend t cs c fs). cbn. rewrite app_nil_r. reflexivity.
Qed.

(** The callers of an extended program do not depend on the innermost routine. *)
Definition lift_callers (t : list byte) (cs fs : list (list byte)) : list (list byte) :=
  match fs with [] => cs | f :: fs => let (a, b) := extend t cs f fs in a :: b end.

Lemma lift_eq t cs p : lift t cs p = set_frames p (routine p ++ tail_of t (callers p)) (lift_callers t cs (callers p)).
Proof.
  unfold lift. destruct (callers p) as [|c fs]; cbn [extend tail_of lift_callers]; [reflexivity|].
  destruct (extend t cs c fs). rewrite app_nil_r. reflexivity.
Qed.

Lemma take_bytes_more cfg n s t bs r : take_vec cfg 1 take_byte n s = Ok (bs, r) -> 0 <= n <= isize_max ->
  take_vec cfg 1 take_byte n (s ++ t) = Ok (bs, r ++ t).
Proof.
  intros H N. rewrite take_vec_byte in * by lia.
  destruct (Z.leb_spec n (Z.of_nat (length s))); [|discriminate].
  destruct (Z.leb_spec n (Z.of_nat (length (s ++ t)))); [|rewrite app_length in *; lia].
  assert (bs = firstn (Z.to_nat n) s /\ r = skipn (Z.to_nat n) s) as [-> ->] by (split; congruence).
  rewrite firstn_app, skipn_app. replace (Z.to_nat n - length s)%nat with 0%nat by lia.
  cbn [firstn skipn]. rewrite app_nil_r. reflexivity.
Qed.

Lemma mask_size m : 0 <= m < 2 ^ 64 -> 0 <= Z.shiftr m 3 <= isize_max.
Proof.
  intros H. split; [apply Z.shiftr_nonneg; lia|].
  rewrite Z.shiftr_div_pow2 by lia. change (2 ^ 3) with 8. unfold isize_max.
  apply Z.le_trans with (2 ^ 64 / 8); [apply Z.div_le_mono; lia|]. vm_compute. discriminate.
Qed.

(** The same result, in other frames. *)
Lemma clear_frames o l p r fs s : clear o l p = Ok s ->
  exists x q, s = Yield (Some x) q /\ clear o l (set_frames p r fs) = Ok (Yield (Some x) (set_frames q r fs)) /\
    routine q = routine p /\ callers q = callers p.
Proof.
  unfold clear. cbn [stack set_frames width]. destruct (fold_left _ _ _) as [m|]; [|discriminate]. intros H. inv_ok H.
  injection H as <-. eexists _, _. split; [reflexivity|]. rewrite H0. cbn [bind]. split; [reflexivity|]. auto.
Qed.

Lemma execute_lift t cs cfg o p s : execute cfg o p = Ok s ->
  match s with
  | Yield (Some x) q => execute cfg o (lift t cs p) = Ok (Yield (Some x) (lift t cs q))
  | Again q => execute cfg o (lift t cs p) = Ok (Again (lift t cs q))
  | Yield None _ => True
  end.
Proof.
  intros H. destruct (stack_operator o) eqn:So.
  { rewrite execute_stack in * by auto. unfold with_stack in *. inv_ok H. injection H as <-.
    rewrite lift_stack, H0. cbn [bind]. rewrite !lift_eq. reflexivity. }
  destruct (path_operator o) eqn:Ep.
  { rewrite execute_path in * by auto. rewrite (lift_eq t cs p).
    apply (clear_frames _ _ _ (routine p ++ tail_of t (callers p)) (lift_callers t cs (callers p))) in H
      as (x & q & -> & E & R & C). rewrite E, lift_eq, R, C. reflexivity. }
  destruct (stem_operator o) eqn:Es.
  { assert (E : forall p, execute cfg o p = (let* n := add_u64 cfg (stems p) (Z.shiftr (Z.of_nat (length (stack p))) 1) in
        clear o (alternatives_of o) (set_stems p n))) by (intros; destruct o; try discriminate; reflexivity).
    rewrite E in *. rewrite lift_stems, lift_stack. inv_ok H. rewrite H0. cbn [bind]. rewrite (lift_eq t cs p).
    apply (clear_frames _ _ _ (routine p ++ tail_of t (callers p)) (lift_callers t cs (callers p))) in H
      as (x & q & -> & E' & R & C). cbn [routine callers set_stems] in R, C.
    change (set_stems (set_frames p ?r ?f) ?n) with (set_frames (set_stems p n) r f). rewrite E', lift_eq, R, C. reflexivity. }
  destruct (mask_operator o) eqn:Em.
  { assert (E : forall p, execute cfg o p = (let* n := add_u64 cfg (stems p) (Z.shiftr (Z.of_nat (length (stack p))) 1) in
      let* m := add_u64 cfg n 7 in
      let* (_, r) := take_vec cfg 1 take_byte (Z.shiftr m 3) (routine p) in
      clear o (alternatives_of o) (set_routine (set_stems p n) r))) by (intros; destruct o; try discriminate; reflexivity).
    rewrite E in *. rewrite lift_stems, lift_stack, lift_routine. inv_ok H. rewrite H0. cbn [bind]. inv_ok H. rewrite H1. cbn [bind].
    inv_ok H. destruct a1 as [bs r]. apply add_u64_range in H1. pose proof (mask_size _ H1) as Sz.
    rewrite (take_bytes_more _ _ _ _ _ _ H2) by auto. cbn [bind].
    rewrite (lift_eq t cs p).
    apply (clear_frames _ _ _ (r ++ tail_of t (callers p)) (lift_callers t cs (callers p))) in H
      as (x & q & -> & E' & R & C). cbn [routine callers set_stems set_routine] in R, C.
    change (set_routine (set_stems (set_frames p ?r0 ?f) ?n) ?r1) with (set_frames (set_routine (set_stems p n) r) r1 f).
    rewrite E', lift_eq, R, C. reflexivity. }
  assert (Cl : forall subs q, call cfg subs p = Ok q -> call cfg subs (lift t cs p) = Ok (lift t cs q)).
  { intros subs q Hc. unfold call in *. rewrite lift_stack. inv_ok Hc. rewrite H0. destruct a as [a st]. cbn [bind].
    inv_ok Hc. rewrite H1. cbn [bind]. destruct (_ || _); [discriminate|]. destruct (nth_error _ _); [|discriminate].
    injection Hc as <-. f_equal. unfold lift. cbn [callers set_frames routine set_stack extend].
    destruct (extend t cs (routine p) (callers p)). reflexivity. }
  destruct o; try discriminate; cbn [execute] in *.
  - inv_ok H. injection H as <-. rewrite lift_local, (Cl _ _ H0). reflexivity.
  - destruct (callers p) as [|c fs] eqn:Ec; [discriminate|]. injection H as <-.
    unfold lift. cbn [callers set_frames routine]. rewrite Ec. cbn [extend].
    destruct (extend t cs c fs). reflexivity.
  - inv_ok H. injection H as <-. exact I.
  - inv_ok H. injection H as <-. rewrite lift_global, (Cl _ _ H0). reflexivity.
Qed.

Lemma step_lift t cs cfg p s : step cfg p = Ok s ->
  match s with
  | Yield (Some x) q => step cfg (lift t cs p) = Ok (Yield (Some x) (lift t cs q))
  | Again q => step cfg (lift t cs p) = Ok (Again (lift t cs q))
  | Yield None _ => True
  end.
Proof.
  intros H. apply step_inv in H as [[_ ->]|(e & xs & o & r & E & R & H)]; [exact I|].
  assert (L : step cfg (lift t cs p) = execute cfg o (lift t cs (loaded p xs r))).
  { rewrite (step_code cfg (lift t cs p) e xs o (r ++ tail_of t (callers p))); auto.
    - unfold loaded. rewrite !lift_eq. reflexivity.
    - rewrite lift_routine, R, <- !app_assoc. reflexivity. }
  rewrite L. apply execute_lift. exact H.
Qed.

Lemma trace_lift t cs cfg p ops q : trace cfg p ops q -> trace cfg (lift t cs p) ops (lift t cs q).
Proof.
  induction 1 as [p|p p' ops q H T IH|p x p' ops q H T IH].
  - constructor.
  - eapply trace_again; [|exact IH]. exact (step_lift t cs _ _ _ H).
  - eapply trace_emit; [|exact IH]. exact (step_lift t cs _ _ _ H).
Qed.

(** ** Inlining *)

Lemma lift_alone p t cs : callers p = [] -> lift t cs p = set_frames p (routine p ++ t) cs.
Proof. intros C. rewrite lift_eq, C. reflexivity. Qed.

Lemma inline_trace cfg p c pre junk e xs ops q : callers q = [] -> routine q = e -> each t2_number e xs ->
  c <> [] \/ e = [] ->
  trace cfg (alone p pre) ops q ->
  exists a b, trace cfg (set_frames p (pre ++ t2_bytes T2_Return ++ junk) (c :: callers p)) ops a /\
    trace cfg (set_frames p (pre ++ c) (callers p)) ops b /\ step cfg a = step cfg b.
Proof.
  intros C R E N T.
  pose proof (trace_lift (t2_bytes T2_Return ++ junk) (c :: callers p) _ _ _ _ T) as T1.
  pose proof (trace_lift c (callers p) _ _ _ _ T) as T2.
  rewrite lift_alone in T1, T2 by reflexivity. cbn [alone set_frames routine] in T1, T2.
  rewrite lift_alone in T1, T2 by auto. rewrite R in T1, T2.
  eexists _, _. split; [|split; [exact T2|]].
  - rewrite <- (app_nil_r ops). eapply trace_app; [exact T1|]. eapply trace_again; [|apply trace_stop].
    rewrite (step_code cfg _ e xs T2_Return junk) by auto. cbn [execute loaded set_stack set_routine set_frames callers].
    reflexivity.
  - destruct N as [N| ->].
    + rewrite (step_numbers cfg (set_frames q (e ++ c) (callers p)) e xs c) by auto. reflexivity.
    + inversion E as [|e' x es xs' Hx He Eq]; subst.
      * f_equal. unfold loaded, set_frames, set_stack, set_routine. cbn. rewrite app_nil_r. reflexivity.
      * exfalso. apply app_eq_nil in Eq as [-> _]. apply t2_number_consumes in Hx. congruence.
Qed.

Lemma inline_runs cfg p c pre junk e xs ops q r : callers q = [] -> routine q = e -> each t2_number e xs ->
  c <> [] \/ e = [] ->
  trace cfg (alone p pre) ops q ->
  runs cfg (set_frames p (pre ++ t2_bytes T2_Return ++ junk) (c :: callers p)) r <->
  runs cfg (set_frames p (pre ++ c) (callers p)) r.
Proof.
  intros C R E N T. destruct (inline_trace _ _ _ _ junk _ _ _ _ C R E N T) as (a & b & T1 & T2 & S).
  rewrite (trace_runs _ _ _ _ T1), (trace_runs _ _ _ _ T2).
  split; intros (r' & H & ->); exists r'; (split; [|reflexivity]).
  - apply (runs_same _ _ _ _ S). exact H.
  - apply (runs_same _ _ _ _ S). exact H.
Qed.

(** ** Termination *)

(** The frames of a program weighed so that a call costs less than the bytes it takes. *)
Fixpoint mass (w e : nat) (fs : list (list byte)) : nat :=
  match fs with
  | [] => 0
  | f :: fs => length f * w ^ e + mass w (S e) fs
  end%nat.

Definition frames (p : program) : list (list byte) := routine p :: callers p.

Definition small (b : nat) (p : program) : Prop :=
  Forall (fun c => (length c <= b)%nat) (local p) /\ Forall (fun c => (length c <= b)%nat) (global p).

Lemma pow_pos w e : (1 <= w -> 1 <= w ^ e)%nat.
Proof. intros H. induction e; cbn; [lia|]. nia. Qed.

Lemma execute_frames cfg o p s b : small b p -> execute cfg o p = Ok s ->
  match s with
  | Yield (Some _) q => (length (routine q) <= length (routine p))%nat /\ callers q = callers p
  | Again q =>
      (routine q = routine p /\ callers q = callers p) \/
      (callers q = routine p :: callers p /\ (length (routine q) <= b)%nat) \/
      callers p = routine q :: callers q
  | Yield None _ => True
  end.
Proof.
  intros [Sl Sg] H. destruct s as [[x|] q|q]; [| exact I|].
  - apply execute_yields in H as (_ & _ & surplus & _ & _ & _ & -> & _ & _ & M). split; auto.
    destruct (mask_operator o).
    + destruct M as [mask ->]. rewrite app_length. lia.
    + rewrite M. lia.
  - apply execute_again in H as [(_ & st & _ & ->)|[(Ho & H)|(_ & c & cs & C & ->)]]; auto.
    + right. left. apply call_inv in H as (st & code & I & ->). cbn. split; auto.
      destruct Ho as [-> | ->]; [rewrite Forall_forall in Sl|rewrite Forall_forall in Sg]; auto.
Qed.

Lemma step_mass cfg p s b e : small b p -> step cfg p = Ok s ->
  match s with
  | Yield (Some _) q => callers q = callers p /\ (mass (S b) e (frames q) < mass (S b) e (frames p))%nat
  | Again q =>
      (callers q = callers p /\ (mass (S b) e (frames q) < mass (S b) e (frames p))%nat) \/
      (length (callers q) = S (length (callers p)) /\
       forall e', e = S e' -> (mass (S b) e' (frames q) < mass (S b) e (frames p))%nat) \/
      (S (length (callers q)) = length (callers p) /\ (mass (S b) (S e) (frames q) < mass (S b) e (frames p))%nat)
  | Yield None _ => True
  end.
Proof.
  intros Sm H. pose proof H as H'. apply step_inv in H as [[_ ->]|(en & xs & o & r & E & R & H)]; [exact I|].
  apply (execute_frames _ _ _ _ b) in H; [|exact Sm]. cbn [routine callers loaded set_stack set_routine] in H.
  assert (L : (length r < length (routine p))%nat).
  { rewrite R, !app_length. pose proof (t2_bytes_not_nil o). destruct (t2_bytes o); [congruence|]. cbn. lia. }
  unfold frames. pose proof (pow_pos (S b) e ltac:(lia)) as W. destruct s as [[x|] q|q]; auto.
  - destruct H as [H C]. split; auto. cbn [mass]. rewrite C. nia.
  - destruct H as [[Hr C]|[[C Hr]|C]].
    + left. split; auto. cbn [mass]. rewrite C, Hr. nia.
    + right. left. rewrite C. split; [reflexivity|]. intros e' ->. cbn [mass].
      cbn [Nat.pow] in *. pose proof (pow_pos (S b) e' ltac:(lia)). nia.
    + right. right. rewrite C. split; [reflexivity|]. cbn [mass]. nia.
Qed.

Lemma step_small cfg p s b : small b p -> step cfg p = Ok s ->
  small b (match s with Yield _ q => q | Again q => q end).
Proof.
  intros [Sl Sg] H. apply step_subs in H. cbn zeta in H. destruct H as [G L]. unfold small. rewrite G, L. split; auto.
Qed.

Lemma step_fuel cfg p : step cfg p <> OutOfFuel.
Proof.
  destruct (step_cases cfg p) as [E|[(e & xs & o & r & X & E)|(k & E)]].
  - rewrite step_empty by auto. discriminate.
  - rewrite (step_code _ _ _ _ _ _ X E). clear.
    assert (Q : forall o l q, clear o l q <> OutOfFuel).
    { intros o' l q. unfold clear. destruct (fold_left _ _ _); [|discriminate]. destruct (_ && _); [|discriminate].
      destruct (nth_error _ _); discriminate. }
    assert (A : forall a b, add_u64 cfg a b <> OutOfFuel).
    { intros a b. unfold add_u64. destruct (in_u64 _); [discriminate|]. destruct (overflow_checks cfg); discriminate. }
    assert (P : forall st, pop st <> OutOfFuel) by (intros st; unfold pop; destruct (vec_pop st) as [[? ?]|]; discriminate).
    assert (Pb : forall st, pop_bool st <> OutOfFuel) by (intros st; unfold pop_bool; destruct (vec_pop st) as [[? ?]|]; discriminate).
    assert (Pi : forall st, pop_i32 st <> OutOfFuel) by (intros st; unfold pop_i32; destruct (vec_pop st) as [[? ?]|]; [destruct (f32_eqb _ _)|]; discriminate).
    assert (Rt : forall i st, read_from_top i st <> OutOfFuel).
    { intros i st. unfold read_from_top. destruct (_ <=? _); [discriminate|]. destruct (nth_error _ _); discriminate. }
    assert (It : forall f n m, (forall m, m <> OutOfFuel -> f m <> OutOfFuel) -> m <> OutOfFuel -> @Z.iter n (outcome (list f32)) f m <> OutOfFuel).
    { intros f n m F M. destruct (Z.le_gt_cases 0 n) as [N|N].
      - rewrite iter_nat_Z by auto. induction (Z.to_nat n); [exact M|]. cbn. apply F. exact IHn0.
      - destruct n; try lia. exact M. }
    assert (Bn : forall A B (m : outcome A) (f : A -> outcome B), m <> OutOfFuel -> (forall a, f a <> OutOfFuel) -> bind m f <> OutOfFuel).
    { intros A0 B0 m f M F. destruct m; cbn; auto; discriminate. }
    assert (Rl : forall st, roll cfg st <> OutOfFuel).
    { intros st. unfold roll. apply Bn; [apply Pi|]. intros [sh st1]. apply Bn; [apply Pi|]. intros [sp st2].
      destruct (sp <? 0); [discriminate|]. destruct (_ <? sp); [discriminate|]. destruct (0 <? sp); [|discriminate].
      destruct (sh ?= 0); [discriminate| |].
      - apply Bn; [unfold neg_i32; destruct (in_i32 _); [discriminate|]; destruct (overflow_checks cfg); discriminate|].
        intros n. apply It; [|discriminate]. intros m M. apply Bn; auto. intros st3. apply Bn; [|intros [? ?]; discriminate].
        unfold vec_remove. destruct (nth_error _ _); discriminate.
      - apply It; [|discriminate]. intros m M. apply Bn; auto. intros st3. apply Bn; [apply P|]. intros [? ?].
        unfold vec_insert. destruct (Nat.leb _ _); discriminate. }
    assert (Cl : forall subs q, call cfg subs q <> OutOfFuel).
    { intros subs q. unfold call. apply Bn; [apply Pi|]. intros [a st]. apply Bn.
      - unfold add_i32. destruct (in_i32 _); [discriminate|]. destruct (overflow_checks cfg); discriminate.
      - intros i. destruct (_ || _); [discriminate|]. destruct (nth_error _ _); discriminate. }
    assert (Uw : forall cs r, unwind r cs <> OutOfFuel).
    { induction cs as [|c cs IH]; intros r0; cbn; [discriminate|]. destruct (done r0); [apply IH|discriminate]. }
    assert (Tv : forall n s, take_vec cfg 1 take_byte n s <> OutOfFuel).
    { intros n s. unfold take_vec. destruct (_ && _); [discriminate|]. rewrite take_n_byte. destruct (Nat.leb _ _); discriminate. }
    destruct o; cbn [execute]; unfold with_stack, unary, binary;
      try destruct (callers _); try discriminate; try apply Q;
      repeat (apply Bn; [solve [auto]|intros; repeat match goal with a : _ * _ |- _ => destruct a end]);
      try apply Q; try discriminate.
    all: repeat (apply Bn; [repeat (apply Bn; [solve [auto]|intros; repeat match goal with a : _ * _ |- _ => destruct a end]); try discriminate; auto|intros; discriminate]).
  - congruence.
Qed.

(** How much is left, with calls nested at most [d] deep. *)
Definition left (b d : nat) (p : program) : nat := mass (S b) (d - length (callers p)) (frames p).

Lemma next_terminates cfg b d n : forall p, small b p -> (length (callers p) <= d)%nat -> (left b d p < n)%nat ->
  (exists q, trace cfg p [] q /\ (d < length (callers q))%nat) \/
  (next cfg n p <> OutOfFuel /\ forall x q, next cfg n p = Ok (Some x, q) ->
     small b q /\ (length (callers q) <= d)%nat /\ (left b d q < left b d p)%nat /\ trace cfg p [x] q).
Proof.
  induction n as [|n IH]; intros p Sm D L; [lia|]. cbn [next]. pose proof (step_fuel cfg p) as F.
  destruct (step cfg p) as [s|k|k|] eqn:E; cbn [bind]; try (right; split; [discriminate|discriminate]); [|congruence].
  pose proof (step_mass _ _ _ b (d - length (callers p)) Sm E) as M. pose proof (step_small _ _ _ b Sm E) as Sq.
  destruct s as [[x|] q|q].
  - right. split; [discriminate|]. intros x' q' H. injection H as <- <-. destruct M as [C M]. unfold left. rewrite C.
    repeat split; try apply Sq; auto. eapply trace_emit; eauto. constructor.
  - right. split; discriminate.
  - assert (N : (d < length (callers q))%nat \/ (length (callers q) <= d)%nat /\ (left b d q < left b d p)%nat).
    { unfold left. destruct M as [[C M]|[[C M]|[C M]]].
      - right. rewrite C. auto.
      - destruct (Nat.lt_ge_cases d (length (callers q))) as [G|G]; auto. right. split; auto.
        apply M. lia.
      - right. split; [lia|]. replace (d - length (callers q))%nat with (S (d - length (callers p))) by lia. exact M. }
    destruct N as [N|[D' M']].
    + left. exists q. split; auto. eapply trace_again; eauto. constructor.
    + destruct (IH q Sq D' ltac:(lia)) as [(q' & T & G)|[NF G]].
      * left. exists q'. split; auto. eapply trace_again; eauto.
      * right. split; auto. intros x q' H. destruct (G x q' H) as (G1 & G2 & G3 & G4). repeat split; try apply G1; auto; [lia|].
        eapply trace_again; eauto.
Qed.

Lemma run_terminates cfg b d n : forall p, small b p -> (length (callers p) <= d)%nat -> (left b d p < n)%nat ->
  (exists ops q, trace cfg p ops q /\ (d < length (callers q))%nat) \/ run cfg n p <> OutOfFuel.
Proof.
  induction n as [|n IH]; intros p Sm D L; [lia|]. cbn [run].
  destruct (next_terminates cfg b d (S n) p Sm D L) as [(q & T & G)|[F G]]; [left; eauto|].
  destruct (next cfg (S n) p) as [[[x|] q]|k|k|] eqn:E; cbn [bind]; try (right; discriminate); [|congruence].
  destruct (G x q eq_refl) as (Sq & Dq & Lq & T). destruct (IH q Sq Dq ltac:(lia)) as [(ops & q' & T' & G')|R].
  - left. exists (x :: ops), q'. split; auto. change (x :: ops) with ([x] ++ ops). eapply trace_app; eauto.
  - right. destruct (run cfg n q) as [[ops q']| | |]; cbn; congruence.
Qed.

Lemma left_new b d code g l : left b d (new_program code g l) = (length code * S b ^ d)%nat.
Proof. unfold left, frames, new_program. cbn [callers routine mass length]. rewrite Nat.sub_0_r. lia. Qed.

(** Without subroutines there are no calls. *)
Lemma trace_depth cfg p ops q : trace cfg p ops q -> local p = [] -> global p = [] ->
  (length (callers q) <= length (callers p))%nat.
Proof.
  induction 1 as [p|p p' ops q H T IH|p x p' ops q H T IH]; intros L G; auto.
  - pose proof (step_subs _ _ _ H) as [G' L']. specialize (IH ltac:(congruence) ltac:(congruence)).
    apply step_inv in H as [[_ H]|(e & xs & o & r & _ & _ & H)]; [discriminate|].
    apply execute_again in H as [(_ & st & _ & ->)|[(Ho & H)|(_ & c & cs & C & ->)]].
    + exact IH.
    + exfalso. apply call_inv in H as (st & code & I & _). cbn in I. rewrite L, G in I. destruct o; destruct I.
    + cbn in *. rewrite C. cbn. lia.
  - pose proof (step_subs _ _ _ H) as [G' L']. specialize (IH ltac:(congruence) ltac:(congruence)).
    apply step_inv in H as [[_ H]|(e & xs & o & r & _ & _ & H)]; [discriminate|].
    apply execute_yields in H as (_ & _ & s & _ & _ & _ & C & _). cbn in C. rewrite C in IH. exact IH.
Qed.

(** ** Build profiles *)

Definition agree {A} (m m' : outcome A) : Prop := quiet m -> m' = m.

Lemma agree_refl {A} (m : outcome A) : agree m m.
Proof. intros _. reflexivity. Qed.

Lemma agree_bind {A B} (m m' : outcome A) (f f' : A -> outcome B) :
  agree m m' -> (forall a, m = Ok a -> agree (f a) (f' a)) -> agree (bind m f) (bind m' f').
Proof.
  intros M F. unfold agree in *. destruct m as [a|k|k|]; cbn [bind quiet] in *; intros Q.
  - rewrite (M I). cbn. apply F; auto.
  - rewrite (M I). reflexivity.
  - destruct Q.
  - rewrite (M I). reflexivity.
Qed.

Section Profiles.
  Context (cfg cfg' : config) (O : overflow_checks cfg = true).

  Lemma agree_add_u64 a b : agree (add_u64 cfg a b) (add_u64 cfg' a b).
  Proof. unfold agree, add_u64. destruct (in_u64 _); [reflexivity|]. rewrite O. intros []. Qed.
  Lemma agree_add_i32 a b : agree (add_i32 cfg a b) (add_i32 cfg' a b).
  Proof. unfold agree, add_i32. destruct (in_i32 _); [reflexivity|]. rewrite O. intros []. Qed.
  Lemma agree_neg_i32 a : agree (neg_i32 cfg a) (neg_i32 cfg' a).
  Proof. unfold agree, neg_i32. destruct (in_i32 _); [reflexivity|]. rewrite O. intros []. Qed.
  Lemma agree_mask m s : 0 <= m < 2 ^ 64 ->
    agree (take_vec cfg 1 take_byte (Z.shiftr m 3) s) (take_vec cfg' 1 take_byte (Z.shiftr m 3) s).
  Proof. intros H _. apply mask_size in H. rewrite !take_vec_byte by lia. reflexivity. Qed.

  Lemma agree_roll st : agree (roll cfg st) (roll cfg' st).
  Proof.
    unfold roll. apply agree_bind; [apply agree_refl|]. intros [sh st1] _. apply agree_bind; [apply agree_refl|].
    intros [sp st2] _. destruct (sp <? 0); [apply agree_refl|]. destruct (_ <? sp); [apply agree_refl|].
    destruct (0 <? sp); [|apply agree_refl]. destruct (sh ?= 0); try apply agree_refl.
    apply agree_bind; [apply agree_neg_i32|]. intros n _. apply agree_refl.
  Qed.

  Lemma agree_call subs p : agree (call cfg subs p) (call cfg' subs p).
  Proof.
    unfold call. apply agree_bind; [apply agree_refl|]. intros [a st] _.
    apply agree_bind; [apply agree_add_i32|]. intros i _. apply agree_refl.
  Qed.

  Lemma agree_execute o p : agree (execute cfg o p) (execute cfg' o p).
  Proof.
    destruct o; cbn [execute]; try apply agree_refl; unfold with_stack.
    all: try (apply agree_bind; [first [apply agree_add_u64|apply agree_call|apply agree_roll]|]; intros n Hn; try apply agree_refl).
    all: apply agree_bind; [apply agree_add_u64|]; intros m Hm.
    all: apply agree_bind; [apply agree_mask; eapply add_u64_range; eauto|]; intros [bs r] _; apply agree_refl.
  Qed.

  Lemma agree_step p : agree (step cfg p) (step cfg' p).
  Proof.
    unfold step. destruct (done (routine p)); [apply agree_refl|].
    apply agree_bind; [apply agree_refl|]. intros [[st code] r] _. apply agree_bind; [apply agree_refl|].
    intros [o r'] _. apply agree_execute.
  Qed.

  Lemma agree_next f : forall p, agree (next cfg f p) (next cfg' f p).
  Proof.
    induction f as [|f IH]; intros p; [apply agree_refl|]. cbn [next]. apply agree_bind; [apply agree_step|].
    intros [x q|q] _; [apply agree_refl|apply IH].
  Qed.

  Lemma agree_run f : forall p, agree (run cfg f p) (run cfg' f p).
  Proof.
    induction f as [|f IH]; intros p; [apply agree_refl|]. cbn [run]. apply agree_bind; [apply agree_next|].
    intros [[x|] q] _; [|apply agree_refl]. apply agree_bind; [apply IH|]. intros [ops q'] _. apply agree_refl.
  Qed.
End Profiles.

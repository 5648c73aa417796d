(** SizeFacts: how much executing a character string can produce. *)
From Verif Require Import Base Float C1Number C1Operation C1Index SpecNumber SpecOperation SpecIndex NumberFacts
  OperationFacts IndexFacts T2Operation T2Program BaseFacts SpecProgram T2NumberFacts StepFacts ClearFacts
  RunFacts StackFacts EvalFacts ExecutionFacts SubroutineFacts ProgramFacts SpecSize.
Local Open Scope nat_scope.

Definition same_length (n : nat) (m : outcome (list f32)) : Prop := forall st, m = Ok st -> length st = n.

Lemma pop_length st x st' : pop st = Ok (x, st') -> length st = S (length st').
Proof. intros H. apply pop_inv in H. subst. rewrite app_length. cbn. lia. Qed.
Lemma pop_bool_length st x st' : pop_bool st = Ok (x, st') -> length st = S (length st').
Proof. intros H. apply pop_bool_inv in H as [y ->]. rewrite app_length. cbn. lia. Qed.
Lemma pop_i32_length st x st' : pop_i32 st = Ok (x, st') -> length st = S (length st').
Proof. intros H. apply pop_i32_inv in H as [y ->]. rewrite app_length. cbn. lia. Qed.

Lemma up_length n k m : same_length n m -> same_length n (up k m).
Proof.
  intros V st H. unfold up in H. inv_ok H. inv_ok H. destruct a0 as [x st']. apply V in H0. apply pop_length in H1.
  unfold vec_insert in H. destruct (Nat.leb _ _); [|discriminate]. injection H as <-.
  rewrite <- (firstn_skipn k st'), app_length in H1. rewrite app_length. cbn [length] in *. lia.
Qed.

Lemma down_length n k m : same_length n m -> same_length n (down k m).
Proof.
  intros V st H. unfold down in H. inv_ok H. inv_ok H. destruct a0 as [x st']. apply V in H0.
  injection H as <-. unfold vec_remove in H1. destruct (nth_error a k) eqn:E; [|discriminate]. injection H1 as -> <-.
  assert (L : k < length a) by (apply nth_error_Some; congruence).
  change (length ((firstn k a ++ skipn (S k) a) ++ [x]) = n).
  rewrite !app_length, firstn_length, skipn_length. cbn [length]. lia.
Qed.

Lemma iter_length n f k : (forall m, same_length n m -> same_length n (f m)) ->
  forall m, same_length n m -> same_length n (Z.iter k f m).
Proof.
  intros F m V. destruct (Z.le_gt_cases 0 k) as [L|L].
  - rewrite iter_nat_Z by auto. induction (Z.to_nat k); [exact V|]. cbn [Nat.iter nat_rect]. apply F. exact IHn0.
  - destruct k; try lia. exact V.
Qed.

Lemma effect_length cfg o st st' : effect cfg o st = Ok st' -> stack_operator o = true ->
  length st' <= S (length st).
Proof.
  intros H S. unfold effect in H. rewrite execute_stack in H by auto.
  unfold with_stack in H. cbn [stack] in H.
  destruct o; try discriminate; cbn [execute stack] in H; unfold effect, execute, with_stack in H; cbn [stack] in H;
    unfold unary, binary, push_bool, push in H.
  all: repeat match type of H with
    | context [bind (pop ?s) _] => let E := fresh "E" in destruct (pop s) as [[? ?]| | |] eqn:E; cbn [bind stack set_stack] in H; try discriminate H
    | context [bind (pop_bool ?s) _] => let E := fresh "E" in destruct (pop_bool s) as [[? ?]| | |] eqn:E; cbn [bind stack set_stack] in H; try discriminate H
    | context [bind (pop_i32 ?s) _] => let E := fresh "E" in destruct (pop_i32 s) as [[? ?]| | |] eqn:E; cbn [bind stack set_stack] in H; try discriminate H
    | context [bind (read_from_top ?i ?s) _] => let E := fresh "E" in destruct (read_from_top i s) as [?| | |] eqn:E; cbn [bind stack set_stack] in H; try discriminate H
    end.
  all: repeat match goal with
    | E : pop _ = Ok (_, _) |- _ => apply pop_length in E
    | E : pop_bool _ = Ok (_, _) |- _ => apply pop_bool_length in E
    | E : pop_i32 _ = Ok (_, _) |- _ => apply pop_i32_length in E
    end.
  all: try (injection H as <-; rewrite ?app_length; cbn [length]; rewrite ?app_length; cbn [length]; lia).
  destruct (roll cfg st) as [st1| | |] eqn:R; cbn in H; try discriminate. injection H as <-. clear S.
  unfold roll in R. inv_ok R. destruct a as [sh st2]. inv_ok R. destruct a as [sp st3].
  apply pop_i32_length in H, H0.
  enough (length st1 = length st3) by lia.
  destruct (Z.ltb sp 0); [discriminate|]. destruct (Z.ltb _ sp); [discriminate|]. destruct (Z.ltb 0 sp); [|congruence].
  destruct (Z.compare sh 0).
  - congruence.
  - inv_ok R. revert R. apply iter_length; [intros; apply down_length; auto|]. intros s' E. congruence.
  - revert R. apply iter_length; [intros; apply up_length; auto|]. intros s' E. congruence.
Qed.

Lemma call_length cfg subs p q : call cfg subs p = Ok q -> length (stack q) < length (stack p).
Proof.
  unfold call. intros H. inv_ok H. destruct a as [a st]. apply pop_i32_length in H0. inv_ok H.
  destruct ((a0 <? 0)%Z || _)%bool; [discriminate|]. destruct (nth_error subs _); [|discriminate]. injection H as <-.
  cbn [set_frames set_stack stack]. lia.
Qed.

Lemma step_size cfg p s b e : small b p -> step cfg p = Ok s ->
  match s with
  | Yield (Some x) q =>
      callers q = callers p /\
      S (length (snd x)) + length (stack q) + mass (S b) e (frames q) <= length (stack p) + mass (S b) e (frames p)
  | Again q =>
      (callers q = callers p /\
       length (stack q) + mass (S b) e (frames q) <= length (stack p) + mass (S b) e (frames p)) \/
      (length (callers q) = S (length (callers p)) /\
       forall e', e = S e' -> length (stack q) + mass (S b) e' (frames q) <= length (stack p) + mass (S b) e (frames p)) \/
      (S (length (callers q)) = length (callers p) /\
       length (stack q) + mass (S b) (S e) (frames q) <= length (stack p) + mass (S b) e (frames p))
  | Yield None q => length (stack q) <= length (stack p) + mass (S b) e (frames p)
  end.
Proof.
  intros Sm H. pose proof (pow_pos (S b) e ltac:(lia)) as W.
  apply step_inv in H as [[E ->]|(en & xs & o & r & E & R & H)]; [lia|].
  pose proof (each_consumes_length _ _ _ t2_number_consumes E) as Le.
  assert (Lo : 1 <= length (t2_bytes o)).
  { pose proof (t2_bytes_not_nil o). destruct (t2_bytes o); [congruence|]. cbn. lia. }
  assert (L : length (routine p) = length en + length (t2_bytes o) + length r) by (rewrite R, !app_length; lia).
  assert (K : length xs + 1 + length r <= length (routine p)) by lia.
  unfold frames.
  pose proof (execute_frames _ _ (loaded p xs r) _ b Sm H) as F. cbn [routine callers loaded set_stack set_routine] in F.
  destruct s as [[x|] q|q].
  - destruct F as [F C]. split; auto. apply execute_yields in H as (_ & _ & surplus & (St & _) & Sq & _).
    cbn [loaded set_stack set_routine stack] in St. rewrite Sq, C. cbn [mass length].
    assert (length (snd x) <= length (stack p) + length xs).
    { apply (f_equal (@length f32)) in St. rewrite !app_length in St. lia. }
    nia.
  - apply execute_none in H as (_ & r' & _ & ->). cbn [loaded set_stack set_routine set_width set_frames stack mass].
    rewrite app_length. nia.
  - apply execute_again in H as [(So & st & Ef & ->)|[(Ho & H)|(_ & c & cs & C & ->)]].
    + left. split; [reflexivity|]. apply effect_length in Ef; auto.
      cbn [loaded set_stack set_routine stack routine callers mass] in *. rewrite app_length in Ef. nia.
    + right. left. pose proof (call_length _ _ _ _ H) as Hl. cbn [loaded set_stack set_routine stack] in Hl.
      rewrite app_length in Hl. apply call_inv in H as (st & code & I & E').
      assert (C : callers q = r :: callers p) by (rewrite E'; reflexivity).
      assert (B : length (routine q) <= b).
      { destruct F as [[_ F]|[[_ F]|F]]; [|exact F|]; rewrite C in F; apply (f_equal (@length (list byte))) in F;
          cbn in F; lia. }
      rewrite C. split; [reflexivity|]. intros e' ->. cbn [mass Nat.pow] in *.
      pose proof (pow_pos (S b) e' ltac:(lia)). nia.
    + right. right. cbn [loaded set_stack set_routine callers] in C.
      cbn [set_frames callers routine stack loaded set_stack set_routine].
      rewrite C. split; [reflexivity|]. cbn [mass]. rewrite app_length. nia.
Qed.

Lemma trace_size cfg b d p ops q : trace cfg p ops q -> small b p -> length (callers p) <= d ->
  (exists ops' q', trace cfg p ops' q' /\ d < length (callers q')) \/
  count_operations ops + length (stack q) + left b d q <= length (stack p) + left b d p.
Proof.
  intros T. induction T as [p|p p' ops q E T IH|p x p' ops q E T IH]; intros Sm D.
  - right. cbn. lia.
  - pose proof (step_size _ _ _ b (d - length (callers p)) Sm E) as M. cbn beta iota in M.
    pose proof (step_small _ _ _ b Sm E) as Sq. cbn beta iota in Sq.
    assert (N : d < length (callers p') \/ length (callers p') <= d /\
      length (stack p') + left b d p' <= length (stack p) + left b d p).
    { unfold left. destruct M as [[C M]|[[C M]|[C M]]].
      - right. rewrite C. auto.
      - destruct (Nat.lt_ge_cases d (length (callers p'))) as [G|G]; auto. right. split; auto. apply M. lia.
      - right. split; [lia|]. replace (d - length (callers p')) with (S (d - length (callers p))) by lia. exact M. }
    destruct N as [N|[D' M']].
    + left. exists [], p'. split; auto. eapply trace_again; [exact E|]. constructor.
    + destruct (IH Sq D') as [(ops' & q' & T' & G)|G]; [|right; lia].
      left. exists ops', q'. split; auto. eapply trace_again; eauto.
  - pose proof (step_size _ _ _ b (d - length (callers p)) Sm E) as M. cbn beta iota in M.
    pose proof (step_small _ _ _ b Sm E) as Sq. cbn beta iota in Sq. destruct M as [C M].
    destruct (IH Sq ltac:(rewrite C; exact D)) as [(ops' & q' & T' & G)|G].
    + left. exists (x :: ops'), q'. split; auto. eapply trace_emit; eauto.
    + right. change (count_operations (x :: ops)) with (S (length (snd x)) + count_operations ops).
      unfold left in *. rewrite C in G. lia.
Qed.

Lemma program_size cfg code g l b d ops q :
  Forall (fun c => length c <= b) g -> Forall (fun c => length c <= b) l ->
  trace cfg (new_program code g l) ops q ->
  (exists ops' q', trace cfg (new_program code g l) ops' q' /\ d < length (callers q')) \/
  count_operations ops + length (stack q) <= length code * S b ^ d.
Proof.
  intros G L T. destruct (trace_size cfg b d _ _ _ T) as [H|H]; [split; assumption|cbn; lia|left; exact H|].
  right. rewrite left_new in H. cbn [new_program stack length] in H. lia.
Qed.

Lemma program_size_alone cfg code ops q : trace cfg (new_program code [] []) ops q ->
  count_operations ops + length (stack q) <= length code.
Proof.
  intros T. destruct (program_size cfg code [] [] 0 0 ops q ltac:(constructor) ltac:(constructor) T)
    as [(ops' & q' & T' & G)|H]; [|cbn in H; lia].
  apply trace_depth in T'; [|reflexivity|reflexivity]. cbn in T'. lia.
Qed.

(** ** Programs that grow *)

(** The first subroutine moves once, and each of the others calls the one before it twice. *)
Definition call_of (i : nat) : list byte := [zb (32 + Z.of_nat i); x0a].
Definition doubling (n : nat) : list (list byte) :=
  [x8b; x16; x0b] :: map (fun i => call_of i ++ call_of i ++ [x0b]) (seq 0 n).

Lemma doubling_nth n i : i < n -> nth_error (doubling n) (S i) = Some (call_of i ++ call_of i ++ [x0b]).
Proof.
  intros H. cbn [doubling nth_error]. apply (map_nth_error (fun i => call_of i ++ call_of i ++ [x0b])).
  rewrite nth_error_nth' with (d := 0) by (rewrite seq_length; exact H). f_equal. apply seq_nth. exact H.
Qed.

Lemma doubling_enter cfg n i p r code : i <= n -> n <= 214 -> local p = doubling n -> stack p = [] ->
  routine p = call_of i ++ r -> nth_error (doubling n) i = Some code ->
  step cfg p = Ok (Again (set_frames p code (r :: callers p))).
Proof.
  intros Hi Hn L St R Nth.
  assert (Z : bz (zb (32 + Z.of_nat i)) = (32 + Z.of_nat i)%Z) by (apply bz_zb; lia).
  rewrite (call_transfers cfg p T2_CallSubr (doubling n) [zb (32 + Z.of_nat i)]
    (map (fun b => f32_of_i32 (bz b - 139)) [zb (32 + Z.of_nat i)]) r [] (f32_of_i32 (Z.of_nat i - 107)) code).
  - destruct p. cbn in *. subst. reflexivity.
  - left. auto.
  - unfold doubling. cbn [length]. rewrite map_length, seq_length. lia.
  - exact R.
  - apply numbers_of_bytes. constructor; [lia|constructor].
  - rewrite St. cbn [map app]. rewrite Z. do 2 f_equal. lia.
  - exists (Z.of_nat i - 107)%Z, 107%Z. split; [apply integral_of_i32; lia|]. split.
    { left. unfold doubling. cbn [length]. rewrite map_length, seq_length. split; [lia|reflexivity]. }
    split; [lia|]. replace (Z.to_nat _) with i by lia. exact Nth.
Qed.

Lemma doubling_return cfg p r cs : routine p = [x0b] -> callers p = r :: cs -> stack p = [] ->
  step cfg p = Ok (Again (set_frames p r cs)).
Proof.
  intros R C St. rewrite (step_code cfg p [] [] T2_Return []) by (constructor || exact R).
  cbn [execute loaded set_stack set_routine callers]. rewrite C. destruct p. cbn in *. subst. reflexivity.
Qed.

Lemma doubling_calls cfg n i : i <= n -> n <= 214 -> forall p r, local p = doubling n -> stack p = [] ->
  routine p = call_of i ++ r ->
  exists ops q, trace cfg p ops q /\ length ops = 2 ^ i /\ local q = doubling n /\ stack q = [] /\ routine q = r /\
    callers q = callers p.
Proof.
  intros Hi Hn. induction i as [|i IH]; intros p r L St R.
  - pose proof (doubling_enter cfg n 0 p r _ Hi Hn L St R eq_refl) as E1. set (p1 := set_frames p _ _) in E1.
    assert (E2 : step cfg p1 = execute cfg T2_HMoveTo (loaded p1 [f32_of_i32 0] [x0b])).
    { apply (step_code cfg p1 [x8b] [f32_of_i32 0] T2_HMoveTo [x0b]); [|reflexivity].
      apply (numbers_of_bytes [x8b]). constructor; [cbn; lia|constructor]. }
    assert (Lg : longest T2_HMoveTo (stack (loaded p1 [f32_of_i32 0] [x0b])) [] [f32_of_i32 0]).
    { cbn [loaded set_stack set_routine stack p1 set_frames]. rewrite St. split; [reflexivity|]. split; [reflexivity|].
      intros m -> _. apply le_n. }
    destruct (step cfg p1) as [s| | |] eqn:E3.
    all: cbn [execute] in E2.
    all: erewrite clear_ok in E2 by (try exact Lg; apply (alternatives_described T2_HMoveTo eq_refl)).
    all: try discriminate.
    injection E2 as ->. set (p2 := set_width _ _) in E3.
    assert (E4 : step cfg p2 = Ok (Again (set_frames p2 r (callers p)))) by (apply doubling_return; reflexivity).
    exists [(T2_HMoveTo, [f32_of_i32 0])], (set_frames p2 r (callers p)).
    split; [eapply trace_again; [exact E1|]; eapply trace_emit; [exact E3|]; eapply trace_again; [exact E4|]; constructor|].
    repeat split. exact L.
  - pose proof (doubling_enter cfg n (S i) p r _ Hi Hn L St R (doubling_nth n i Hi)) as E1.
    set (p1 := set_frames p _ _) in E1.
    destruct (IH ltac:(lia) p1 (call_of i ++ [x0b]) L St eq_refl) as (ops1 & q1 & T1 & N1 & L1 & S1 & R1 & C1).
    destruct (IH ltac:(lia) q1 [x0b] L1 S1 R1) as (ops2 & q2 & T2 & N2 & L2 & S2 & R2 & C2).
    assert (E4 : step cfg q2 = Ok (Again (set_frames q2 r (callers p)))).
    { apply doubling_return; auto. rewrite C2, C1. reflexivity. }
    exists (ops1 ++ ops2), (set_frames q2 r (callers p)). split.
    { eapply trace_again; [exact E1|]. eapply trace_app; [exact T1|]. rewrite <- (app_nil_r ops2).
      eapply trace_app; [exact T2|]. eapply trace_again; [exact E4|]. constructor. }
    rewrite app_length, N1, N2. cbn [Nat.pow]. repeat split; auto. lia.
Qed.

Lemma doubling_length n : length (concat (doubling n)) = 3 + 5 * n.
Proof.
  enough (H : forall k, length (concat (map (fun i => call_of i ++ call_of i ++ [x0b]) (seq k n))) = 5 * n).
  { unfold doubling. cbn [concat]. rewrite app_length, H. reflexivity. }
  induction n as [|n IH]; intros k; [reflexivity|]. cbn [seq map concat]. rewrite app_length, IH. cbn. lia.
Qed.

Lemma program_grows cfg n : n <= 214 -> exists code l ops q,
  length code + length (concat l) = 5 + 5 * n /\ trace cfg (new_program code [] l) ops q /\
  nexts cfg q (Ok (None, q)) /\ length ops = 2 ^ n.
Proof.
  intros Hn. destruct (doubling_calls cfg n n (le_n n) Hn (new_program (call_of n) [] (doubling n)) [] eq_refl eq_refl)
    as (ops & q & T & N & _ & _ & R & _); [rewrite app_nil_r; reflexivity|].
  exists (call_of n), (doubling n), ops, q. rewrite doubling_length. repeat split; auto; try discriminate.
  exists 1. cbn [next]. rewrite step_empty by exact R. reflexivity.
Qed.

(** ** Dictionaries and indices *)

Lemma operand_consumes : consumes operand_encoding.
Proof.
  intros e [v|x]; cbn; [intros H ->|intros (d & (_ & body & ns & pad & H & _) & _) ->]; inversion H.
Qed.

Lemma operator_bytes_length o : 1 <= length (operator_bytes o).
Proof. unfold operator_bytes. destruct (_ <? _)%Z; cbn; lia. Qed.

Lemma dictionary_encoding_size e ops : dictionary_encoding e ops -> count_operations ops <= length e.
Proof.
  induction 1 as [|e x es xs (e' & -> & H) _ IH]; [cbn; lia|].
  apply (each_consumes_length _ _ _ operand_consumes) in H. pose proof (operator_bytes_length (fst x)).
  change (count_operations (x :: xs)) with (S (length (snd x)) + count_operations xs). rewrite !app_length. lia.
Qed.

Lemma count_filter (f : operator * list number -> bool) ops : count_operations (filter f ops) <= count_operations ops.
Proof.
  unfold count_operations. induction ops as [|x ops IH]; [auto|]. cbn [filter]. destruct (f x); cbn [map list_sum fold_right] in *;
    unfold list_sum in *; cbn [fold_right]; lia.
Qed.

Lemma count_app {A B} (a b : list (A * list B)) : count_operations (a ++ b) = count_operations a + count_operations b.
Proof. unfold count_operations. rewrite map_app, list_sum_app. reflexivity. Qed.

Lemma count_first ops : count_operations (first_occurrences ops) <= count_operations ops.
Proof.
  induction ops as [|[o v] ops IH]; [auto|]. cbn [first_occurrences].
  change (S (length v) + count_operations (filter (fun entry => negb (operator_code (fst entry) =? operator_code o)%Z)
    (first_occurrences ops)) <= S (length v) + count_operations ops).
  pose proof (count_filter (fun entry => negb (operator_code (fst entry) =? operator_code o)%Z) (first_occurrences ops)). lia.
Qed.

Lemma count_rev {A B} (ops : list (A * list B)) : count_operations (rev ops) = count_operations ops.
Proof.
  induction ops as [|x ops IH]; [auto|]. cbn [rev]. rewrite count_app, IH. unfold count_operations, list_sum.
  cbn [map fold_right]. lia.
Qed.

Lemma dictionary_size s t : read_operations s = Ok t -> count_operations t <= length s.
Proof.
  intros H. apply read_operations_iff in H as (e & ops & cut & -> & D & _ & ->). apply dictionary_encoding_size in D.
  unfold table. pose proof (count_first (rev ops)). rewrite count_rev in H. rewrite app_length. lia.
Qed.

Lemma index_size_read cfg s x r : read_index cfg s = Ok (x, r) ->
  Z.of_nat (length s) = (index_size x + Z.of_nat (length r))%Z.
Proof.
  intros H. apply read_index_iff in H as (size & chunks & [_ F] & -> & ->). rewrite app_length.
  destruct chunks as [|c chunks]; [cbn [index_bytes index_value index_size data length]; lia|].
  destruct F as [F|[F _]]; [discriminate|]. unfold index_bytes, index_value, index_size. cbn [data offset_size].
  set (all := c :: chunks).
  assert (G : forall vs, length (flat_map (be_bytes (Z.to_nat size)) vs) = length vs * Z.to_nat size).
  { induction vs as [|v vs IH]; simpl; auto. rewrite app_length, be_bytes_length. lia. }
  rewrite !app_length, be_bytes_length, G, offsets_of_length. cbn [length]. nia.
Qed.

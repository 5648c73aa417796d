(** WordBoundFacts: a glyph that fits into the memory of a 32-bit machine but not into its counter of stem hints. *)
From Verif Require Import Base Float T2Number T2Operation T2Program C1Word T2Word SpecProgram BaseFacts WordFacts WordRunFacts.
Local Open Scope list_scope.
Local Open Scope Z_scope.

(** ** Executions *)

Inductive path (w : Z) (cfg : config) : program -> list t2_operation -> program -> Prop :=
| path_end p : path w cfg p [] p
| path_again p p' ops q : word_step w cfg p = Ok (Again p') -> path w cfg p' ops q -> path w cfg p ops q
| path_yield p x p' ops q : word_step w cfg p = Ok (Yield (Some x) p') -> path w cfg p' ops q -> path w cfg p (x :: ops) q.

Lemma path_app w cfg p ops q : path w cfg p ops q -> forall ops' r, path w cfg q ops' r -> path w cfg p (ops ++ ops') r.
Proof. induction 1; intros ops' r P; cbn [app]; eauto using path. Qed.

Lemma word_next_more w cfg fuel : forall p r, word_next w cfg fuel p = r -> r <> OutOfFuel -> word_next w cfg (S fuel) p = r.
Proof.
  induction fuel as [|fuel IH]; intros p r E N; [cbn in E; congruence|].
  cbn [word_next] in E. change (word_next w cfg (S (S fuel)) p) with
    (let* r := word_step w cfg p in match r with Yield x p' => Ok (x, p') | Again p' => word_next w cfg (S fuel) p' end).
  destruct (word_step w cfg p) as [[x p'|p']|e|c|]; cbn [bind] in *; auto.
Qed.

Lemma word_run_unfold w cfg fuel p : word_run w cfg (S fuel) p =
  let* (result, p') := word_next w cfg (S fuel) p in
  match result with
  | None => Ok ([], p')
  | Some operation => let* (operations, p'') := word_run w cfg fuel p' in Ok (operation :: operations, p'')
  end.
Proof. reflexivity. Qed.

Lemma word_run_more w cfg fuel : forall p r, word_run w cfg fuel p = r -> r <> OutOfFuel -> word_run w cfg (S fuel) p = r.
Proof.
  induction fuel as [|fuel IH]; intros p r E N; [cbn in E; congruence|]. rewrite word_run_unfold in *.
  destruct (word_next w cfg (S fuel) p) as [[[x|] p']|e|c|] eqn:F; cbn [bind] in *; try congruence;
    rewrite (word_next_more _ _ _ _ _ F) by discriminate; cbn [bind]; auto.
  destruct (word_run w cfg fuel p') as [[ops q]|e|c|] eqn:G; cbn [bind] in *; try congruence;
    rewrite (IH _ _ G) by discriminate; cbn [bind]; auto.
Qed.

(** The outcome of a step that ends an execution. *)
Definition ended (ops : list t2_operation) (r : outcome stepped) (o : outcome (list t2_operation * program)) : Prop :=
  match r with
  | Ok (Yield None q) => o = Ok (ops, q)
  | Panic c => o = Panic c
  | _ => False
  end.

Lemma path_run w cfg p ops q : path w cfg p ops q -> forall o, ended ops (word_step w cfg q) o ->
  exists n, forall fuel, (n <= fuel)%nat -> word_run w cfg fuel p = o.
Proof.
  induction 1 as [p|p p' ops q E _ IH|p x p' ops q E _ IH]; intros o H.
  - exists 1%nat. intros [|fuel] L; [lia|]. rewrite word_run_unfold. cbn [word_next].
    destruct (word_step w cfg p) as [[[x|] p'|p']|e|c|]; cbn [ended bind] in *; try contradiction; auto.
  - assert (N : o <> OutOfFuel).
    { destruct (word_step w cfg q) as [[[x|] q'|q']|e|c|]; cbn [ended] in H; try contradiction; subst; discriminate. }
    destruct (IH o H) as (n & K). exists (S (S n)). intros [|[|fuel]] L; try lia. rewrite word_run_unfold.
    change (word_next w cfg (S (S fuel)) p) with
      (let* r := word_step w cfg p in match r with Yield x p' => Ok (x, p') | Again p' => word_next w cfg (S fuel) p' end).
    rewrite E. cbn [bind]. pose proof (K (S fuel) ltac:(lia)) as R. rewrite word_run_unfold in R.
    destruct (word_next w cfg (S fuel) p') as [[[x|] p'']|e|c|]; cbn [bind] in *; auto.
    destruct (word_run w cfg fuel p'') as [[ops' q']|e|c|] eqn:G; cbn [bind] in R; subst o; try congruence;
      rewrite (word_run_more _ _ _ _ _ G) by discriminate; reflexivity.
  - assert (X : exists o', ended ops (word_step w cfg q) o' /\ o = (let* (l, s) := o' in Ok (x :: l, s))).
    { destruct (word_step w cfg q) as [[[y|] q'|q']|e|c|]; cbn [ended] in *; try contradiction; subst; eexists; split; reflexivity. }
    destruct X as (o' & H' & ->). destruct (IH o' H') as (n & K). exists (S n). intros [|fuel] L; [lia|].
    rewrite word_run_unfold. cbn [word_next]. rewrite E. cbn [bind]. rewrite K by lia. reflexivity.
Qed.

(** ** The glyph *)

(** The operand that selects a subroutine. *)
Definition selects (i : nat) : byte := zb (Z.of_nat i + 32).
(** The first declares a stem; each of the others calls the one in front of it twice. *)
Definition doubling (i : nat) : list byte :=
  match i with
  | O => [x8b; x8b; x01; x0b]
  | S i => [selects i; x0a; selects i; x0a; x0b]
  end.
Definition doublings : list (list byte) := map doubling (seq 0 32).

Definition state (r : list byte) (cs : list (list byte)) (k : Z) : program :=
  {| routine := r; callers := cs; global := []; local := doublings; stack := []; stems := k; width := None |}.
Definition one_stem : t2_operation := (T2_HStem, [f32_of_i32 0; f32_of_i32 0]).

Lemma call_step w cfg i : (i < 32)%nat -> forall r cs k,
  word_step w cfg (state (selects i :: x0a :: r) cs k) = Ok (Again (state (doubling i) (r :: cs) k)).
Proof. intros L r cs k. do 32 (destruct i as [|i]; [vm_compute; reflexivity|]). lia. Qed.

Lemma return_step w cfg r cs k : word_step w cfg (state [x0b] (r :: cs) k) = Ok (Again (state r cs k)).
Proof. reflexivity. Qed.

Lemma stem_step w cfg r cs k : word_step w cfg (state (x8b :: x8b :: x01 :: r) cs k) =
  (let* n := word_add w cfg k 1 in Ok (Yield (Some one_stem) (state r cs n))).
Proof. reflexivity. Qed.

Lemma word_add_low w cfg a b : 32 <= w -> 0 <= a + b < 2 ^ 32 -> word_add w cfg a b = Ok (a + b).
Proof.
  intros W B. unfold word_add, word_of. assert (2 ^ 32 <= 2 ^ w) by (apply Z.pow_le_mono_r; lia).
  rewrite (proj2 (Z.leb_le 0 (a + b))) by lia. rewrite (proj2 (Z.ltb_lt (a + b) (2 ^ w))) by lia. reflexivity.
Qed.

Lemma call_path w cfg i : 32 <= w -> (i < 32)%nat -> forall r cs k, 0 <= k -> k + 2 ^ Z.of_nat i < 2 ^ 32 ->
  exists n, path w cfg (state (selects i :: x0a :: r) cs k) (repeat one_stem n) (state r cs (k + 2 ^ Z.of_nat i)).
Proof.
  intros W. induction i as [|i IH]; intros L r cs k K B.
  - exists 1%nat. eapply path_again; [apply call_step; exact L|]. cbn [doubling].
    change (2 ^ Z.of_nat 0) with 1 in *. eapply path_yield; [rewrite stem_step, word_add_low by lia; reflexivity|].
    eapply path_again; [apply return_step|]. constructor.
  - assert (E : 2 ^ Z.of_nat (S i) = 2 ^ Z.of_nat i + 2 ^ Z.of_nat i) by (rewrite Nat2Z.inj_succ, Z.pow_succ_r by lia; lia).
    rewrite E in *. assert (P : 0 < 2 ^ Z.of_nat i) by (apply Z.pow_pos_nonneg; lia).
    destruct (IH ltac:(lia) [selects i; x0a; x0b] (r :: cs) k) as (o1 & P1); [lia|lia|].
    destruct (IH ltac:(lia) [x0b] (r :: cs) (k + 2 ^ Z.of_nat i)) as (o2 & P2); [lia|lia|].
    exists (o1 + o2)%nat. rewrite repeat_app. eapply path_again; [apply call_step; exact L|]. eapply path_app; [exact P1|].
    rewrite <- (app_nil_r (repeat one_stem o2)). eapply path_app; [exact P2|]. eapply path_again; [apply return_step|].
    rewrite Z.add_assoc. constructor.
Qed.

Definition amount (is : list nat) : Z := fold_right Z.add 0 (map (fun i => 2 ^ Z.of_nat i) is).
Definition calls (is : list nat) : list byte := flat_map (fun i => [selects i; x0a]) is.

Lemma calls_path w cfg is : 32 <= w -> Forall (fun i => (i < 32)%nat) is -> forall r k, 0 <= k -> k + amount is < 2 ^ 32 ->
  exists n, path w cfg (state (calls is ++ r) [] k) (repeat one_stem n) (state r [] (k + amount is)).
Proof.
  intros W F. induction F as [|i is L F IH]; intros r k K B; [exists O; change (amount []) with 0; rewrite Z.add_0_r; constructor|].
  change (amount (i :: is)) with (2 ^ Z.of_nat i + amount is) in *.
  assert (P : 0 < 2 ^ Z.of_nat i) by (apply Z.pow_pos_nonneg; lia).
  assert (Q : 0 <= amount is).
  { clear. induction is as [|i is IH]; [reflexivity|]. change (amount (i :: is)) with (2 ^ Z.of_nat i + amount is).
    pose proof (Z.pow_nonneg 2 (Z.of_nat i)). lia. }
  destruct (call_path w cfg i W L (calls is ++ r) [] k K) as (o1 & P1); [lia|].
  destruct (IH r (k + 2 ^ Z.of_nat i)) as (o2 & P2); [lia|lia|]. exists (o1 + o2)%nat. rewrite repeat_app.
  change (calls (i :: is) ++ r) with (selects i :: x0a :: calls is ++ r). eapply path_app; [exact P1|].
  rewrite Z.add_assoc. exact P2.
Qed.

(** As many stems as there are numbers of 32 bits, less seven. *)
Definition numbers : list nat := [31; 30; 29; 28; 27; 26; 25; 24; 23; 22; 21; 20; 19; 18; 17; 16; 15; 14; 13; 12; 11; 10; 9; 8; 7; 6; 5; 4; 3; 0]%nat.
Lemma numbers_amount : amount numbers = 2 ^ 32 - 7.
Proof. reflexivity. Qed.

(** The calls, a hint mask of [n] bytes, each of which could be [endchar], and then [0 hmoveto endchar]. *)
Definition deep_code (n : nat) : list byte := calls numbers ++ x13 :: repeat x0e n ++ [x8b; x16; x0e].

Lemma deep_length n : Z.of_nat n = 2 ^ 29 -> Z.of_nat (length (deep_code n)) < 2 ^ 30.
Proof.
  intros N. unfold deep_code. rewrite app_length. cbn [length]. rewrite app_length, repeat_length. change (length (calls numbers)) with 60%nat.
  cbn [length]. lia.
Qed.

Lemma mask_step w cfg s k : word_step w cfg (state (x13 :: s) [] k) =
  (let* n := word_add w cfg k 0 in let* m := word_add w cfg n 7 in
   let* (_, r) := word_vec w cfg 1 take_byte (Z.shiftr m 3) s in Ok (Yield (Some (T2_HintMask, [])) (state r [] n))).
Proof.
  unfold word_step, state. cbn [routine done stack length]. cbn [push_operands].
  change (peek_u8 (x13 :: s)) with (Ok 0x13 : outcome Z). cbn [bind]. change (t2_starts_operand 0x13) with false. cbn iota. cbn [bind].
  change (read_t2_operator 0x13 (x13 :: s)) with (Ok (T2_HintMask, s)). cbn [bind].
  unfold word_execute. cbn [stack set_stack set_routine stems length]. change (Z.shiftr (Z.of_nat 0) 1) with 0.
  destruct (word_add w cfg k 0) as [n|e|c|]; cbn [bind]; try reflexivity.
Qed.

Lemma mask_taken n r : Z.of_nat n = 2 ^ 29 -> forall cfg, word_vec 64 cfg 1 take_byte (2 ^ 29) (repeat x0e n ++ r) = Ok (repeat x0e n, r).
Proof.
  intros N cfg. unfold word_vec. change (word_max 64 <? 2 ^ 29 * 1) with false. rewrite andb_false_r.
  rewrite Z.min_l by (rewrite app_length, repeat_length; lia). rewrite <- N, Nat2Z.id. clear N.
  induction n as [|n IH]; [reflexivity|]. cbn [repeat app]. change (take_n take_byte (S n) (x0e :: repeat x0e n ++ r)) with
    (let* (xs, s2) := take_n take_byte n (repeat x0e n ++ r) in Ok (x0e :: xs, s2)). rewrite IH. reflexivity.
Qed.

Lemma end_step w cfg r k : word_step w cfg (state (x0e :: r) [] k) = Ok (Yield None (state r [] k)).
Proof. reflexivity. Qed.

Lemma move_step w cfg r k : word_step w cfg (state (x8b :: x16 :: r) [] k) = Ok (Yield (Some (T2_HMoveTo, [f32_of_i32 0])) (state r [] k)).
Proof. reflexivity. Qed.

Lemma numbers_small : Forall (fun i => (i < 32)%nat) numbers.
Proof. repeat constructor; lia. Qed.

Lemma deep_wide cfg n : Z.of_nat n = 2 ^ 29 -> exists k m, forall fuel, (m <= fuel)%nat ->
  word_run 64 cfg fuel (new_program (deep_code n) [] doublings) =
  Ok (repeat one_stem k ++ [(T2_HintMask, []); (T2_HMoveTo, [f32_of_i32 0])], state [] [] (2 ^ 32 - 7)).
Proof.
  intros N. destruct (calls_path 64 cfg numbers ltac:(lia) numbers_small (x13 :: repeat x0e n ++ [x8b; x16; x0e]) 0) as (k & P);
    [lia|rewrite numbers_amount; lia|]. rewrite numbers_amount, Z.add_0_l in P.
  assert (Q : path 64 cfg (state (x13 :: repeat x0e n ++ [x8b; x16; x0e]) [] (2 ^ 32 - 7)) [(T2_HintMask, []); (T2_HMoveTo, [f32_of_i32 0])]
    (state [x0e] [] (2 ^ 32 - 7))).
  { eapply path_yield.
    - rewrite mask_step, word_add_low by lia. cbn [bind]. change (2 ^ 32 - 7 + 0) with (2 ^ 32 - 7).
      change (word_add 64 cfg (2 ^ 32 - 7) 7) with (Ok (2 ^ 32) : outcome Z). cbn [bind]. change (Z.shiftr (2 ^ 32) 3) with (2 ^ 29).
      rewrite (mask_taken n _ N). reflexivity.
    - eapply path_yield; [apply move_step|]. constructor. }
  pose proof (path_app _ _ _ _ _ P _ _ Q) as R. exists k.
  eapply (path_run _ _ _ _ _ R). rewrite end_step. reflexivity.
Qed.

Lemma deep_narrow cfg n : Z.of_nat n = 2 ^ 29 -> exists k m, forall fuel, (m <= fuel)%nat ->
  word_run 32 cfg fuel (new_program (deep_code n) [] doublings) =
  if overflow_checks cfg then Panic ArithmeticOverflow
  else Ok (repeat one_stem k ++ [(T2_HintMask, [])], state (skipn 1 (repeat x0e n ++ [x8b; x16; x0e])) [] (2 ^ 32 - 7)).
Proof.
  intros N. destruct (calls_path 32 cfg numbers ltac:(lia) numbers_small (x13 :: repeat x0e n ++ [x8b; x16; x0e]) 0) as (k & P);
    [lia|rewrite numbers_amount; lia|]. rewrite numbers_amount, Z.add_0_l in P. exists k.
  destruct (overflow_checks cfg) eqn:C.
  - eapply (path_run _ _ _ _ _ P). rewrite mask_step, word_add_low by lia. cbn [bind]. change (2 ^ 32 - 7 + 0) with (2 ^ 32 - 7).
    destruct cfg as [[] d a]; [|discriminate]. reflexivity.
  - destruct n as [|n]; [discriminate|]. set (r := repeat x0e n ++ [x8b; x16; x0e]).
    change (repeat x0e (S n) ++ [x8b; x16; x0e]) with (x0e :: r) in *.
    assert (Q : path 32 cfg (state (x13 :: x0e :: r) [] (2 ^ 32 - 7)) [(T2_HintMask, [])] (state (x0e :: r) [] (2 ^ 32 - 7))).
    { eapply path_yield; [|constructor]. rewrite mask_step, word_add_low by lia. cbn [bind]. change (2 ^ 32 - 7 + 0) with (2 ^ 32 - 7).
      destruct cfg as [[] d a]; [discriminate|]. change (word_add 32 _ (2 ^ 32 - 7) 7) with (Ok 0 : outcome Z). cbn [bind].
      unfold word_vec. change (Z.shiftr 0 3) with 0. change (word_max 32 <? 0 * 1) with false. rewrite andb_false_r.
      rewrite Z.min_l by lia. reflexivity. }
    pose proof (path_app _ _ _ _ _ P _ _ Q) as R. eapply (path_run _ _ _ _ _ R). rewrite end_step. reflexivity.
Qed.

Lemma doublings_small : Forall (fun s => (length s <= 5)%nat) doublings /\ length doublings = 32%nat.
Proof. split; [|reflexivity]. unfold doublings. cbn [seq map]. repeat constructor. Qed.

Lemma size_exists : exists n, Z.of_nat n = 2 ^ 29.
Proof. exists (Z.to_nat (2 ^ 29)). apply Z2Nat.id. lia. Qed.

Lemma deep_bound cfg : overflow_checks cfg = true -> exists code subroutines fuel ops q,
  Z.of_nat (length code) < 2 ^ 30 /\ length subroutines = 32%nat /\ Forall (fun s => (length s <= 5)%nat) subroutines /\
  word_run 64 cfg fuel (new_program code [] subroutines) = Ok (ops, q) /\
  word_run 32 cfg fuel (new_program code [] subroutines) = Panic ArithmeticOverflow.
Proof.
  intros C. destruct size_exists as (n & N). destruct (deep_wide cfg n N) as (k & m & A). destruct (deep_narrow cfg n N) as (k' & m' & B).
  rewrite C in B. exists (deep_code n), doublings, (Nat.max m m'). do 2 eexists. destruct doublings_small as [D E].
  split; [exact (deep_length n N)|]. split; [exact E|]. split; [exact D|]. split; [apply A, Nat.le_max_l|apply B, Nat.le_max_r].
Qed.

Lemma deep_silent cfg : overflow_checks cfg = false -> exists code subroutines fuel ops q ops' q',
  Z.of_nat (length code) < 2 ^ 30 /\ length subroutines = 32%nat /\ Forall (fun s => (length s <= 5)%nat) subroutines /\
  word_run 64 cfg fuel (new_program code [] subroutines) = Ok (ops, q) /\
  word_run 32 cfg fuel (new_program code [] subroutines) = Ok (ops', q') /\
  In (T2_HMoveTo, [f32_of_i32 0]) ops /\ ~ In (T2_HMoveTo, [f32_of_i32 0]) ops'.
Proof.
  intros C. destruct size_exists as (n & N). destruct (deep_wide cfg n N) as (k & m & A). destruct (deep_narrow cfg n N) as (k' & m' & B).
  rewrite C in B. exists (deep_code n), doublings, (Nat.max m m'). do 4 eexists. destruct doublings_small as [D E].
  split; [exact (deep_length n N)|]. split; [exact E|]. split; [exact D|]. split; [apply A, Nat.le_max_l|]. split; [apply B, Nat.le_max_r|].
  split.
  - apply in_or_app. right. right. left. reflexivity.
  - intros I. apply in_app_or in I. destruct I as [I|[I|[]]]; [apply repeat_spec in I|]; discriminate.
Qed.

(** StepFacts: how a round of execution reads its code. *)
From Verif Require Import Base Float T2Number T2Operation T2Program.
From Verif Require Import BaseFacts SpecProgram T2OperatorFacts T2NumberFacts.
Local Open Scope Z_scope.

(** ** Operators *)

Lemma t2_code_range o : 1 <= t2_code o < 32 /\ t2_code o <> 28 /\ t2_code o <> 12 \/
  12 * 256 <= t2_code o < 13 * 256.
Proof. destruct o; cbn; lia. Qed.

Lemma t2_bytes_first o : exists b r, t2_bytes o = b :: r /\ ~ t2_first b.
Proof. destruct o; eexists _, _; (split; [reflexivity|]); unfold t2_first; vm_compute; intuition congruence. Qed.

Lemma t2_bytes_not_nil o : t2_bytes o <> [].
Proof. destruct (t2_bytes_first o) as (b & r & -> & _). discriminate. Qed.

Lemma read_t2_operator_complete o r : exists b t, t2_bytes o = b :: t /\ ~ t2_first b /\
  read_t2_operator (bz b) (t2_bytes o ++ r) = Ok (o, r).
Proof.
  destruct o; eexists _, _; (split; [reflexivity|]); (split; [unfold t2_first; vm_compute; intuition congruence|]); reflexivity.
Qed.

Lemma zb_eq b v : bz b = v -> zb v = b.
Proof. intros <-. apply zb_bz. Qed.

Lemma read_t2_operator_sound b t o r :
  read_t2_operator (bz b) (b :: t) = Ok (o, r) -> b :: t = t2_bytes o ++ r.
Proof.
  unfold read_t2_operator. intros H. pose proof (t2_code_range o) as R. pose proof (bz_range b) as B. unfold t2_bytes.
  destruct (Z.eqb_spec (bz b) 12) as [E|E].
  - destruct t as [|b' t]; [discriminate|]. cbn [take_u16 bind] in H. inv_ok H. injection H as -> ->.
    apply t2_operator_from_iff in H0. pose proof (bz_range b') as B'. rewrite E in H0.
    destruct (Z.ltb_spec (t2_code o) 256); [lia|]. cbn [app]. f_equal; [|f_equal].
    + symmetry. apply zb_eq. rewrite <- H0. replace ((12 * 2 ^ 8 + bz b') / 256) with 12; [auto|].
      apply Z.div_unique with (bz b'); lia.
    + symmetry. unfold zb. rewrite <- H0. rewrite Z.add_comm. change (12 * 2 ^ 8) with (12 * 256).
      rewrite Z.mod_add by lia. fold (zb (bz b')). apply zb_bz.
  - cbn [take_u8 bind] in H. inv_ok H. injection H as -> ->. apply t2_operator_from_iff in H0.
    destruct (Z.ltb_spec (t2_code o) 256); [|lia]. cbn [app]. f_equal. symmetry. apply zb_eq. auto.
Qed.

Lemma read_t2_operator_settled code s : settled (read_t2_operator code s).
Proof.
  unfold read_t2_operator. apply settled_bind.
  - destruct (code =? 12); destruct s as [|? [|? ?]]; exact I.
  - intros [c r] _. apply settled_bind; [apply t2_operator_from_settled|]. intros. exact I.
Qed.

(** ** Operands *)

Lemma t2_starts_first b : t2_starts_operand (bz b) = true <-> t2_first b.
Proof.
  unfold t2_starts_operand, t2_first. pose proof (bz_range b).
  rewrite orb_true_iff, andb_true_iff, Z.eqb_eq, !Z.leb_le. lia.
Qed.

Lemma read_operand_shorter s x r : read_operand s = Ok (x, r) -> (length r < length s)%nat.
Proof.
  intros H. apply read_operand_sound in H as (e & -> & E). apply t2_number_consumes in E.
  rewrite app_length. destruct e; [congruence|]. cbn. lia.
Qed.

Lemma push_operands_fuel f1 : forall f2 st s, (length s < f1)%nat -> (length s < f2)%nat ->
  push_operands f1 st s = push_operands f2 st s.
Proof.
  induction f1 as [|f1 IH]; intros f2 st s H1 H2; [lia|]. destruct f2 as [|f2]; [lia|]. cbn [push_operands].
  destruct (peek_u8 s) as [code| | |]; auto. cbn [bind]. destruct (t2_starts_operand code); auto.
  destruct (read_operand s) as [[x r]| | |] eqn:E; auto. cbn [bind]. apply read_operand_shorter in E.
  apply IH; lia.
Qed.

Lemma push_operands_app e xs : each t2_number e xs -> forall fuel st s, (length (e ++ s) < fuel)%nat ->
  push_operands fuel st (e ++ s) = push_operands (S (length s)) (st ++ xs) s.
Proof.
  induction 1 as [|e x es xs H E IH]; intros fuel st s L.
  - rewrite app_nil_r. apply push_operands_fuel; cbn in *; lia.
  - destruct fuel as [|fuel]; [lia|]. rewrite <- app_assoc in L |- *. cbn [push_operands].
    destruct (t2_number_first _ _ H) as (b & e' & -> & F).
    cbn [app peek_u8 take_u8 bind]. unfold peek_u8. cbn [take_u8 bind].
    destruct (t2_starts_operand (bz b)) eqn:T; [|apply t2_starts_first in F; congruence].
    change (b :: e' ++ es ++ s) with ((b :: e') ++ es ++ s). rewrite (read_operand_complete _ _ _ H). cbn [bind].
    rewrite IH; [|cbn in L; rewrite !app_length in *; lia]. unfold push. rewrite <- app_assoc. reflexivity.
Qed.

Lemma push_operands_stop fuel st b s : ~ t2_first b ->
  push_operands (S fuel) st (b :: s) = Ok ((st, bz b), b :: s).
Proof.
  intros N. cbn [push_operands]. unfold peek_u8. cbn [take_u8 bind].
  destruct (t2_starts_operand (bz b)) eqn:T; auto. apply t2_starts_first in T. contradiction.
Qed.

Lemma push_operands_inv fuel : forall st s st' code r,
  push_operands fuel st s = Ok ((st', code), r) ->
  exists e xs b t, s = e ++ r /\ each t2_number e xs /\ st' = st ++ xs /\ r = b :: t /\ code = bz b /\ ~ t2_first b.
Proof.
  induction fuel as [|fuel IH]; intros st s st' code r H; [discriminate|]. cbn [push_operands] in H.
  destruct s as [|b s]; [discriminate|]. unfold peek_u8 in H. cbn [take_u8 bind] in H.
  destruct (t2_starts_operand (bz b)) eqn:T.
  - inv_ok H. destruct a as [x r']. apply IH in H as (e & xs & b' & t & -> & E & -> & -> & -> & N).
    apply read_operand_sound in H0 as (e0 & -> & E0).
    exists (e0 ++ e), (x :: xs), b', t. rewrite app_assoc. split; auto. split; [constructor; auto|].
    split; [unfold push; rewrite <- app_assoc; reflexivity|]. auto.
  - injection H as <- <- <-. exists [], [], b, s. rewrite app_nil_r. repeat split; auto; [constructor|].
    intros F. apply t2_starts_first in F. congruence.
Qed.

Lemma push_operands_settled fuel : forall st s, (length s < fuel)%nat -> settled (push_operands fuel st s).
Proof.
  induction fuel as [|fuel IH]; intros st s L; [lia|]. cbn [push_operands]. apply settled_bind.
  { destruct s; exact I. }
  intros code _. destruct (t2_starts_operand code); [|exact I].
  apply settled_bind; [apply read_operand_settled|]. intros [x r] H. apply read_operand_shorter in H.
  apply IH. lia.
Qed.

(** ** Rounds *)

Lemma step_code cfg p e xs o r : each t2_number e xs -> routine p = e ++ t2_bytes o ++ r ->
  step cfg p = execute cfg o (loaded p xs r).
Proof.
  intros E R. unfold step. rewrite R.
  destruct (read_t2_operator_complete o r) as (b & t & Eb & N & RO).
  replace (done (e ++ t2_bytes o ++ r)) with false.
  2: { destruct e; [|reflexivity]. rewrite Eb. reflexivity. }
  rewrite (push_operands_app _ _ E) by lia.
  rewrite Eb at 1. cbn [app]. rewrite Eb. cbn [app]. rewrite push_operands_stop by auto. cbn [bind].
  rewrite Eb in RO. cbn [app] in RO. rewrite RO. reflexivity.
Qed.

Lemma step_empty cfg p : routine p = [] -> step cfg p = Ok (Yield None p).
Proof. intros E. unfold step. rewrite E. reflexivity. Qed.

(** Everything a round can do: stop at the end of a routine, execute an operator, or fail. *)
Lemma step_cases cfg p :
  routine p = [] \/
  (exists e xs o r, each t2_number e xs /\ routine p = e ++ t2_bytes o ++ r) \/
  (exists k, step cfg p = Err k).
Proof.
  destruct (routine p) as [|b0 s0] eqn:R; auto. right.
  unfold step. rewrite R. cbn [done]. rewrite <- R.
  pose proof (push_operands_settled (S (length (routine p))) (stack p) (routine p) ltac:(lia)) as St.
  destruct (push_operands _ _ _) as [[[st code] r]|k| |] eqn:E; try contradiction.
  2: { right. exists k. reflexivity. }
  apply push_operands_inv in E as (e & xs & b & t & -> & X & -> & -> & -> & N).
  cbn [bind]. pose proof (read_t2_operator_settled (bz b) (b :: t)) as So.
  destruct (read_t2_operator (bz b) (b :: t)) as [[o r]|k| |] eqn:Eo; try contradiction.
  - left. apply read_t2_operator_sound in Eo. exists e, xs, o, r. rewrite Eo. auto.
  - right. exists k. reflexivity.
Qed.

Lemma step_inv cfg p s : step cfg p = Ok s ->
  (routine p = [] /\ s = Yield None p) \/
  (exists e xs o r, each t2_number e xs /\ routine p = e ++ t2_bytes o ++ r /\
     execute cfg o (loaded p xs r) = Ok s).
Proof.
  intros H. destruct (step_cases cfg p) as [E|[(e & xs & o & r & X & E)|(k & E)]].
  - left. rewrite step_empty in H by auto. split; congruence.
  - right. exists e, xs, o, r. rewrite (step_code _ _ _ _ _ _ X E) in H. auto.
  - congruence.
Qed.

(** Numbers before more code. *)
Lemma step_numbers cfg p e xs s : each t2_number e xs -> s <> [] -> routine p = e ++ s ->
  step cfg p = step cfg (loaded p xs s).
Proof.
  intros E N R. unfold step, loaded. rewrite R. cbn [routine set_stack set_routine stack].
  replace (done (e ++ s)) with false by (destruct e; [destruct s; [congruence|reflexivity]|reflexivity]).
  replace (done s) with false by (destruct s; [congruence|reflexivity]).
  rewrite (push_operands_app _ _ E) by lia. reflexivity.
Qed.

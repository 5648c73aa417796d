(** PropCalls: property C75. *)
From Verif Require Import Base Float T2Operation T2Program SpecProgram SpecCalls StackFacts IntegralFacts ProgramFacts CallsFacts.
Local Open Scope list_scope.
Local Open Scope Z_scope.

(** C75.  Two programs with the same code and with tables in which the numbers of the
    subroutines that are called select the same: whatever the first one does, the second does. *)
Theorem C75_uncalled : forall (cfg : config) (code : list byte) (globals locals globals' locals' : list (list byte)),
  Z.of_nat (length globals) < 2 ^ 31 -> Z.of_nat (length locals) < 2 ^ 31 ->
  Z.of_nat (length globals') < 2 ^ 31 -> Z.of_nat (length locals') < 2 ^ 31 ->
  (forall a, comes_to cfg (new_program code globals locals) T2_CallSubr a ->
     selects_alike locals locals' a /\ (overflow_checks cfg = true -> overflows_alike locals locals' a)) ->
  (forall a, comes_to cfg (new_program code globals locals) T2_CallGSubr a ->
     selects_alike globals globals' a /\ (overflow_checks cfg = true -> overflows_alike globals globals' a)) ->
  forall fuel,
    next cfg fuel (new_program code globals' locals') =
      outcome_with globals' locals' (next cfg fuel (new_program code globals locals)) /\
    run cfg fuel (new_program code globals' locals') =
      outcome_with globals' locals' (run cfg fuel (new_program code globals locals)).
Proof. exact uncalled. Qed.
Print Assumptions C75_uncalled.

(** If the first one succeeds, so far or to the end, it is enough that the subroutines that
    it calls are in the other tables. *)
Theorem C75_succeeds : forall (cfg : config) (code : list byte) (globals locals globals' locals' : list (list byte)),
  Z.of_nat (length globals) < 2 ^ 31 -> Z.of_nat (length locals) < 2 ^ 31 ->
  Z.of_nat (length globals') < 2 ^ 31 -> Z.of_nat (length locals') < 2 ^ 31 ->
  (forall a body, comes_to cfg (new_program code globals locals) T2_CallSubr a ->
     selects locals a body -> selects locals' a body) ->
  (forall a body, comes_to cfg (new_program code globals locals) T2_CallGSubr a ->
     selects globals a body -> selects globals' a body) ->
  forall ops q,
    (trace cfg (new_program code globals locals) ops q ->
     trace cfg (new_program code globals' locals') ops (with_subroutines globals' locals' q)) /\
    (runs cfg (new_program code globals locals) (Ok (ops, q)) ->
     runs cfg (new_program code globals' locals') (Ok (ops, with_subroutines globals' locals' q))).
Proof. exact uncalled_ok. Qed.
Print Assumptions C75_succeeds.

(** Subroutines may be added at the end of a table, as long as what is added to their numbers
    stays what it is. *)
Theorem C75_appended : forall (cfg : config) (code : list byte) (globals locals more more' : list (list byte)) (b b' : Z),
  Z.of_nat (length (globals ++ more)) < 2 ^ 31 -> Z.of_nat (length (locals ++ more')) < 2 ^ 31 ->
  biased (Z.of_nat (length globals)) b -> biased (Z.of_nat (length (globals ++ more))) b ->
  biased (Z.of_nat (length locals)) b' -> biased (Z.of_nat (length (locals ++ more'))) b' ->
  forall ops q,
    (trace cfg (new_program code globals locals) ops q ->
     trace cfg (new_program code (globals ++ more) (locals ++ more')) ops
       (with_subroutines (globals ++ more) (locals ++ more') q)) /\
    (runs cfg (new_program code globals locals) (Ok (ops, q)) ->
     runs cfg (new_program code (globals ++ more) (locals ++ more'))
       (Ok (ops, with_subroutines (globals ++ more) (locals ++ more') q))).
Proof. exact appended_ok. Qed.
Print Assumptions C75_appended.

(** Otherwise they change what is called. *)
Theorem C75_boundary : forall cfg, exists code locals more ops q ops' q',
  runs cfg (new_program code [] locals) (Ok (ops, q)) /\
  runs cfg (new_program code [] (locals ++ more)) (Ok (ops', q')) /\ ops <> ops'.
Proof. exact appended_changes. Qed.
Print Assumptions C75_boundary.

(** Without calls the tables do not matter at all. *)
Theorem C75_none : forall (cfg : config) (code : list byte) (globals locals globals' locals' : list (list byte)),
  Z.of_nat (length globals) < 2 ^ 31 -> Z.of_nat (length locals) < 2 ^ 31 ->
  Z.of_nat (length globals') < 2 ^ 31 -> Z.of_nat (length locals') < 2 ^ 31 ->
  (forall a, ~ comes_to cfg (new_program code globals locals) T2_CallSubr a) ->
  (forall a, ~ comes_to cfg (new_program code globals locals) T2_CallGSubr a) ->
  forall fuel,
    next cfg fuel (new_program code globals' locals') =
      outcome_with globals' locals' (next cfg fuel (new_program code globals locals)) /\
    run cfg fuel (new_program code globals' locals') =
      outcome_with globals' locals' (run cfg fuel (new_program code globals locals)).
Proof. exact callfree. Qed.
Print Assumptions C75_none.

(** A call of the first of two local subroutines and a call of the first of two global ones; the
    others change. *)
Definition two_calls : list byte := [x20; x0a; x20; x1d; x0e].
Definition locals_before : list (list byte) := [[x8c; x16; x0b]; [x8d; x16; x0b]].
Definition globals_before : list (list byte) := [[x8e; x04; x0b]; [x8f; x04; x0b]].
Definition locals_after : list (list byte) := [[x8c; x16; x0b]; [x0e]].
Definition globals_after : list (list byte) := [[x8e; x04; x0b]; []].

(** The operand of a call is -107. *)
Definition first_called (o : t2_operator) (a : f32) : bool :=
  match o with
  | T2_CallSubr | T2_CallGSubr =>
      match f32_of_i32 (-107), a with
      | S754_finite s m e, S754_finite s' m' e' => Bool.eqb s s' && Pos.eqb m m' && Z.eqb e e'
      | _, _ => false
      end
  | _ => true
  end.

Example C75_case : forall a,
  (comes_to dev_profile (new_program two_calls globals_before locals_before) T2_CallSubr a ->
   selects_alike locals_before locals_after a /\ overflows_alike locals_before locals_after a) /\
  (comes_to dev_profile (new_program two_calls globals_before locals_before) T2_CallGSubr a ->
   selects_alike globals_before globals_after a /\ overflows_alike globals_before globals_after a).
Proof.
  assert (D : forall o a, comes_to dev_profile (new_program two_calls globals_before locals_before) o a ->
    (o = T2_CallSubr \/ o = T2_CallGSubr) -> integral a (-107)).
  { intros o a H C.
    assert (A : all_tested dev_profile first_called 20 (new_program two_calls globals_before locals_before) = true)
      by (vm_compute; reflexivity).
    pose proof (tested_comes _ _ _ _ _ _ A H) as T. clear A H.
    assert (E : a = f32_of_i32 (-107)).
    { unfold first_called in T. destruct (f32_of_i32 (-107)), C; subst o; destruct a as [ | | |s' m' e']; try discriminate;
        apply andb_prop in T as [T T3]; apply andb_prop in T as [T1 T2];
        apply Bool.eqb_prop in T1; apply Pos.eqb_eq in T2; apply Z.eqb_eq in T3; subst; reflexivity. }
    subst a. apply integral_of_i32. cbn. lia. }
  assert (S' : forall a x y z, integral a (-107) -> selects_alike [x; y] [x; z] a).
  { intros a x y z I code. unfold selects. cbn [length].
    split; intros (v & b & V & B & N & E); rewrite (integral_unique _ _ _ V I) in *; exists (-107), b; repeat split; auto; try apply I;
      destruct B as [[_ ->]|[[B _]|[B _]]]; try lia; exact E. }
  intros a. split; intros H; (split; [apply S'; eapply D; eauto|]);
    intros v b b' _ B B'; assert (b = b') by (unfold biased in B, B'; cbn [length locals_before locals_after globals_before globals_after] in B, B'; lia);
    subst b'; tauto.
Qed.
Example C75_outcome : exists ops q,
  run dev_profile 20 (new_program two_calls globals_before locals_before) = Ok (ops, q) /\ length ops = 2%nat /\
  run dev_profile 20 (new_program two_calls globals_after locals_after) = Ok (ops, with_subroutines globals_after locals_after q).
Proof. eexists. eexists. vm_compute. split; [reflexivity|]. split; reflexivity. Qed.
Example C75_appended_case : biased (Z.of_nat (length locals_before)) 107 /\
  biased (Z.of_nat (length (locals_before ++ [[x0b]]))) 107.
Proof. split; left; cbn; lia. Qed.
Example C75_none_case : forall o a, comes_to dev_profile (new_program [x8c; x16; x0e] globals_before locals_before) o a ->
  o <> T2_CallSubr /\ o <> T2_CallGSubr.
Proof.
  intros o a H.
  assert (A : all_tested dev_profile (fun o _ => match o with T2_CallSubr | T2_CallGSubr => false | _ => true end) 20
    (new_program [x8c; x16; x0e] globals_before locals_before) = true) by (vm_compute; reflexivity).
  pose proof (tested_comes _ _ _ _ _ _ A H) as T. destruct o; try discriminate T; split; discriminate.
Qed.

(** PropFault: property C65. *)
From Verif Require Import Base Float T2Number T2Operation T2Program BaseFacts SpecFault RunFacts ProgramFacts ReferenceFacts
  FailureFacts FaultFacts.
Local Open Scope list_scope.
Local Open Scope Z_scope.

(** C65. Calling [next] again and again returns operations and then fails if and only if the
    rules say that the character string breaks off after these operations; the error, or the
    panic, is that of the fault. *)
Theorem C65_fails : forall (globals locals : list (list byte)) (cfg : config) (code : list byte)
    (ops : list t2_operation) (f : fault),
  Z.of_nat (length globals) < 2 ^ 31 -> Z.of_nat (length locals) < 2 ^ 31 -> overflow_checks cfg = true ->
  ((exists q, gives cfg (new_program code globals locals) ops q /\ nexts cfg q (reported f)) <->
   faulty globals locals code ops f).
Proof. exact (fun g l cfg code ops f Lg Ll => faulty_iff g l Lg Ll cfg code ops f). Qed.
Print Assumptions C65_fails.

(** Faults other than overflows are the same in every build. *)
Theorem C65_builds : forall (globals locals : list (list byte)) (cfg : config) (code : list byte)
    (ops : list t2_operation) (f : fault),
  Z.of_nat (length globals) < 2 ^ 31 -> Z.of_nat (length locals) < 2 ^ 31 ->
  f <> Excessive -> faulty globals locals code ops f ->
  exists q, gives cfg (new_program code globals locals) ops q /\ nexts cfg q (reported f).
Proof. exact (fun g l cfg code ops f Lg Ll => faulty_builds g l Lg Ll cfg code ops f). Qed.
Print Assumptions C65_builds.

(** There is at most one fault, and none in character strings with a meaning. *)
Theorem C65_unique : forall (globals locals : list (list byte)) (code : list byte)
    (ops ops' : list t2_operation) (f f' : fault),
  Z.of_nat (length globals) < 2 ^ 31 -> Z.of_nat (length locals) < 2 ^ 31 ->
  faulty globals locals code ops f -> faulty globals locals code ops' f' -> ops = ops' /\ f = f'.
Proof. exact (fun g l code ops ops' f f' Lg Ll => faulty_unique g l Lg Ll code ops f ops' f'). Qed.
Print Assumptions C65_unique.

Theorem C65_exclusive : forall (globals locals : list (list byte)) (code : list byte)
    (ops ops' : list t2_operation) (f : fault) (m : machine),
  Z.of_nat (length globals) < 2 ^ 31 -> Z.of_nat (length locals) < 2 ^ 31 ->
  faulty globals locals code ops f -> ~ meaning globals locals code ops' m.
Proof. exact (fun g l code ops ops' f m Lg Ll => faulty_meaning g l Lg Ll code ops f ops' m). Qed.
Print Assumptions C65_exclusive.

(** The character strings with neither a meaning nor a fault are those whose execution does
    not end. *)
Theorem C65_endless : forall (globals locals : list (list byte)) (cfg : config) (code : list byte),
  Z.of_nat (length globals) < 2 ^ 31 -> Z.of_nat (length locals) < 2 ^ 31 -> overflow_checks cfg = true ->
  ((forall r, ~ runs cfg (new_program code globals locals) r) <->
   (forall ops m, ~ meaning globals locals code ops m) /\
   (forall ops f, ~ faulty globals locals code ops f)).
Proof. exact (fun g l cfg code Lg Ll => endless g l Lg Ll cfg code). Qed.
Print Assumptions C65_endless.

(** 1 2 rmoveto -107 callsubr, the subroutine being 1 rmoveto return. *)
Example C65_case : faulty [] [[x8c; x15; x0b]] [x8c; x8d; x15; x20; x0a; x0e]
  [(T2_RMoveTo, map f32_of_i32 [1; 2])] Invalid.
Proof.
  left.
  assert (N : forall bs, forallb (fun b => (32 <=? bz b) && (bz b <=? 246)) bs = true ->
    each t2_number bs (map (fun b => f32_of_i32 (bz b - 139)) bs)).
  { intros bs H. apply numbers_of_bytes. apply Forall_forall. intros b I. rewrite forallb_forall in H. specialize (H b I). lia. }
  apply (breaks_after_path _ _ [x8c; x8d] (map f32_of_i32 [1; 2]) T2_RMoveTo [x20; x0a; x0e] start [] (map f32_of_i32 [1; 2])).
  { exact (N [x8c; x8d] eq_refl). } { reflexivity. }
  { split; [reflexivity|]. split; [reflexivity|]. intros m -> _. cbn. lia. }
  apply (breaks_call _ _ [x20] [f32_of_i32 (-107)] T2_CallSubr [x0e] _ [] (f32_of_i32 (-107)) [x8c; x15; x0b]).
  { exact (N [x20] eq_refl). } { reflexivity. }
  { left. split; [reflexivity|]. exists (-107), 107. split; [apply integral_of_i32; cbn; lia|].
    split; [left; cbn; lia|]. split; [lia|reflexivity]. }
  apply (breaks_unfit _ _ [x8c] [f32_of_i32 1] T2_RMoveTo [x0b]).
  { exact (N [x8c] eq_refl). }
  { intros E. inversion E as [o subs st a v b n H| | |]; try discriminate. destruct H as [[H _]|[H _]]; discriminate. }
  apply unfit_count; [reflexivity|]. cbn. lia.
Qed.

(** The subroutine that calls itself. *)
Example C65_endless_case : forall r, ~ runs dev_profile (new_program [x20; x0a] [] [[x20; x0a]]) r.
Proof.
  intros r [N (f & H)]. apply N. destruct f as [|f]; [auto|]. cbn [run] in H.
  pose proof (loops dev_profile (S f) [] []) as L.
  change (next dev_profile (S f) (new_program [x20; x0a] [] [[x20; x0a]]) = OutOfFuel) in L.
  rewrite L in H. auto.
Qed.

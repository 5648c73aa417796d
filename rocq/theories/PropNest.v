(** PropNest: property C78. *)
From Verif Require Import Base Float T2Operation T2Program SpecProgram SpecSize SpecNest StackFacts IntegralFacts StepFacts NestFacts.
Local Open Scope list_scope.
Local Open Scope Z_scope.

(** C78.  Wherever an execution comes, it is inside of subroutines of the two tables, one for each
    routine that waits for its callee. *)
Theorem C78_inside : forall (cfg : config) (code : list byte) (globals locals : list (list byte)),
  Z.of_nat (length globals) < 2 ^ 31 -> Z.of_nat (length locals) < 2 ^ 31 ->
  forall q : program,
    ((exists ops, trace cfg (new_program code globals locals) ops q) <->
     exists ss, inside_of cfg (new_program code globals locals) q ss) /\
    forall ss, inside_of cfg (new_program code globals locals) q ss ->
      length (callers q) = length ss /\ Forall (place_in globals locals) ss.
Proof.
  exact (fun cfg code g l G L q =>
    conj (iff_sym (program_inside cfg code g l G L q))
         (fun ss I => conj (program_callers cfg code g l G L q ss I) (program_places cfg code g l G L q ss I))).
Qed.
Print Assumptions C78_inside.

(** Unless a subroutine is called inside of itself, calls are not nested deeper than there are
    subroutines. *)
Theorem C78_depth : forall (cfg : config) (code : list byte) (globals locals : list (list byte)) ops q,
  Z.of_nat (length globals) < 2 ^ 31 -> Z.of_nat (length locals) < 2 ^ 31 ->
  trace cfg (new_program code globals locals) ops q ->
  (length (callers q) <= length globals + length locals)%nat \/ recurs cfg (new_program code globals locals).
Proof. exact (fun cfg code g l ops q G L => program_depth cfg code g l G L ops q). Qed.
Print Assumptions C78_depth.

(** And the execution ends, after a number of rounds that is known in advance. *)
Theorem C78_ends : forall (cfg : config) (code : list byte) (globals locals : list (list byte)) (b : nat),
  Z.of_nat (length globals) < 2 ^ 31 -> Z.of_nat (length locals) < 2 ^ 31 ->
  Forall (fun c => (length c <= b)%nat) globals -> Forall (fun c => (length c <= b)%nat) locals ->
  run cfg (S (length code * S b ^ (length globals + length locals))) (new_program code globals locals) <> OutOfFuel \/
  recurs cfg (new_program code globals locals).
Proof. exact (fun cfg code g l b G L => program_terminates cfg code g l G L b). Qed.
Print Assumptions C78_ends.

(** What never ends is recursive. *)
Theorem C78_endless : forall (cfg : config) (code : list byte) (globals locals : list (list byte)),
  Z.of_nat (length globals) < 2 ^ 31 -> Z.of_nat (length locals) < 2 ^ 31 ->
  (forall r, ~ runs cfg (new_program code globals locals) r) -> recurs cfg (new_program code globals locals).
Proof. exact program_endless. Qed.
Print Assumptions C78_endless.

(** The same for one call of [next], which goes one level deeper into the native stack with each
    round. *)
Theorem C78_rounds : forall (cfg : config) (code : list byte) (globals locals : list (list byte)) (b : nat) ops q,
  Z.of_nat (length globals) < 2 ^ 31 -> Z.of_nat (length locals) < 2 ^ 31 ->
  Forall (fun c => (length c <= b)%nat) globals -> Forall (fun c => (length c <= b)%nat) locals ->
  trace cfg (new_program code globals locals) ops q ->
  next cfg (S (length code * S b ^ (length globals + length locals))) q <> OutOfFuel \/
  recurs cfg (new_program code globals locals).
Proof. exact (fun cfg code g l b ops q G L => program_rounds cfg code g l G L b ops q). Qed.
Print Assumptions C78_rounds.

(** And for what it returns and keeps. *)
Theorem C78_amount : forall (cfg : config) (code : list byte) (globals locals : list (list byte)) (b : nat) ops q,
  Z.of_nat (length globals) < 2 ^ 31 -> Z.of_nat (length locals) < 2 ^ 31 ->
  Forall (fun c => (length c <= b)%nat) globals -> Forall (fun c => (length c <= b)%nat) locals ->
  trace cfg (new_program code globals locals) ops q ->
  (count_operations ops + length (stack q) <= length code * S b ^ (length globals + length locals))%nat \/
  recurs cfg (new_program code globals locals).
Proof. exact (fun cfg code g l b ops q G L => program_amount cfg code g l G L b ops q). Qed.
Print Assumptions C78_amount.

(** A program is not recursive if the subroutines can be ranked such that each calls only lower
    ones. *)
Theorem C78_ranked : forall (cfg : config) (code : list byte) (globals locals : list (list byte)) (rank : subroutine -> nat),
  (forall q s s' ss, inside_of cfg (new_program code globals locals) q (s :: ss) -> calls q s' -> (rank s' < rank s)%nat) ->
  ~ recurs cfg (new_program code globals locals).
Proof. exact program_ranked. Qed.
Print Assumptions C78_ranked.

(** Subroutines without the codes of calls: calls are not nested at all. *)
Theorem C78_leaves : forall (cfg : config) (code : list byte) (globals locals : list (list byte)),
  Forall callless globals -> Forall callless locals ->
  (forall ops q, trace cfg (new_program code globals locals) ops q -> (length (callers q) <= 1)%nat) /\
  forall b : nat, Forall (fun c => (length c <= b)%nat) globals -> Forall (fun c => (length c <= b)%nat) locals ->
    run cfg (S (length code * S b)) (new_program code globals locals) <> OutOfFuel.
Proof. exact (fun cfg code g l Fg Fl => conj (leaves_depth cfg g l Fg Fl code) (leaves_terminate cfg g l Fg Fl code)). Qed.
Print Assumptions C78_leaves.

(** With recursion there is no limit: neither the ten levels of "The Type 2 Charstring Format",
    appendix B, nor any other. *)
Theorem C78_unlimited : forall cfg, exists code locals, forall n, exists ops q,
  trace cfg (new_program code [] locals) ops q /\ length ops = n /\ length (callers q) = n.
Proof. exact program_nests. Qed.
Print Assumptions C78_unlimited.

(** Three subroutines: a local one that calls a global one that calls a local one. *)
Definition chain_globals : list (list byte) := [[x21; x0a; x0b]].
Definition chain_locals : list (list byte) := [[x20; x1d; x0b]; [x8c; x16; x0b]].
Definition chain : program := new_program [x20; x0a; x0e] chain_globals chain_locals.

Example C78_depth_case : exists ops q, trace dev_profile chain ops q /\ length (callers q) = 3%nat.
Proof.
  eexists _, _. split.
  - eapply trace_again; [vm_compute; reflexivity|]. eapply trace_again; [vm_compute; reflexivity|].
    eapply trace_again; [vm_compute; reflexivity|]. eapply trace_emit; [vm_compute; reflexivity|]. constructor.
  - reflexivity.
Qed.
Example C78_not_recursive : ~ recurs dev_profile chain.
Proof. apply (walked_nonrecursive dev_profile 10); [reflexivity|reflexivity|vm_compute; reflexivity]. Qed.
Definition chain_rank (s : subroutine) : nat :=
  match s with (T2_CallGSubr, _) => 1%nat | (_, O) => 2%nat | _ => 0%nat end.
Example C78_ranked_case : forall q s s' ss, inside_of dev_profile chain q (s :: ss) -> calls q s' ->
  (chain_rank s' < chain_rank s)%nat.
Proof. apply (walked_ranked dev_profile 10); [reflexivity|reflexivity|vm_compute; reflexivity]. Qed.
Example C78_ends_case : exists ops q, run dev_profile 10 chain = Ok (ops, q) /\ length ops = 1%nat.
Proof. eexists _, _. split; [vm_compute; reflexivity|reflexivity]. Qed.
Example C78_bounds : Forall (fun c => (length c <= 3)%nat) chain_globals /\ Forall (fun c => (length c <= 3)%nat) chain_locals.
Proof. split; repeat constructor. Qed.

(** The local subroutines call each other, forever. *)
Definition ping_pong : program := new_program [x20; x0a; x0e] [] [[x21; x0a; x0b]; [x20; x0a; x0b]].

Example C78_recursive : recurs dev_profile ping_pong.
Proof.
  assert (D : exists ops q, trace dev_profile ping_pong ops q /\ length (callers q) = 3%nat).
  { eexists _, _. split.
    - eapply trace_again; [vm_compute; reflexivity|]. eapply trace_again; [vm_compute; reflexivity|].
      eapply trace_again; [vm_compute; reflexivity|]. constructor.
    - reflexivity. }
  destruct D as (ops & q & T & E). destruct (C78_depth dev_profile [x20; x0a; x0e] [] [[x21; x0a; x0b]; [x20; x0a; x0b]] ops q eq_refl eq_refl T) as [B|R]; [|exact R].
  exfalso. rewrite E in B. cbn in B. lia.
Qed.
Example C78_endless_case : forall fuel, (fuel <= 200)%nat -> run dev_profile fuel ping_pong = OutOfFuel.
Proof.
  intros fuel H. assert (A : forallb (fun n => match run dev_profile n ping_pong with OutOfFuel => true | _ => false end) (seq 0 201) = true)
    by (vm_compute; reflexivity).
  rewrite forallb_forall in A. specialize (A fuel). rewrite in_seq in A. specialize (A ltac:(lia)).
  destruct (run dev_profile fuel ping_pong); congruence.
Qed.
Example C78_leaves_case : Forall callless [[x8c; x16; x0b]; [x8b; x8c; x15; x0b]].
Proof. repeat constructor; cbn; intros H; decompose [or] H; try discriminate; try contradiction. Qed.

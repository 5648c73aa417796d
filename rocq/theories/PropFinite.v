(** PropFinite: property C82. *)
From Coq Require Import Reals.
From Verif Require Import Base Float T2Number T2Operation T2Program SpecFinite FloatFacts FiniteFacts IdentityFacts.
Local Open Scope list_scope.
Local Open Scope Z_scope.

(** C82. The operands of the operations of a glyph, and its width, should be finite numbers. They need not be: a quotient
    by zero, the square root of a negative number, and a product that is too large are put on the stack like any other
    number, and are returned. The codes are [1 0 div hmoveto], [0 0 div hmoveto], [-1 sqrt hmoveto] and
    [32767 dup mul dup mul dup mul dup mul hmoveto], each with [endchar]; and [1 0 div 5 hmoveto endchar] for the width. *)
Theorem C82_refuted : forall (cfg : config),
  (forall code, In code [ [x8c; x8b; x0c; x0c; x16; x0e]; [x8b; x8b; x0c; x0c; x16; x0e]; [x8a; x0c; x1a; x16; x0e];
      [x1c; x7f; xff; x0c; x1b; x0c; x18; x0c; x1b; x0c; x18; x0c; x1b; x0c; x18; x0c; x1b; x0c; x18; x16; x0e] ] ->
    exists fuel x q, run cfg fuel (new_program code [] []) = Ok ([(T2_HMoveTo, [x])], q) /\ ~ finite x) /\
  (exists fuel ops w q, run cfg fuel (new_program [x8c; x8b; x0c; x0c; x90; x16; x0e] [] []) = Ok (ops, q) /\
    width q = Some w /\ ~ finite w).
Proof. exact not_finite. Qed.
Print Assumptions C82_refuted.

(** What holds: the numbers that are written are at most 2^15. As long as the bound, followed along the execution, stays
    below 2^128, everything is finite and within the bound. Missing: a bound on the numbers of an arbitrary execution,
    which does not exist. *)
Theorem C82_partial : forall (cfg : config) (code : list byte) (global local : list (list byte)) ops q k,
  grows cfg (new_program code global local) 15 ops q k -> k < 128 ->
  Forall (fun operation => Forall (bounded k) (snd operation)) ops /\ Forall (bounded k) (stack q) /\
  (forall w, width q = Some w -> bounded k w).
Proof. exact programs_bounded. Qed.
Print Assumptions C82_partial.

(** If the byte 12 does not occur in the code and the subroutines, there is no arithmetic, and every operand and the width
    are numbers that are written somewhere, each of which is at most 2^15. *)
Theorem C82_plain_partial : forall (cfg : config) (code : list byte) (global local : list (list byte)) ops q,
  ~ In x0c code -> Forall (fun c => ~ In x0c c) global -> Forall (fun c => ~ In x0c c) local ->
  trace cfg (new_program code global local) ops q ->
  Forall (fun operation => Forall written (snd operation)) ops /\ Forall written (stack q) /\
  (forall w, width q = Some w -> written w).
Proof. exact plain_programs. Qed.
Print Assumptions C82_plain_partial.

Theorem C82_written_partial : forall (x : f32), written x -> bounded 15 x.
Proof. exact written_bounded. Qed.
Print Assumptions C82_written_partial.

(** [3 4 mul 2 div hmoveto endchar] *)
Example C82_case : exists ops q, grows dev_profile (new_program [x8e; x8f; x0c; x18; x8d; x0c; x0c; x16; x0e] [] []) 15 ops q 30 /\
  ops = [(T2_HMoveTo, [f32_of_i32 6])].
Proof.
  eexists _, _. split.
  - eapply (grows_again _ _ T2_Mul _ 15 30).
    + exists [x8e; x8f]. eexists _, _. split; [reflexivity|]. split; [|reflexivity].
      apply (each_cons t2_number [x8e] (f32_of_i32 3)); [apply number_sample; vm_compute; reflexivity|].
      apply (each_cons t2_number [x8f] (f32_of_i32 4)); [apply number_sample; vm_compute; reflexivity|constructor].
    + reflexivity.
    + vm_compute. reflexivity.
    + eapply (grows_again _ _ T2_Div _ 30 30).
      * exists [x8d]. eexists _, _. split; [reflexivity|]. split; [|reflexivity].
        apply (each_cons t2_number [x8d] (f32_of_i32 2)); [apply number_sample; vm_compute; reflexivity|constructor].
      * exists [], (f32_of_i32 12), (f32_of_i32 2), 0. split; [vm_compute; reflexivity|]. split; [lia|]. split; [|reflexivity].
        exact two_large.
      * vm_compute. reflexivity.
      * eapply grows_emit; [vm_compute; reflexivity|]. apply grows_stop.
  - vm_compute. reflexivity.
Qed.
Example C82_plain_case : exists q, ~ In x0c [x8e; x8f; x15; x0e] /\
  trace dev_profile (new_program [x8e; x8f; x15; x0e] [] []) [(T2_RMoveTo, [f32_of_i32 3; f32_of_i32 4])] q.
Proof.
  eexists. split; [cbn; intros H; decompose [or] H; try discriminate; contradiction|].
  eapply trace_emit; [vm_compute; reflexivity|]. constructor.
Qed.

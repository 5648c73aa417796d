(** PropLimits: property C85. *)
From Verif Require Import Base Float T2Operation T2Program SpecProgram LimitFacts.
Local Open Scope list_scope.
Local Open Scope nat_scope.

(** C85. The code sets no limits of its own: there are glyphs that succeed although they hold more
    than [n] operands on the stack, nest calls more than [n] deep, or declare more than [n] stem hints. *)
Theorem C85_stack_refuted : forall (cfg : config) (n : nat), exists (code : list byte) (ops : list t2_operation) (q q' : program),
  trace cfg (new_program code [] []) [] q /\ n < length (stack q) /\ runs cfg (new_program code [] []) (Ok (ops, q')).
Proof. exact stack_grows. Qed.
Print Assumptions C85_stack_refuted.

Theorem C85_calls_refuted : forall (cfg : config) (n : nat), exists (code : list byte) (l : list (list byte))
    (ops : list t2_operation) (q q' : program),
  trace cfg (new_program code [] l) [] q /\ n < length (callers q) /\ runs cfg (new_program code [] l) (Ok (ops, q')).
Proof. exact depth_grows. Qed.
Print Assumptions C85_calls_refuted.

Theorem C85_stems_refuted : forall (cfg : config) (n : nat), (Z.of_nat n < 2 ^ 63)%Z ->
  exists (code : list byte) (ops : list t2_operation) (q : program),
  runs cfg (new_program code [] []) (Ok (ops, q)) /\ (Z.of_nat n < stems q)%Z.
Proof. exact stems_grow. Qed.
Print Assumptions C85_stems_refuted.

(** What does limit them, in a font without subroutines, is the length of the glyph. *)
Theorem C85_partial : forall (cfg : config) (code : list byte) (ops : list t2_operation) (q : program),
  (Z.of_nat (length code) < 2 ^ 64)%Z -> trace cfg (new_program code [] []) ops q ->
  callers q = [] /\ (0 <= stems q)%Z /\ (2 * stems q + Z.of_nat (length (stack q)) <= Z.of_nat (length code))%Z.
Proof. exact bounded. Qed.
Print Assumptions C85_partial.

(** 49 operands; eleven calls one within the other; 97 stem hints. *)
Example C85_case : exists q, trace dev_profile (new_program (repeat x8b 49 ++ [x0c; x09; x0e]) [] []) [] q /\
  length (stack q) = 49.
Proof. eexists. split; [eapply trace_again; [vm_compute; reflexivity|constructor]|reflexivity]. Qed.

Example C85_case_calls :
  match run dev_profile 40 (new_program ([x21] ++ repeat x20 10 ++ [x0a; x8c; x16; x0e]) [] [[x0a; x0b]; [x0b]]) with
  | Ok (ops, _) => ops = [(T2_HMoveTo, [f32_of_i32 1])] | _ => False end.
Proof. vm_compute. reflexivity. Qed.

Example C85_case_stems :
  match run dev_profile 40 (new_program (repeat x8b 194 ++ [x01; x0e]) [] []) with
  | Ok (_, q) => stems q = 97%Z | _ => False end.
Proof. vm_compute. reflexivity. Qed.

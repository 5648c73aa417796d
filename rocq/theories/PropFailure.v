(** PropFailure: properties C63 and C64. *)
From Verif Require Import Base Float T2Number T2Operation T2Program BaseFacts SpecFailure RunFacts ProgramFacts ReferenceFacts FailureFacts.
Local Open Scope list_scope.
Local Open Scope Z_scope.

(** C63. The execution of a character string fails with [UnexpectedEof] if and only if it gets
    to code that is cut short, and with any other error if and only if it gets to code that is
    malformed. *)
Theorem C63_cut_short : forall (cfg : config) (code : list byte) (globals locals : list (list byte)),
  Z.of_nat (length globals) < 2 ^ 31 -> Z.of_nat (length locals) < 2 ^ 31 -> overflow_checks cfg = true ->
  (runs cfg (new_program code globals locals) (Err UnexpectedEof) <->
   exists ops q, trace cfg (new_program code globals locals) ops q /\ cut_short q).
Proof. exact (fun cfg code g l => run_fails cfg code g l UnexpectedEof). Qed.
Print Assumptions C63_cut_short.

Theorem C63_malformed : forall (cfg : config) (code : list byte) (globals locals : list (list byte)),
  Z.of_nat (length globals) < 2 ^ 31 -> Z.of_nat (length locals) < 2 ^ 31 -> overflow_checks cfg = true ->
  (runs cfg (new_program code globals locals) (Err Other) <->
   exists ops q, trace cfg (new_program code globals locals) ops q /\ malformed q).
Proof. exact (fun cfg code g l => run_fails cfg code g l Other). Qed.
Print Assumptions C63_malformed.

(** The same of a single call of [next], wherever the execution is. *)
Theorem C63_next : forall (cfg : config) (code : list byte) (globals locals : list (list byte))
    (ops : list t2_operation) (p : program) (k : error),
  Z.of_nat (length globals) < 2 ^ 31 -> Z.of_nat (length locals) < 2 ^ 31 -> overflow_checks cfg = true ->
  trace cfg (new_program code globals locals) ops p ->
  (nexts cfg p (Err k) <->
   exists q, trace cfg p [] q /\ match k with UnexpectedEof => cut_short q | Other => malformed q end).
Proof. exact next_fails. Qed.
Print Assumptions C63_next.

(** Without overflow checks, the same errors, and some where there are panics with them. *)
Theorem C63_unchecked : forall (cfg : config) (code : list byte) (globals locals : list (list byte)) (k : error),
  Z.of_nat (length globals) < 2 ^ 31 -> Z.of_nat (length locals) < 2 ^ 31 ->
  runs cfg (new_program code globals locals) (Err k) ->
  (exists ops q, trace dev_profile (new_program code globals locals) ops q /\
     match k with UnexpectedEof => cut_short q | Other => malformed q end) \/
  (exists k', runs dev_profile (new_program code globals locals) (Panic k')).
Proof. exact run_fails_unchecked. Qed.
Print Assumptions C63_unchecked.

(** 1 2 3 hstem, then 4 and a number of two bytes without its second byte. *)
Example C63_cut_short_hypotheses :
  runs dev_profile (new_program [x8c; x8d; x8e; x01; x8f; xf7] [] []) (Err UnexpectedEof).
Proof. split; [discriminate|]. exists 3%nat. vm_compute. reflexivity. Qed.

(** 1 2 rmoveto, then -107 callsubr; the subroutine has one number for rmoveto. *)
Example C63_malformed_hypotheses :
  runs dev_profile (new_program [x8c; x8d; x15; x20; x0a; x0e] [] [[x8c; x15; x0b]]) (Err Other).
Proof. split; [discriminate|]. exists 4%nat. vm_compute. reflexivity. Qed.

Example C63_malformed_state : malformed (new_program [x8c; x15; x0b] [] []).
Proof.
  exists [f32_of_i32 1], [x15; x0b]. split.
  - exists [x8c]. split; [reflexivity|]. apply (numbers_of_bytes [x8c]). repeat constructor; vm_compute; discriminate.
  - right. exists T2_RMoveTo, [x0b]. split; [reflexivity|]. split.
    + intros [[H _]|[H _]]; discriminate.
    + do 4 right. left. split; [left; reflexivity|]. cbn. lia.
Qed.

Example C63_cut_short_state : cut_short (new_program [x8f; xf7] [] []).
Proof.
  split; [discriminate|]. exists [f32_of_i32 4], [xf7]. split.
  - exists [x8f]. split; [reflexivity|]. apply (numbers_of_bytes [x8f]). repeat constructor; vm_compute; discriminate.
  - right. left. split; [discriminate|]. exists [x00]. split; [discriminate|]. left. exists (f32_of_i32 108).
    destruct (T2NumberFacts.read_operand_sound [xf7; x00] (f32_of_i32 108) []) as (e & E & N); [vm_compute; reflexivity|].
    rewrite app_nil_r in E. rewrite <- E in N. exact N.
Qed.

(** C64. What the execution of a character string has returned does not depend on what follows
    the code that has been executed. *)
Theorem C64_operations : forall (cfg : config) (code more : list byte) (globals locals : list (list byte))
    (ops : list t2_operation) (q : program),
  trace cfg (new_program code globals locals) ops q ->
  exists q', trace cfg (new_program (code ++ more) globals locals) ops q' /\
    stack q' = stack q /\ stems q' = stems q /\ width q' = width q.
Proof. exact more_operations. Qed.
Print Assumptions C64_operations.

(** Errors other than [UnexpectedEof], and panics, are final. *)
Theorem C64_errors : forall (cfg : config) (code more : list byte) (globals locals : list (list byte)),
  runs cfg (new_program code globals locals) (Err Other) ->
  runs cfg (new_program (code ++ more) globals locals) (Err Other).
Proof. exact more_errors. Qed.
Print Assumptions C64_errors.

Theorem C64_panics : forall (cfg : config) (code more : list byte) (globals locals : list (list byte)) (k : panic),
  runs cfg (new_program code globals locals) (Panic k) ->
  runs cfg (new_program (code ++ more) globals locals) (Panic k).
Proof. exact more_panics. Qed.
Print Assumptions C64_panics.

(** [UnexpectedEof] is final if and only if it is a subroutine that is cut short. *)
Theorem C64_cut_short : forall (cfg : config) (code : list byte) (globals locals : list (list byte)),
  runs cfg (new_program code globals locals) (Err UnexpectedEof) ->
  exists q, fails_at cfg (new_program code globals locals) UnexpectedEof q /\
    (callers q <> [] <->
     forall more, runs cfg (new_program (code ++ more) globals locals) (Err UnexpectedEof)).
Proof. exact more_cut_short. Qed.
Print Assumptions C64_cut_short.

(** -107 callsubr, the subroutine being cut, and not. *)
Example C64_cut_short_hypotheses :
  runs dev_profile (new_program [x20; x0a; x0e] [] [[x8c]]) (Err UnexpectedEof) /\
  runs dev_profile (new_program [x20; x0a; x0c] [] [[x0b]]) (Err UnexpectedEof).
Proof.
  split; (split; [discriminate|]); [exists 2%nat|exists 3%nat]; vm_compute; reflexivity.
Qed.

Example C64_panics_hypotheses : runs dev_profile (new_program rolling [] []) (Panic ArithmeticOverflow).
Proof. split; [discriminate|]. exists 9%nat. vm_compute. reflexivity. Qed.

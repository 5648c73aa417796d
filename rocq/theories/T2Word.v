(** T2Word: execution of character strings (src/type2/program.rs) with [usize] of a given width.

    The stem counter is the one [usize] of a program whose width can be noticed: the others count
    operands or subroutines that are in memory, or come from an [i32] known not to be negative. *)
From Verif Require Import Base Float T2Number T2Operation T2Program C1Word.

(** [match operator { .. }; self.next()] (src/type2/program.rs:139-289); the operators other than those
    for hints (src/type2/program.rs:173-183) do not depend on the width. *)
Definition word_execute (w : Z) (cfg : config) (o : t2_operator) (p : program) : outcome stepped :=
  match o with
  | T2_HStem | T2_VStem | T2_HStemHM | T2_VStemHM =>
      let* n := word_add w cfg (stems p) (Z.shiftr (Z.of_nat (length (stack p))) 1) in
      clear o [[equal 2; maybe_modulo 2]] (set_stems p n)
  | T2_HintMask | T2_CntrMask =>
      let* n := word_add w cfg (stems p) (Z.shiftr (Z.of_nat (length (stack p))) 1) in
      let* m := word_add w cfg n 7 in
      let* (_, r) := word_vec w cfg 1 take_byte (Z.shiftr m 3) (routine p) in
      clear o [[equal 0]] (set_routine (set_stems p n) r)
  | _ => execute cfg o p
  end.

(** One round of [Program::next] (src/type2/program.rs:40-290). *)
Definition word_step (w : Z) (cfg : config) (p : program) : outcome stepped :=
  if done (routine p) then Ok (Yield None p)
  else
    let* ((st, code), r) := push_operands (S (length (routine p))) (stack p) (routine p) in
    let* (o, r) := read_t2_operator code r in
    word_execute w cfg o (set_stack (set_routine p r) st).

(** [Program::next] (src/type2/program.rs:40-290), fuelled as [next] is. *)
Fixpoint word_next (w : Z) (cfg : config) (fuel : nat) (p : program)
  : outcome (option t2_operation * program) :=
  match fuel with
  | O => OutOfFuel
  | S fuel' =>
      let* r := word_step w cfg p in
      match r with
      | Yield result p' => Ok (result, p')
      | Again p' => word_next w cfg fuel' p'
      end
  end.

(** Calling [next] until it returns [None] (tests/type2.rs:31-33), as [run] does. *)
Fixpoint word_run (w : Z) (cfg : config) (fuel : nat) (p : program)
  : outcome (list t2_operation * program) :=
  match fuel with
  | O => OutOfFuel
  | S fuel' =>
      let* (result, p') := word_next w cfg fuel p in
      match result with
      | None => Ok ([], p')
      | Some operation =>
          let* (operations, p'') := word_run w cfg fuel' p' in
          Ok (operation :: operations, p'')
      end
  end.

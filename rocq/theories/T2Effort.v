(** T2Effort: executing a round of [Program::next] (src/type2/program.rs) once more, counting
    the rounds of the loops of [Roll].

    All other loops are over the code, the stack or the callers; those of [Roll] run as often
    as an operand says. *)
From Verif Require Import Base Float T2Number T2Operation T2Program.

(** A computation without such loops before one with them. *)
Definition first {A B : Type} (m : outcome A) (k : A -> outcome B * Z) : outcome B * Z :=
  match m with
  | Ok a => k a
  | Err e => (Err e, 0)
  | Panic w => (Panic w, 0)
  | OutOfFuel => (OutOfFuel, 0)
  end.

(** [for _ in 0..n { body }], where the body may return from the function: the result, and how
    often the body was executed. *)
Definition counted {A : Type} (n : Z) (body : A -> outcome A) (a : A) : outcome A * Z :=
  Z.iter n (fun '(m, k) => match m with Ok a => (body a, k + 1) | _ => (m, k) end) (Ok a, 0).

(** [Roll] (src/type2/program.rs:210-234). *)
Definition roll_counted (cfg : config) (st : list f32) : outcome (list f32) * Z :=
  first (pop_i32 st) (fun '(shift, st) =>
  first (pop_i32 st) (fun '(span, st) =>
    let length := Z.of_nat (length st) in
    if span <? 0 then (Err Other, 0)
    else if length <? span then (Err Other, 0)
    else if 0 <? span then
      let position := Z.to_nat (length - span) in
      match shift ?= 0 with
      | Gt => counted shift (fun st => let* (operand, st) := pop st in vec_insert position operand st) st
      | Lt =>
          first (neg_i32 cfg shift) (fun n =>
            counted n (fun st => let* (operand, st) := vec_remove position st in Ok (push operand st)) st)
      | Eq => (Ok st, 0)
      end
    else (Ok st, 0))).

(** [match operator { .. }] (src/type2/program.rs:139-288). *)
Definition execute_counted (cfg : config) (o : t2_operator) (p : program) : outcome stepped * Z :=
  match o with
  | T2_Roll => let (m, k) := roll_counted cfg (stack p) in (with_stack p m, k)
  | _ => (execute cfg o p, 0)
  end.

(** One round of [Program::next] (src/type2/program.rs:40-290). *)
Definition step_counted (cfg : config) (p : program) : outcome stepped * Z :=
  if done (routine p) then (Ok (Yield None p), 0)
  else
    first (push_operands (S (length (routine p))) (stack p) (routine p)) (fun '((st, code), r) =>
    first (read_t2_operator code r) (fun '(o, r) =>
      execute_counted cfg o (set_stack (set_routine p r) st))).

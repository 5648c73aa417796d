(** SpecCalls: the subroutine calls of an execution. *)
From Verif Require Import Base Float T2Operation T2Program.
From Verif Require Export SpecProgram.

(** The execution of a program comes to the operator [o], with [a] on top of the stack. *)
Definition comes_to (cfg : config) (p : program) (o : t2_operator) (a : f32) : Prop :=
  exists ops q e xs r st,
    trace cfg p ops q /\ routine q = e ++ t2_bytes o ++ r /\ each t2_number e xs /\ stack q ++ xs = st ++ [a].

(** In two tables the number [a] selects the same subroutine, or none. *)
Definition selects_alike (table table' : list (list byte)) (a : f32) : Prop :=
  forall code, selects table a code <-> selects table' a code.

(** Neither does its sum with what is added to it overflow in only one of them. *)
Definition overflows_alike (table table' : list (list byte)) (a : f32) : Prop :=
  forall v b b', stands_for a v -> biased (Z.of_nat (length table)) b -> biased (Z.of_nat (length table')) b' ->
    (v + b < 2 ^ 31 <-> v + b' < 2 ^ 31).

(** The program with other tables of subroutines, and the outcome for it. *)
Definition with_subroutines (globals locals : list (list byte)) (p : program) : program :=
  {| routine := routine p; callers := callers p; global := globals; local := locals;
     stack := stack p; stems := stems p; width := width p |}.
Definition outcome_with {A} (globals locals : list (list byte)) (r : outcome (A * program)) : outcome (A * program) :=
  match r with
  | Ok (x, p) => Ok (x, with_subroutines globals locals p)
  | Err k => Err k
  | Panic k => Panic k
  | OutOfFuel => OutOfFuel
  end.

(** SpecEffort: the loop rounds of an execution. *)
From Verif Require Import Base Float T2Operation T2Program T2Effort.
From Verif Require Export SpecProgram.

(** Executing from one state to another has taken [k] rounds of the loops of [Roll]. *)
Inductive spent (cfg : config) : program -> Z -> program -> Prop :=
| spent_none p : spent cfg p 0 p
| spent_again p k p' k' q :
    step_counted cfg p = (Ok (Again p'), k) -> spent cfg p' k' q -> spent cfg p (k + k') q
| spent_emit p k x p' k' q :
    step_counted cfg p = (Ok (Yield (Some x) p'), k) -> spent cfg p' k' q -> spent cfg p (k + k') q.

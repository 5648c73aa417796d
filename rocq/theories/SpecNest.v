(** SpecNest: which subroutines are being executed. *)
From Verif Require Import Base Float T2Operation T2Program.
From Verif Require Export SpecProgram.

(** A subroutine: the operator that calls it, and its place in the table. *)
Definition subroutine : Type := t2_operator * nat.

(** The operator a program comes to, after the numbers in front of it; and the stack it finds. *)
Definition about_to (p : program) (o : t2_operator) (st : list f32) : Prop :=
  exists e xs r, routine p = e ++ t2_bytes o ++ r /\ each t2_number e xs /\ st = stack p ++ xs.

(** The place in a table that a number selects. *)
Definition selects_place (table : list (list byte)) (a : f32) (i : nat) : Prop :=
  exists v b, integral a v /\ biased (Z.of_nat (length table)) b /\ v + b = Z.of_nat i /\ (i < length table)%nat.

(** The program calls a subroutine. *)
Definition calls (p : program) (s : subroutine) : Prop :=
  exists st a, about_to p (fst s) (st ++ [a]) /\
    (fst s = T2_CallSubr /\ selects_place (local p) a (snd s) \/
     fst s = T2_CallGSubr /\ selects_place (global p) a (snd s)).

(** The execution goes on, with or without returning an operation. *)
Definition proceeds (cfg : config) (p q : program) : Prop :=
  step cfg p = Ok (Again q) \/ exists x, step cfg p = Ok (Yield (Some x) q).

(** Coming from the program [p] the execution is at [q], inside of these subroutines, the innermost
    first. *)
Inductive inside_of (cfg : config) (p : program) : program -> list subroutine -> Prop :=
| inside_none : inside_of cfg p p []
| inside_call q ss s q' :
    inside_of cfg p q ss -> calls q s -> proceeds cfg q q' -> inside_of cfg p q' (s :: ss)
| inside_return q ss s q' st :
    inside_of cfg p q (s :: ss) -> about_to q T2_Return st -> proceeds cfg q q' -> inside_of cfg p q' ss
| inside_other q ss q' o st :
    inside_of cfg p q ss -> about_to q o st -> o <> T2_CallSubr -> o <> T2_CallGSubr -> o <> T2_Return ->
    proceeds cfg q q' -> inside_of cfg p q' ss.

(** A subroutine is called inside of itself. *)
Definition recurs (cfg : config) (p : program) : Prop :=
  exists q s ss, inside_of cfg p q (s :: ss) /\ In s ss.

(** A place in one of the tables. *)
Definition place_in (globals locals : list (list byte)) (s : subroutine) : Prop :=
  fst s = T2_CallGSubr /\ (snd s < length globals)%nat \/ fst s = T2_CallSubr /\ (snd s < length locals)%nat.

(** Bytes without the codes of the operators that call subroutines. *)
Definition callless (c : list byte) : Prop := ~ In x0a c /\ ~ In x1d c.

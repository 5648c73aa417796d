(** SpecFinite: how large the numbers of an execution can be. *)
From Coq Require Import Reals.
From Verif Require Import Base Float T2Operation T2Program.
From Verif Require Export SpecProgram SpecNest.

(** A finite number whose magnitude is at most 2^k. *)
Definition bounded (k : Z) (x : f32) : Prop := finite x /\ (Rabs (value x) <= IZR (2 ^ k))%R.

(** If the numbers are at most 2^k before an operator, they are at most 2^k' after it: a sum doubles
    the bound, a product squares it, and a quotient multiplies it by 2^j if the divisor is at least
    2^-j; a square root keeps it if the number is not negative, and so does everything else. *)
Definition grown (k : Z) (o : t2_operator) (st : list f32) (k' : Z) : Prop :=
  match o with
  | T2_Add | T2_Sub => k' = k + 1
  | T2_Mul => k' = 2 * k
  | T2_Div =>
      exists st' x y j, st = st' ++ [x; y] /\ 0 <= j /\ (1 <= Rabs (value y) * IZR (2 ^ j))%R /\ k' = k + j
  | T2_Sqrt => exists st' x, st = st' ++ [x] /\ (0 <= value x)%R /\ k' = k
  | _ => k' = k
  end.

(** An execution from [p], where the numbers are at most 2^k, to [q], where they are at most 2^k'. *)
Inductive grows (cfg : config) : program -> Z -> list t2_operation -> program -> Z -> Prop :=
| grows_stop p k : grows cfg p k [] p k
| grows_again p o st k k' p' ops q k'' :
    about_to p o st -> grown k o st k' -> step cfg p = Ok (Again p') -> grows cfg p' k' ops q k'' ->
    grows cfg p k ops q k''
| grows_emit p k x p' ops q k' :
    step cfg p = Ok (Yield (Some x) p') -> grows cfg p' k ops q k' -> grows cfg p k (x :: ops) q k'.

(** A number that is written in a character string. *)
Definition written (x : f32) : Prop := exists e, t2_number e x.

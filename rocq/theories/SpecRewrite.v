(** SpecRewrite: pieces of code that do the same, and code in which one takes the place of
    the other. *)
From Verif Require Import Base Float T2Operation T2Program.
From Verif Require Export SpecProgram SpecNest.

(** ** Pieces of code *)

(** How an operator ends, wherever it stands: with another stack, or in a failure. *)
Definition reacts (cfg : config) (o : t2_operator) (before : list f32) (r : outcome (list f32)) : Prop :=
  forall p e xs rest, routine p = e ++ t2_bytes o ++ rest -> each t2_number e xs -> stack p ++ xs = before ->
    step cfg p =
    match r with
    | Ok after => Ok (Again (set_stack (set_routine p rest) after))
    | Err k => Err k
    | Panic k => Panic k
    | OutOfFuel => OutOfFuel
    end.

(** Numbers and stack operators. *)
Inductive straight : list byte -> Prop :=
| straight_nothing : straight []
| straight_number e x c : t2_number e x -> straight c -> straight (e ++ c)
| straight_operator o c : stack_operator o = true -> straight c -> straight (t2_bytes o ++ c).

(** What they make of a stack. *)
Inductive works (cfg : config) : list byte -> list f32 -> outcome (list f32) -> Prop :=
| works_nothing st : works cfg [] st (Ok st)
| works_number e x c st r : t2_number e x -> works cfg c (st ++ [x]) r -> works cfg (e ++ c) st r
| works_operator o c st st' r :
    stack_operator o = true -> reacts cfg o st (Ok st') -> works cfg c st' r -> works cfg (t2_bytes o ++ c) st r
| works_failure o c st r :
    stack_operator o = true -> reacts cfg o st r -> (forall st', r <> Ok st') -> works cfg (t2_bytes o ++ c) st r.

(** Two pieces make the same of every stack of numbers. *)
Definition alike (cfg : config) (u v : list byte) : Prop :=
  straight u /\ straight v /\
  forall st, Forall binary32 st -> forall r, works cfg u st r <-> works cfg v st r.

(** ** Replacement *)

(** The code on the right is that on the left, except for pieces that are alike.  Something
    follows each of them, and every mask in front of one has [k] bytes. *)
Inductive replaced (cfg : config) (k : nat) : list byte -> list byte -> Prop :=
| replaced_not c : replaced cfg k c c
| replaced_piece u v c c' :
    alike cfg u v -> c <> [] -> c' <> [] -> replaced cfg k c c' -> replaced cfg k (u ++ c) (v ++ c')
| replaced_operator o c c' :
    mask_operator o = false -> replaced cfg k c c' -> replaced cfg k (t2_bytes o ++ c) (t2_bytes o ++ c')
| replaced_mask o m c c' :
    mask_operator o = true -> length m = k -> replaced cfg k c c' ->
    replaced cfg k (t2_bytes o ++ m ++ c) (t2_bytes o ++ m ++ c').

(** The masks that a program comes to have [k] bytes. *)
Definition masks_of (cfg : config) (k : nat) (p : program) : Prop :=
  forall ops q o st, trace cfg p ops q -> about_to q o st -> mask_operator o = true ->
    mask_bytes (stems q + declared o (length st)) (Z.of_nat k).

(** ** What can be seen of a program *)

(** The operations that it returns one after the other, so far. *)
Definition emits (cfg : config) (p : program) (ops : list t2_operation) : Prop :=
  exists q, trace cfg p ops q.

(** All of its operations and the width, or the failure. *)
Definition shows (cfg : config) (p : program) (r : outcome (list t2_operation * option f32)) : Prop :=
  exists r', runs cfg p r' /\
    r = match r' with
        | Ok (ops, q) => Ok (ops, width q)
        | Err k => Err k
        | Panic k => Panic k
        | OutOfFuel => OutOfFuel
        end.

Definition seen_alike (cfg : config) (p p' : program) : Prop :=
  (forall ops, emits cfg p ops <-> emits cfg p' ops) /\ (forall r, shows cfg p r <-> shows cfg p' r).

(** ** Identities *)

(** Pieces of code of which each can take the place of the other. *)
Inductive identity : list byte -> list byte -> Prop :=
| exch_exch_exch : identity (t2_bytes T2_Exch ++ t2_bytes T2_Exch ++ t2_bytes T2_Exch) (t2_bytes T2_Exch)
| neg_neg_neg : identity (t2_bytes T2_Neg ++ t2_bytes T2_Neg ++ t2_bytes T2_Neg) (t2_bytes T2_Neg)
| not_not_not : identity (t2_bytes T2_Not ++ t2_bytes T2_Not ++ t2_bytes T2_Not) (t2_bytes T2_Not)
| abs_abs : identity (t2_bytes T2_Abs ++ t2_bytes T2_Abs) (t2_bytes T2_Abs)
| neg_abs : identity (t2_bytes T2_Neg ++ t2_bytes T2_Abs) (t2_bytes T2_Abs)
| dup_exch : identity (t2_bytes T2_Dup ++ t2_bytes T2_Exch) (t2_bytes T2_Dup)
| exch_commutes o :
    In o [T2_Add; T2_Mul; T2_And; T2_Or; T2_Eq] -> identity (t2_bytes T2_Exch ++ t2_bytes o) (t2_bytes o)
| neg_add : identity (t2_bytes T2_Neg ++ t2_bytes T2_Add) (t2_bytes T2_Sub)
| neg_sub : identity (t2_bytes T2_Neg ++ t2_bytes T2_Sub) (t2_bytes T2_Add)
| number_drop e x : t2_number e x -> identity (e ++ t2_bytes T2_Drop) []
| number_dup e x : t2_number e x -> identity (e ++ t2_bytes T2_Dup) (e ++ e)
| numbers_exch e x e' x' :
    t2_number e x -> t2_number e' x' -> identity (e ++ e' ++ t2_bytes T2_Exch) (e' ++ e)
| index_dup e x n : t2_number e x -> integral x n -> n <= 0 -> identity (e ++ t2_bytes T2_Index) (t2_bytes T2_Dup)
| roll_exch e x e' x' j :
    t2_number e x -> integral x 2 -> t2_number e' x' -> integral x' j -> Z.odd j = true ->
    identity (e ++ e' ++ t2_bytes T2_Roll) (t2_bytes T2_Exch).

(** SpecDeep: programs with more on the stack, and what can be seen of programs that differ in their width. *)
From Verif Require Import Base Float T2Operation T2Program.
From Verif Require Export SpecProgram SpecRewrite SpecWidth.
Local Open Scope list_scope.

(** The same program with more operands below those on the stack. *)
Definition deepened (deep : list f32) (p : program) : program := set_stack p (deep ++ stack p).

(** The second program returns the same operations one after the other as the first, and ends, fails or goes on
    for ever as the first does, but at the end it has the width [w]. *)
Definition same_but_width (cfg : config) (w : f32) (p p' : program) : Prop :=
  (forall ops, emits cfg p ops <-> emits cfg p' ops) /\
  (forall ops, (exists v, shows cfg p (Ok (ops, v))) <-> shows cfg p' (Ok (ops, Some w))) /\
  (forall ops v, shows cfg p' (Ok (ops, v)) -> v = Some w) /\
  (forall k, shows cfg p (Err k) <-> shows cfg p' (Err k)) /\
  (forall k, shows cfg p (Panic k) <-> shows cfg p' (Panic k)).

(** The first operator that clears the stack, with its arguments. *)
Definition first_clearing (cfg : config) (p : program) (o : t2_operator) (arguments : list f32) : Prop :=
  (path_or_hint o = true \/ o = T2_EndChar) /\
  exists q e xs r, trace cfg p [] q /\ routine q = e ++ t2_bytes o ++ r /\ each t2_number e xs /\
    arguments = stack q ++ xs.

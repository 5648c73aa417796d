(** SpecStream: when some bytes determine what a reader does, whatever follows them. *)
From Verif Require Import Base.
Local Open Scope list_scope.

(** Either the bytes begin with a value, and what follows is left, or they cannot. *)
Definition decided {A} (rd : reader A) (s : list byte) : Prop :=
  (exists x r, forall t, rd (s ++ t) = Ok (x, r ++ t)) \/
  (exists o, (forall x, o <> Ok x) /\ forall t, rd (s ++ t) = o).

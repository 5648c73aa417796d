(** SpecFailure: when the execution of a character string fails, after "The Type 2 Charstring
    Format" (Adobe technical note 5177), and with which kind of error. *)
From Verif Require Import Base Float T2Operation T2Program.
From Verif Require Export SpecExecution.

(** The code of a state starts with the numbers [xs], and [t] follows them. *)
Definition ahead (p : program) (xs : list f32) (t : list byte) : Prop :=
  exists e, routine p = e ++ t /\ each t2_number e xs.

(** ** Code that is cut short *)

(** The bytes are some, but not all, of those of a number or of an operator. *)
Definition cut_token (t : list byte) : Prop :=
  t <> [] /\ exists u, u <> [] /\ ((exists x, t2_number (t ++ u) x) \/ exists o, t ++ u = t2_bytes o).

(** Something has to follow, and does not: an operator, the rest of a number or of an
    operator, or the rest of a mask. *)
Definition cut_short (p : program) : Prop :=
  routine p <> [] /\
  exists xs t, ahead p xs t /\
    (t = [] \/ cut_token t \/
     exists o r, t = t2_bytes o ++ r /\ mask_operator o = true /\ ~ extreme o (loaded p xs r) /\
       forall size, mask_bytes (stems p + declared o (length (stack p ++ xs))) size -> Z.of_nat (length r) < size).

(** ** Code that is malformed *)

(** What an operator does not accept; the state is the one in which it is executed. *)
Definition refuses (o : t2_operator) (p : program) : Prop :=
  o = T2_Random \/ o = T2_Put \/ o = T2_Get \/
  (stack_operator o = true /\ forall after, ~ computes o (stack p) after) \/
  ((path_operator o = true \/ stem_operator o = true) /\
   forall n, legal_count o n -> (length (stack p) < n)%nat) \/
  ((o = T2_CallSubr \/ o = T2_CallGSubr) /\
   forall st a body, stack p = st ++ [a] -> ~ subroutine (global p) (local p) o a body) \/
  (o = T2_Return /\ callers p = []) \/
  (o = T2_EndChar /\ ~ Forall (fun c => c = []) (removelast (routine p :: callers p))).

(** After the numbers there are bytes that start neither a number nor an operator, or there
    is an operator that refuses to be executed. *)
Definition malformed (p : program) : Prop :=
  exists xs t, ahead p xs t /\
    ((t <> [] /\ ~ cut_token t /\ (forall e x r, t = e ++ r -> ~ t2_number e x) /\
      forall o r, t <> t2_bytes o ++ r) \/
     exists o r, t = t2_bytes o ++ r /\ ~ extreme o (loaded p xs r) /\ refuses o (loaded p xs r)).

(** The state in which an execution fails. *)
Definition fails_at (cfg : config) (p : program) (k : error) (q : program) : Prop :=
  exists ops, trace cfg p ops q /\ step cfg q = Err k.

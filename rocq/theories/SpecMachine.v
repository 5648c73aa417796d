(** SpecMachine: programs after errors. *)
From Verif Require Import Base Float T2Operation T2Program T2Machine.
From Verif Require Export SpecFailure.

(** ** Cursors *)

(** A read that fails does not move back. *)
Definition forward (left : cursor) : Prop := forall n s,
  (exists t, s = t ++ value_left left n s) /\ (exists t, s = t ++ bytes_left left n s).
(** It does not move, or it moves to the end. *)
Definition stays : cursor := {| value_left _ s := s; bytes_left _ s := s |}.
Definition drops : cursor := {| value_left _ _ := []; bytes_left _ _ := [] |}.

(** ** Calls *)

(** Any number of calls of [next], one after another, with what they return.  A call may fail,
    but it must return. *)
Inductive session (left : cursor) (cfg : config)
  : program -> list (outcome (option t2_operation)) -> program -> Prop :=
| session_start p : session left cfg p [] p
| session_returned fuel p x p' rs q :
    advancing left cfg fuel p = (Ok x, p') -> session left cfg p' rs q -> session left cfg p (Ok x :: rs) q
| session_failed fuel p k p' rs q :
    advancing left cfg fuel p = (Err k, p') -> session left cfg p' rs q -> session left cfg p (Err k :: rs) q.

(** A result that is not the end: an operation or an error. *)
Definition fruitful (r : outcome (option t2_operation)) : bool := match r with Ok None => false | _ => true end.

(** ** What an error leaves behind *)

(** The operands that are left by an operator that is refused: those that it was about to look at are gone. *)
Inductive remaining : t2_operator -> list f32 -> list f32 -> Prop :=
| remaining_selection o st :
    o = T2_Index \/ o = T2_CallSubr \/ o = T2_CallGSubr -> remaining o st (removelast st)
| remaining_shift st : (forall deep j J, st = deep ++ [j] -> ~ stands_for j J) -> remaining T2_Roll st (removelast st)
| remaining_span st deep j J : st = deep ++ [j] -> stands_for j J -> remaining T2_Roll st (removelast deep)
| remaining_none o st : stack_operator o = true -> o <> T2_Index -> o <> T2_Roll -> remaining o st []
| remaining_all o st :
    path_operator o = true \/ stem_operator o = true \/ o = T2_Return \/ o = T2_Random \/ o = T2_Put \/ o = T2_Get ->
    remaining o st st.

(** The stem hints with those that an operator declares, on 64 bits. *)
Definition declared_by (o : t2_operator) (p : program) : Z :=
  (stems p + declared o (length (stack p))) mod 2 ^ 64.

(** The state that a round leaves behind when it fails. *)
Inductive leaves (left : cursor) : program -> program -> Prop :=
(* the operator is missing *)
| leaves_numbers p xs : ahead p xs [] -> leaves left p (loaded p xs [])
(* a number is cut: the first byte and the others are read separately *)
| leaves_number p xs b s u x : ahead p xs (b :: s) -> t2_number (b :: s ++ u) x -> u <> [] ->
    leaves left p (loaded p xs (value_left left (Z.of_nat (length (s ++ u))) s))
(* an operator is cut *)
| leaves_cut p xs : ahead p xs [x0c] -> leaves left p (loaded p xs (value_left left 2 [x0c]))
(* there is no such operator *)
| leaves_unknown p xs b r : ahead p xs (b :: r) -> b <> x0c -> (forall s x, ~ t2_number (b :: s) x) ->
    (forall o, t2_bytes o <> [b]) -> leaves left p (loaded p xs r)
| leaves_unknown_pair p xs b r : ahead p xs (x0c :: b :: r) ->
    (forall o, t2_bytes o <> [x0c; b]) -> leaves left p (loaded p xs r)
(* a mask is cut; the stem hints have been counted *)
| leaves_mask p xs o r : ahead p xs (t2_bytes o ++ r) -> mask_operator o = true ->
    leaves left p (set_stems (loaded p xs (bytes_left left ((declared_by o (loaded p xs r) + 7) mod 2 ^ 64 / 8) r))
                     (declared_by o (loaded p xs r)))
(* there are trailing bytes after endchar: the callers are lost *)
| leaves_trailing p xs r k c c' cs : ahead p xs (t2_bytes T2_EndChar ++ r) ->
    r :: callers p = repeat [] k ++ c :: c' :: cs -> c <> [] -> leaves left p (set_frames (loaded p xs r) c [])
(* another operator is refused *)
| leaves_operator p xs o r st : ahead p xs (t2_bytes o ++ r) -> remaining o (stack p ++ xs) st ->
    leaves left p (set_stems (set_stack (loaded p xs r) st) (declared_by o (loaded p xs r))).

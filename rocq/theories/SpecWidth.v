(** SpecWidth: the arguments of the operators that clear the stack, in the order of their execution, and the
    width that follows from them. *)
From Verif Require Import Base Float T2Operation T2Program SpecProgram.
Local Open Scope list_scope.

(** Rounds of execution, with every operator among them that returns an operation, and the [endchar] that ends
    them if there is one, each with all arguments on the stack when it is executed.  Subroutines, expressions
    and the rest of the stack operators may come in between. *)
Inductive clearing (cfg : config) : program -> list (t2_operator * list f32) -> program -> Prop :=
| clearing_stop p : clearing cfg p [] p
| clearing_again p p' l q :
    step cfg p = Ok (Again p') -> clearing cfg p' l q -> clearing cfg p l q
| clearing_emit p e xs o r operands p' l q :
    routine p = e ++ t2_bytes o ++ r -> each t2_number e xs ->
    step cfg p = Ok (Yield (Some (o, operands)) p') -> clearing cfg p' l q ->
    clearing cfg p ((o, stack p ++ xs) :: l) q
| clearing_end p e xs r q :
    routine p = e ++ t2_bytes T2_EndChar ++ r -> each t2_number e xs ->
    step cfg p = Ok (Yield None q) ->
    clearing cfg p [(T2_EndChar, stack p ++ xs)] q.

(** The arguments that an operator does not take; [endchar] takes none (accented characters are left out). *)
Definition left_over (o : t2_operator) (arguments surplus : list f32) : Prop :=
  o = T2_EndChar /\ surplus = arguments \/
  o <> T2_EndChar /\ exists operands, longest o arguments surplus operands.

(** The top-most surplus argument of the first operator that has any. *)
Inductive first_surplus : list (t2_operator * list f32) -> option f32 -> Prop :=
| first_surplus_nil : first_surplus [] None
| first_surplus_later o arguments l w :
    left_over o arguments [] -> first_surplus l w -> first_surplus ((o, arguments) :: l) w
| first_surplus_here o arguments s w l :
    left_over o arguments (s ++ [w]) -> first_surplus ((o, arguments) :: l) (Some w).

(** The operators that may have the width in front of their arguments. *)
Definition may_have_width (o : t2_operator) : bool :=
  stem_operator o || mask_operator o ||
  match o with T2_RMoveTo | T2_HMoveTo | T2_VMoveTo | T2_EndChar => true | _ => false end.

(** The first operator has the width and nothing else left over, or nothing is ever left over. *)
Definition width_in_place (l : list (t2_operator * list f32)) : Prop :=
  match l with
  | [] => True
  | (o, arguments) :: rest =>
      (may_have_width o = true /\ exists w, left_over o arguments [w]) \/
      (left_over o arguments [] /\ Forall (fun x => left_over (fst x) (snd x) []) rest)
  end.

(** The width that the specification gives to a character string with these operators. *)
Definition specified (l : list (t2_operator * list f32)) : option f32 :=
  match l with
  | [] => None
  | (o, arguments) :: _ => specified_width o arguments
  end.

(** SpecFault: how the execution of character strings breaks off, given by rules that go with
    those of SpecExecution.  The rules do not refer to the model of [Program]. *)
From Verif Require Import Base Float T2Operation T2Program.
From Verif Require Export SpecFailure.

(** The code is cut short, it is not that of a character string, or it computes a number that
    is out of range. *)
Inductive fault : Type := Incomplete | Invalid | Excessive.

Section Faults.
  Context (globals locals : list (list byte)).

  (** What an operator can do with neither the values nor the number of hints: the subroutine
      number, the shift or the number of hints is out of range. *)
  Inductive exceeds : t2_operator -> list f32 -> Z -> Prop :=
  | exceeds_call o subroutines st a v b n :
      o = T2_CallSubr /\ subroutines = locals \/ o = T2_CallGSubr /\ subroutines = globals ->
      stands_for a v -> biased (Z.of_nat (length subroutines)) b -> 2 ^ 31 <= v + b ->
      exceeds o (st ++ [a]) n
  | exceeds_roll st i j c n :
      stands_for i c -> 0 < c <= Z.of_nat (length st) -> stands_for j (- 2 ^ 31) ->
      exceeds T2_Roll (st ++ [i; j]) n
  | exceeds_stem o st n :
      stem_operator o = true -> 2 ^ 64 <= n + Z.of_nat (length st) / 2 -> exceeds o st n
  | exceeds_mask o st n :
      mask_operator o = true -> 2 ^ 64 <= n + Z.of_nat (length st) / 2 + 7 -> exceeds o st n.

  (** The values are not operands of the operator, or the operator is not supported. *)
  Inductive unfit : t2_operator -> list f32 -> Prop :=
  | unfit_operator o st : In o [T2_Random; T2_Put; T2_Get] -> unfit o st
  | unfit_stack o st : stack_operator o = true -> (forall after, ~ computes o st after) -> unfit o st
  | unfit_count o st :
      path_operator o || stem_operator o = true ->
      (forall n, legal_count o n -> (length st < n)%nat) -> unfit o st
  | unfit_call o st :
      In o [T2_CallSubr; T2_CallGSubr] ->
      (forall below a body, st = below ++ [a] -> ~ subroutine globals locals o a body) -> unfit o st.

  (** Executing code in a state gives operations and breaks off. *)
  Inductive breaks : list byte -> machine -> list t2_operation -> fault -> Prop :=
  | breaks_numbers e xs m : each t2_number e xs -> e <> [] -> breaks e m [] Incomplete
  | breaks_token e xs t m : each t2_number e xs -> cut_token t -> breaks (e ++ t) m [] Incomplete
  | breaks_unknown e xs t m :
      each t2_number e xs -> t <> [] -> ~ cut_token t ->
      (forall e' x r, t = e' ++ r -> ~ t2_number e' x) -> (forall o r, t <> t2_bytes o ++ r) ->
      breaks (e ++ t) m [] Invalid
  | breaks_excessive e xs o rest m :
      each t2_number e xs -> exceeds o (values m ++ xs) (hints m) ->
      breaks (e ++ t2_bytes o ++ rest) m [] Excessive
  | breaks_unfit e xs o rest m :
      each t2_number e xs -> ~ exceeds o (values m ++ xs) (hints m) -> unfit o (values m ++ xs) ->
      breaks (e ++ t2_bytes o ++ rest) m [] Invalid
  | breaks_cut_mask e xs o rest m n :
      each t2_number e xs -> mask_operator o = true ->
      n = hints m + Z.of_nat (length (values m ++ xs)) / 2 -> n + 7 < 2 ^ 64 ->
      (forall size, mask_bytes n size -> Z.of_nat (length rest) < size) ->
      breaks (e ++ t2_bytes o ++ rest) m [] Incomplete
  (** A subroutine that ends the character string has code in front of it. *)
  | breaks_call_ended e xs o rest m st a body ops b left m' :
      each t2_number e xs -> values m ++ xs = st ++ [a] -> subroutine globals locals o a body ->
      executes globals locals body {| values := st; hints := hints m; advance := advance m |} ops (Ended (b :: left) m') ->
      breaks (e ++ t2_bytes o ++ rest) m ops Invalid
  (** A subroutine breaks off. *)
  | breaks_call e xs o rest m st a body ops f :
      each t2_number e xs -> values m ++ xs = st ++ [a] -> subroutine globals locals o a body ->
      breaks body {| values := st; hints := hints m; advance := advance m |} ops f ->
      breaks (e ++ t2_bytes o ++ rest) m ops f
  (** What comes after an operator breaks off. *)
  | breaks_after_call e xs o rest m st a body ops m' ops' f :
      each t2_number e xs -> values m ++ xs = st ++ [a] -> subroutine globals locals o a body ->
      executes globals locals body {| values := st; hints := hints m; advance := advance m |} ops (Returned m') ->
      breaks rest m' ops' f ->
      breaks (e ++ t2_bytes o ++ rest) m (ops ++ ops') f
  | breaks_after_stack e xs o rest m after ops f :
      each t2_number e xs -> computes o (values m ++ xs) after ->
      breaks rest {| values := after; hints := hints m; advance := advance m |} ops f ->
      breaks (e ++ t2_bytes o ++ rest) m ops f
  | breaks_after_path e xs o rest m surplus operands ops f :
      each t2_number e xs -> path_operator o = true ->
      longest o (values m ++ xs) surplus operands ->
      breaks rest {| values := []; hints := hints m; advance := noted (advance m) surplus |} ops f ->
      breaks (e ++ t2_bytes o ++ rest) m ((o, operands) :: ops) f
  | breaks_after_stem e xs o rest m surplus operands n ops f :
      each t2_number e xs -> stem_operator o = true ->
      longest o (values m ++ xs) surplus operands ->
      n = hints m + Z.of_nat (length (values m ++ xs)) / 2 -> n < 2 ^ 64 ->
      breaks rest {| values := []; hints := n; advance := noted (advance m) surplus |} ops f ->
      breaks (e ++ t2_bytes o ++ rest) m ((o, operands) :: ops) f
  | breaks_after_mask e xs o mask rest m n ops f :
      each t2_number e xs -> mask_operator o = true ->
      n = hints m + Z.of_nat (length (values m ++ xs)) / 2 -> n + 7 < 2 ^ 64 ->
      mask_bytes n (Z.of_nat (length mask)) ->
      breaks rest {| values := []; hints := n; advance := noted (advance m) (values m ++ xs) |} ops f ->
      breaks (e ++ t2_bytes o ++ mask ++ rest) m ((o, []) :: ops) f.

  (** A character string breaks off, or it returns although nothing has called it; [ops] are
      the operations before. *)
  Definition faulty (code : list byte) (ops : list t2_operation) (f : fault) : Prop :=
    breaks code start ops f \/
    (f = Invalid /\ exists m, executes globals locals code start ops (Returned m)).
End Faults.

(** ** Calls of [Program::next] *)

(** Calling [next] again and again returns operations. *)
Inductive gives (cfg : config) : program -> list t2_operation -> program -> Prop :=
| gives_nothing p : gives cfg p [] p
| gives_operation p x p' ops q :
    nexts cfg p (Ok (Some x, p')) -> gives cfg p' ops q -> gives cfg p (x :: ops) q.

(** What [next] does about a fault. *)
Definition reported (f : fault) : outcome (option t2_operation * program) :=
  match f with
  | Incomplete => Err UnexpectedEof
  | Invalid => Err Other
  | Excessive => Panic ArithmeticOverflow
  end.

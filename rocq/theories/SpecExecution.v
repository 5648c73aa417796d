(** SpecExecution: a semantics of character strings, after "The Type 2 Charstring Format"
    (Adobe technical note 5177), section 4, given by rules.  It does not refer to the model of
    [Program], only to the types of operators and numbers. *)
From Coq Require Import Reals.
From Verif Require Import Base Float T2Operation.
From Verif Require Export SpecProgram.

(** ** Stack operators (sections 4.4 to 4.6) *)

(** The stack before and after an operator; the top is at the end. *)
Inductive computes : t2_operator -> list f32 -> list f32 -> Prop :=
| computes_abs st x : computes T2_Abs (st ++ [x]) (st ++ [SFabs x])
| computes_neg st x : computes T2_Neg (st ++ [x]) (st ++ [SFopp x])
| computes_sqrt st x : computes T2_Sqrt (st ++ [x]) (st ++ [SFsqrt 24 128 x])
| computes_add st x y : computes T2_Add (st ++ [x; y]) (st ++ [SFadd 24 128 x y])
| computes_sub st x y : computes T2_Sub (st ++ [x; y]) (st ++ [SFsub 24 128 x y])
| computes_mul st x y : computes T2_Mul (st ++ [x; y]) (st ++ [SFmul 24 128 x y])
| computes_div st x y : computes T2_Div (st ++ [x; y]) (st ++ [SFdiv 24 128 x y])
| computes_not st x : computes T2_Not (st ++ [x]) (st ++ [of_truth (negb (truth x))])
| computes_and st x y : computes T2_And (st ++ [x; y]) (st ++ [of_truth (truth x && truth y)])
| computes_or st x y : computes T2_Or (st ++ [x; y]) (st ++ [of_truth (truth x || truth y)])
| computes_eq st x y : computes T2_Eq (st ++ [x; y]) (st ++ [of_truth (SFeqb x y)])
| computes_ifelse st a b x y :
    computes T2_IfElse (st ++ [a; b; x; y]) (st ++ [if SFleb x y then a else b])
| computes_drop st x : computes T2_Drop (st ++ [x]) st
| computes_exch st x y : computes T2_Exch (st ++ [x; y]) (st ++ [y; x])
| computes_dup st x : computes T2_Dup (st ++ [x]) (st ++ [x; x])
| computes_index st i n x :
    stands_for i n -> nth_error (rev st) (Z.to_nat n) = Some x ->
    computes T2_Index (st ++ [i]) (st ++ [x])
| computes_roll deep xs ys n j J :
    stands_for n (Z.of_nat (length xs)) -> stands_for j J -> J <> - 2 ^ 31 \/ xs = [] -> rotated J xs ys ->
    computes T2_Roll (deep ++ xs ++ [n; j]) (deep ++ ys).

(** ** States *)

Record machine : Type := {
  values : list f32;
  hints : Z;
  advance : option f32;
}.

Definition start : machine := {| values := []; hints := 0; advance := None |}.

(** The width after values have been left over: unless it is known already, the topmost
    of them. *)
Definition noted (w : option f32) (surplus : list f32) : option f32 :=
  match w with
  | Some w => Some w
  | None => match rev surplus with [] => None | top :: _ => Some top end
  end.

(** ** Execution *)

(** How the execution of code finishes: it returns to its caller, it ends the character
    string with some bytes still in front of it, or it gets to the end of the code. *)
Inductive finish : Type :=
| Returned (m : machine)
| Ended (rest : list byte) (m : machine)
| Exhausted (m : machine).

Section Execution.
  Context (globals locals : list (list byte)).

  (** The subroutine that an operator and its operand select. *)
  Definition subroutine (o : t2_operator) (a : f32) (body : list byte) : Prop :=
    o = T2_CallSubr /\ selects locals a body \/ o = T2_CallGSubr /\ selects globals a body.

  (** Executing code in a state gives operations and finishes.  Each rule but the first is
      for code that starts with numbers, [e], and an operator, [o]. *)
  Inductive executes : list byte -> machine -> list t2_operation -> finish -> Prop :=
  | executes_nothing m : executes [] m [] (Exhausted m)
  | executes_stack e xs o rest m after ops f :
      each t2_number e xs -> computes o (values m ++ xs) after ->
      executes rest {| values := after; hints := hints m; advance := advance m |} ops f ->
      executes (e ++ t2_bytes o ++ rest) m ops f
  | executes_path e xs o rest m surplus operands ops f :
      each t2_number e xs -> path_operator o = true ->
      longest o (values m ++ xs) surplus operands ->
      executes rest {| values := []; hints := hints m; advance := noted (advance m) surplus |} ops f ->
      executes (e ++ t2_bytes o ++ rest) m ((o, operands) :: ops) f
  | executes_stem e xs o rest m surplus operands n ops f :
      each t2_number e xs -> stem_operator o = true ->
      longest o (values m ++ xs) surplus operands ->
      n = hints m + Z.of_nat (length (values m ++ xs)) / 2 -> n < 2 ^ 64 ->
      executes rest {| values := []; hints := n; advance := noted (advance m) surplus |} ops f ->
      executes (e ++ t2_bytes o ++ rest) m ((o, operands) :: ops) f
  | executes_mask e xs o mask rest m n ops f :
      each t2_number e xs -> mask_operator o = true ->
      n = hints m + Z.of_nat (length (values m ++ xs)) / 2 -> n + 7 < 2 ^ 64 ->
      mask_bytes n (Z.of_nat (length mask)) ->
      executes rest {| values := []; hints := n; advance := noted (advance m) (values m ++ xs) |} ops f ->
      executes (e ++ t2_bytes o ++ mask ++ rest) m ((o, []) :: ops) f
  | executes_call e xs o rest m st a body ops m' ops' f :
      each t2_number e xs -> values m ++ xs = st ++ [a] -> subroutine o a body ->
      executes body {| values := st; hints := hints m; advance := advance m |} ops (Returned m') ->
      executes rest m' ops' f ->
      executes (e ++ t2_bytes o ++ rest) m (ops ++ ops') f
  | executes_call_ended e xs o rest m st a body ops m' :
      each t2_number e xs -> values m ++ xs = st ++ [a] -> subroutine o a body ->
      executes body {| values := st; hints := hints m; advance := advance m |} ops (Ended [] m') ->
      executes (e ++ t2_bytes o ++ rest) m ops (Ended rest m')
  | executes_call_exhausted e xs o rest m st a body ops m' :
      each t2_number e xs -> values m ++ xs = st ++ [a] -> subroutine o a body ->
      executes body {| values := st; hints := hints m; advance := advance m |} ops (Exhausted m') ->
      executes (e ++ t2_bytes o ++ rest) m ops (Exhausted m')
  | executes_return e xs rest m :
      each t2_number e xs ->
      executes (e ++ t2_bytes T2_Return ++ rest) m []
        (Returned {| values := values m ++ xs; hints := hints m; advance := advance m |})
  | executes_end e xs rest m :
      each t2_number e xs ->
      executes (e ++ t2_bytes T2_EndChar ++ rest) m []
        (Ended rest {| values := values m ++ xs; hints := hints m;
                       advance := noted (advance m) (values m ++ xs) |}).
End Execution.

(** A character string is executed to the end: it does not return. *)
Definition completes (f : finish) (m : machine) : Prop :=
  match f with Returned _ => False | Ended _ m' | Exhausted m' => m' = m end.

(** The operations and the final state of a character string. *)
Definition meaning (globals locals : list (list byte)) (code : list byte) (ops : list t2_operation)
  (m : machine) : Prop :=
  exists f, executes globals locals code start ops f /\ completes f m.

(** SpecProgram: what character strings mean, after "The Type 2 Charstring Format"
    (Adobe technical note 5177), sections 3 and 4.

    Execution itself is that of the model ([step], [next], [run]); this file says what
    the properties expect of it. *)
From Coq Require Import Reals.
From Verif Require Import Base Float T2Operation T2Program.
From Verif Require Export SpecBytes SpecRounding SpecT2Operator.

(** ** Numbers (section 3.2, table 1) *)

(** The real number that bytes denote. *)
Inductive t2_denotes : list byte -> R -> Prop :=
| t2_one_byte b0 :
    32 <= bz b0 <= 246 -> t2_denotes [b0] (IZR (bz b0 - 139))
| t2_two_bytes_positive b0 b1 :
    247 <= bz b0 <= 250 -> t2_denotes [b0; b1] (IZR ((bz b0 - 247) * 256 + bz b1 + 108))
| t2_two_bytes_negative b0 b1 :
    251 <= bz b0 <= 254 -> t2_denotes [b0; b1] (IZR (- (bz b0 - 251) * 256 - bz b1 - 108))
| t2_three_bytes b1 b2 :
    t2_denotes [x1c; b1; b2] (IZR (signed 16 (big_endian [b1; b2])))
| t2_five_bytes b1 b2 b3 b4 :
    t2_denotes [xff; b1; b2; b3; b4] (IZR (signed 32 (big_endian [b1; b2; b3; b4])) / 65536)%R.

(** The binary32 number nearest to it. *)
Definition t2_number (e : list byte) (x : f32) : Prop :=
  exists r, t2_denotes e r /\ rounded r (sign_of r false) x.

(** The state in which an operator is executed: the numbers [xs] before it are on the
    stack, and the bytes [r] after it remain. *)
Definition loaded (p : program) (xs : list f32) (r : list byte) : program :=
  set_stack (set_routine p r) (stack p ++ xs).

(** ** Operand counts (sections 4.1 to 4.3) *)

Definition legal_count (o : t2_operator) (n : nat) : Prop :=
  match o with
  | T2_RMoveTo => n = 2
  | T2_HMoveTo | T2_VMoveTo => n = 1
  | T2_RLineTo => exists k, 1 <= k /\ n = 2 * k
  | T2_HLineTo | T2_VLineTo =>
      (exists k, n = 1 + 2 * k) \/ (exists k, 1 <= k /\ n = 2 * k)
  | T2_RRCurveTo => exists k, 1 <= k /\ n = 6 * k
  | T2_HHCurveTo | T2_VVCurveTo => exists k, 1 <= k /\ (n = 4 * k \/ n = 1 + 4 * k)
  | T2_HVCurveTo | T2_VHCurveTo =>
      (exists k, n = 4 + 8 * k \/ n = 4 + 8 * k + 1) \/
      (exists k, 1 <= k /\ (n = 8 * k \/ n = 8 * k + 1))
  | T2_RCurveLine => exists k, 1 <= k /\ n = 6 * k + 2
  | T2_RLineCurve => exists k, 1 <= k /\ n = 2 * k + 6
  | T2_Flex => n = 13
  | T2_Flex1 => n = 11
  | T2_HFlex => n = 7
  | T2_HFlex1 => n = 9
  | T2_HStem | T2_VStem | T2_HStemHM | T2_VStemHM => exists k, n = 2 + 2 * k
  | T2_HintMask | T2_CntrMask => n = 0
  | _ => False
  end%nat.

Definition stem_operator (o : t2_operator) : bool :=
  match o with T2_HStem | T2_VStem | T2_HStemHM | T2_VStemHM => true | _ => false end.

Definition mask_operator (o : t2_operator) : bool :=
  match o with T2_HintMask | T2_CntrMask => true | _ => false end.

Definition path_operator (o : t2_operator) : bool :=
  match o with
  | T2_RMoveTo | T2_HMoveTo | T2_VMoveTo | T2_RLineTo | T2_HLineTo | T2_VLineTo
  | T2_RRCurveTo | T2_HHCurveTo | T2_HVCurveTo | T2_RCurveLine | T2_RLineCurve | T2_VHCurveTo
  | T2_VVCurveTo | T2_Flex | T2_HFlex | T2_HFlex1 | T2_Flex1 => true
  | _ => false
  end.

(** The operators of the results of [Program::next]. *)
Definition path_or_hint (o : t2_operator) : bool :=
  path_operator o || stem_operator o || mask_operator o.

(** [operands] is the longest suffix of the stack of a legal length, [surplus] is what is below. *)
Definition longest (o : t2_operator) (st surplus operands : list f32) : Prop :=
  st = surplus ++ operands /\ legal_count o (length operands) /\
  forall m, legal_count o m -> (m <= length st)%nat -> (m <= length operands)%nat.

(** ** Execution *)

(** Rounds of execution, with the operations they return. *)
Inductive trace (cfg : config) : program -> list t2_operation -> program -> Prop :=
| trace_stop p : trace cfg p [] p
| trace_again p p' ops q :
    step cfg p = Ok (Again p') -> trace cfg p' ops q -> trace cfg p ops q
| trace_emit p x p' ops q :
    step cfg p = Ok (Yield (Some x) p') -> trace cfg p' ops q -> trace cfg p (x :: ops) q.

(** The outcome of calling [next], and of calling it until it returns [None], once there
    are enough rounds. *)
Definition nexts (cfg : config) (p : program) (r : outcome (option t2_operation * program)) : Prop :=
  r <> OutOfFuel /\ exists fuel, next cfg fuel p = r.
Definition runs (cfg : config) (p : program) (r : outcome (list t2_operation * program)) : Prop :=
  r <> OutOfFuel /\ exists fuel, run cfg fuel p = r.

(** The states of a program: [stems] is an unsigned 64-bit integer. *)
Definition possible (p : program) : Prop := 0 <= stems p < 2 ^ 64.

(** ** Stems (section 4.3) *)

(** The number of stem hints that an operator declares, given the depth of the stack:
    one for each pair of arguments of a stem operator, and of a mask operator. *)
Definition declared (o : t2_operator) (depth : nat) : Z :=
  if stem_operator o || mask_operator o then Z.of_nat depth / 2 else 0.

(** The number of bytes of a mask of [n] bits: the least number of bytes with as many bits. *)
Definition mask_bytes (n size : Z) : Prop := n <= 8 * size < n + 8.

(** ** Straight-line character strings *)

(** Numbers, an operator, and the mask of a mask operator. *)
Record item : Type := {
  item_numbers : list f32;
  item_operator : t2_operator;
  item_mask : list byte;
}.

Definition item_encoding (e : list byte) (x : item) : Prop :=
  exists ns, each t2_number ns (item_numbers x) /\ e = ns ++ t2_bytes (item_operator x) ++ item_mask x.

(** The number of stem hints after an item. *)
Definition stems_after (n : Z) (x : item) : Z :=
  n + declared (item_operator x) (length (item_numbers x)).

(** Every mask has as many bytes as it takes, [n] stem hints being declared before. *)
Fixpoint masks_fit (n : Z) (xs : list item) : Prop :=
  match xs with
  | [] => True
  | x :: xs =>
      (if mask_operator (item_operator x)
       then mask_bytes (stems_after n x) (Z.of_nat (length (item_mask x)))
       else item_mask x = []) /\
      masks_fit (stems_after n x) xs
  end.

(** The operation an item states. *)
Definition stated (x : item) : t2_operation := (item_operator x, item_numbers x).

(** The result for an item: its operator with the longest legal suffix of its numbers. *)
Definition item_result (x : item) (surplus : list f32) (op : t2_operation) : Prop :=
  path_or_hint (item_operator x) = true /\
  fst op = item_operator x /\ longest (item_operator x) (item_numbers x) surplus (snd op).

(** The surpluses and the results for items. *)
Inductive results : list item -> list (list f32) -> list t2_operation -> Prop :=
| results_nil : results [] [] []
| results_cons x xs surplus surpluses op ops :
    item_result x surplus op -> results xs surpluses ops ->
    results (x :: xs) (surplus :: surpluses) (op :: ops).

(** The width according to section 4.3: the first argument of the first operator that
    clears the stack, if that operator has one argument more than it takes; [numbers] are
    the arguments of that operator. *)
Definition specified_width (o : t2_operator) (numbers : list f32) : option f32 :=
  let n := length numbers in
  let extra :=
    match o with
    | T2_HStem | T2_VStem | T2_HStemHM | T2_VStemHM | T2_HintMask | T2_CntrMask => Nat.odd n
    | T2_RMoveTo => Nat.eqb n 3
    | T2_HMoveTo | T2_VMoveTo => Nat.eqb n 2
    | T2_EndChar => Nat.eqb n 1 || Nat.eqb n 5
    | _ => false
    end in
  if extra then hd_error numbers else None.

(** ** Executions with the number of stem hints they declare *)

(** Any rounds, with the number of stem hints that the operators among them declare. *)
Inductive history (cfg : config) : program -> Z -> program -> Prop :=
| history_stop p : history cfg p 0 p
| history_again p p' n q :
    step cfg p = Ok (Again p') -> history cfg p' n q -> history cfg p n q
| history_emit p e xs o r operands p' n q :
    routine p = e ++ t2_bytes o ++ r -> each t2_number e xs ->
    step cfg p = Ok (Yield (Some (o, operands)) p') -> history cfg p' n q ->
    history cfg p (declared o (length (stack p ++ xs)) + n) q.

(** ** Arithmetic, conditional and stack operators (sections 4.4 and 4.6) *)

Definition stack_operator (o : t2_operator) : bool :=
  match o with
  | T2_Abs | T2_Add | T2_Sub | T2_Div | T2_Neg | T2_Mul | T2_Sqrt | T2_Drop | T2_Exch | T2_Index
  | T2_Roll | T2_Dup | T2_And | T2_Or | T2_Not | T2_Eq | T2_IfElse => true
  | _ => false
  end.

(** The number of operands of a stack operator. *)
Definition arity (o : t2_operator) : nat :=
  match o with
  | T2_Add | T2_Sub | T2_Div | T2_Mul | T2_Exch | T2_Roll | T2_And | T2_Or | T2_Eq => 2
  | T2_IfElse => 4
  | _ => 1
  end%nat.

(** What an operator does, whatever the rest of the program is: it turns the stack [before]
    (the numbers in front of the operator included) into [after], and execution goes on
    behind it; or it makes the program fail. *)
Definition transforms (cfg : config) (o : t2_operator) (before after : list f32) : Prop :=
  forall p e xs r, routine p = e ++ t2_bytes o ++ r -> each t2_number e xs -> stack p ++ xs = before ->
    step cfg p = Ok (Again (set_stack (set_routine p r) after)).
Definition rejects (cfg : config) (o : t2_operator) (before : list f32) : Prop :=
  forall p e xs r, routine p = e ++ t2_bytes o ++ r -> each t2_number e xs -> stack p ++ xs = before ->
    step cfg p = Err Other.

(** Every value on the stack, and the width, is a binary32 datum. *)
Definition valid_program (p : program) : Prop :=
  Forall binary32 (stack p) /\ (forall w, width p = Some w -> binary32 w).

(** ** Expressions (sections 4.4 and 4.6) *)

Inductive expression : Type :=
| Number (x : f32)
| Abs (a : expression)
| Neg (a : expression)
| Sqrt (a : expression)
| Not (a : expression)
| Add (a b : expression)
| Sub (a b : expression)
| Div (a b : expression)
| Mul (a b : expression)
| And (a b : expression)
| Or (a b : expression)
| Equal (a b : expression)
| IfElse (s1 s2 v1 v2 : expression).

(** Numbers are true if they are not zero, and truth is 1 (2^23 * 2^-23). *)
Definition truth (x : f32) : bool := negb (SFeqb x (S754_zero false)).
Definition of_truth (b : bool) : f32 := if b then S754_finite false 8388608 (-23) else S754_zero false.

(** The value of an expression, by the operations of IEEE 754 on binary32 (24 bits of precision,
    maximal exponent 128); [IfElse s1 s2 v1 v2] is [s1] if [v1 <= v2] and [s2] otherwise. *)
Fixpoint evaluate (x : expression) : f32 :=
  match x with
  | Number x => x
  | Abs a => SFabs (evaluate a)
  | Neg a => SFopp (evaluate a)
  | Sqrt a => SFsqrt 24 128 (evaluate a)
  | Not a => of_truth (negb (truth (evaluate a)))
  | Add a b => SFadd 24 128 (evaluate a) (evaluate b)
  | Sub a b => SFsub 24 128 (evaluate a) (evaluate b)
  | Div a b => SFdiv 24 128 (evaluate a) (evaluate b)
  | Mul a b => SFmul 24 128 (evaluate a) (evaluate b)
  | And a b => of_truth (truth (evaluate a) && truth (evaluate b))
  | Or a b => of_truth (truth (evaluate a) || truth (evaluate b))
  | Equal a b => of_truth (SFeqb (evaluate a) (evaluate b))
  | IfElse s1 s2 v1 v2 => if SFleb (evaluate v1) (evaluate v2) then evaluate s1 else evaluate s2
  end.

(** The postfix code of an expression. *)
Inductive expression_encoding : list byte -> expression -> Prop :=
| encode_number e x : t2_number e x -> expression_encoding e (Number x)
| encode_abs ea a : expression_encoding ea a -> expression_encoding (ea ++ t2_bytes T2_Abs) (Abs a)
| encode_neg ea a : expression_encoding ea a -> expression_encoding (ea ++ t2_bytes T2_Neg) (Neg a)
| encode_sqrt ea a : expression_encoding ea a -> expression_encoding (ea ++ t2_bytes T2_Sqrt) (Sqrt a)
| encode_not ea a : expression_encoding ea a -> expression_encoding (ea ++ t2_bytes T2_Not) (Not a)
| encode_add ea eb a b : expression_encoding ea a -> expression_encoding eb b ->
    expression_encoding (ea ++ eb ++ t2_bytes T2_Add) (Add a b)
| encode_sub ea eb a b : expression_encoding ea a -> expression_encoding eb b ->
    expression_encoding (ea ++ eb ++ t2_bytes T2_Sub) (Sub a b)
| encode_div ea eb a b : expression_encoding ea a -> expression_encoding eb b ->
    expression_encoding (ea ++ eb ++ t2_bytes T2_Div) (Div a b)
| encode_mul ea eb a b : expression_encoding ea a -> expression_encoding eb b ->
    expression_encoding (ea ++ eb ++ t2_bytes T2_Mul) (Mul a b)
| encode_and ea eb a b : expression_encoding ea a -> expression_encoding eb b ->
    expression_encoding (ea ++ eb ++ t2_bytes T2_And) (And a b)
| encode_or ea eb a b : expression_encoding ea a -> expression_encoding eb b ->
    expression_encoding (ea ++ eb ++ t2_bytes T2_Or) (Or a b)
| encode_equal ea eb a b : expression_encoding ea a -> expression_encoding eb b ->
    expression_encoding (ea ++ eb ++ t2_bytes T2_Eq) (Equal a b)
| encode_ifelse e1 e2 ea eb s1 s2 v1 v2 :
    expression_encoding e1 s1 -> expression_encoding e2 s2 ->
    expression_encoding ea v1 -> expression_encoding eb v2 ->
    expression_encoding (e1 ++ e2 ++ ea ++ eb ++ t2_bytes T2_IfElse) (IfElse s1 s2 v1 v2).

(** ** Stack operators (section 4.4) *)

(** The datum is the integer [v]. *)
Definition integral (x : f32) (v : Z) : Prop := binary32 x /\ finite x /\ value x = IZR v.

(** The 32-bit integer that a datum stands for as an index, a count or a shift; the
    datum 2^31, which is not one, stands for the greatest. *)
Definition stands_for (x : f32) (v : Z) : Prop :=
  exists u, integral x u /\ - 2 ^ 31 <= u <= 2 ^ 31 /\ v = Z.min u (2 ^ 31 - 1).

(** [xs] rotated upwards by [j] positions: the element at position [i] moves to
    position [i + j], modulo the number of elements. *)
Definition rotated (j : Z) (xs ys : list f32) : Prop :=
  length ys = length xs /\
  forall i x, nth_error xs i = Some x ->
    nth_error ys (Z.to_nat ((Z.of_nat i + j) mod Z.of_nat (length xs))) = Some x.

(** ** Subroutines (section 4.7, and section 16 of technical note 5176) *)

(** What is added to a subroutine number, given the number of subroutines. *)
Definition biased (count b : Z) : Prop :=
  count < 1240 /\ b = 107 \/ 1240 <= count < 33900 /\ b = 1131 \/ 33900 <= count /\ b = 32768.

(** The operators that call subroutines, and the subroutines they call. *)
Definition calls (o : t2_operator) (p : program) (subroutines : list (list byte)) : Prop :=
  o = T2_CallSubr /\ subroutines = local p \/ o = T2_CallGSubr /\ subroutines = global p.

(** The operand [a] selects [code]. *)
Definition selects (subroutines : list (list byte)) (a : f32) (code : list byte) : Prop :=
  exists v b, integral a v /\ biased (Z.of_nat (length subroutines)) b /\
    0 <= v + b /\ nth_error subroutines (Z.to_nat (v + b)) = Some code.

(** A program about to run [code] on its own. *)
Definition alone (p : program) (code : list byte) : program := set_frames p code [].

(** The operands for which an operator overflows: a subroutine number near the greatest
    32-bit integer, the least 32-bit integer as a shift of at least one element, and too many
    stem hints. *)
Definition extreme (o : t2_operator) (p : program) : Prop :=
  match o with
  | T2_CallSubr | T2_CallGSubr =>
      exists st a v b, stack p = st ++ [a] /\ stands_for a v /\
        biased (Z.of_nat (length (match o with T2_CallSubr => local p | _ => global p end))) b /\ 2 ^ 31 <= v + b
  | T2_Roll =>
      exists st n j N, stack p = st ++ [n; j] /\ stands_for n N /\ 0 < N <= Z.of_nat (length st) /\
        stands_for j (- 2 ^ 31)
  | _ =>
      stem_operator o = true /\ 2 ^ 64 <= stems p + declared o (length (stack p)) \/
      mask_operator o = true /\ 2 ^ 64 <= stems p + declared o (length (stack p)) + 7
  end.

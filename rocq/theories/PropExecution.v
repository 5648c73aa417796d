(** PropExecution: properties C43 to C52, C54 and C55. *)
From Coq Require Import Reals.
From Verif Require Import Base Float T2Number T2Operation T2Program BaseFacts SpecProgram ProgramFacts ArithmeticFacts.
From Flocq Require Import Core BinarySingleNaN.
Local Open Scope list_scope.
Local Open Scope Z_scope.

(** C43. Running the code of expressions has the effect of their values being on the
    stack, whatever follows. *)
Theorem C43_expressions : forall (cfg : config) (e : list byte) (xs : list expression) (p : program) (s : list byte)
    (r : outcome (option t2_operation * program)),
  each expression_encoding e xs -> s <> [] -> routine p = e ++ s ->
  nexts cfg p r <-> nexts cfg (loaded p (map evaluate xs) s) r.
Proof. exact expressions_next. Qed.
Print Assumptions C43_expressions.

Theorem C43_passed : forall (cfg : config) (e : list byte) (xs : list expression) (p : program) (o : t2_operator) (r : list byte),
  each expression_encoding e xs -> stack p = [] ->
  routine p = e ++ t2_bytes o ++ r -> path_operator o = true -> legal_count o (length xs) ->
  0 <= stems p -> stems p + 7 < 2 ^ 64 ->
  exists q, nexts cfg p (Ok (Some (o, map evaluate xs), q)) /\ routine q = r /\ stack q = [].
Proof. exact expressions_passed. Qed.
Print Assumptions C43_passed.

(** 7 - 2 * 3 and the choice of 4 rather than 5, as 1 <= 2, are the arguments of a move. *)
Definition sample_expressions : list expression :=
  [Sub (Number (f32_of_i32 7)) (Mul (Number (f32_of_i32 2)) (Number (f32_of_i32 3)));
   IfElse (Number (f32_of_i32 4)) (Number (f32_of_i32 5)) (Number (f32_of_i32 1)) (Number (f32_of_i32 2))].
Definition sample_expression_code : list byte :=
  [x92; x8d; x8e; x0c; x18; x0c; x0b; x8f; x90; x8c; x8d; x0c; x16].
Example C43_case : map evaluate sample_expressions = map f32_of_i32 [1; 4] /\
  match next dev_profile 4 (new_program (sample_expression_code ++ [x15]) [] []) with
  | Ok (Some op, _) => op = (T2_RMoveTo, map evaluate sample_expressions) | _ => False end.
Proof. vm_compute. auto. Qed.
Example C43_encoded : each expression_encoding sample_expression_code sample_expressions.
Proof.
  assert (N : forall b, 32 <= bz b <= 246 -> expression_encoding [b] (Number (f32_of_i32 (bz b - 139)))).
  { intros b B. constructor. apply number_of_byte, B. }
  apply (each_cons _ [x92; x8d; x8e; x0c; x18; x0c; x0b]);
    [|apply (each_cons _ [x8f; x90; x8c; x8d; x0c; x16]); [|constructor]].
  - apply (encode_sub [x92] [x8d; x8e; x0c; x18]); [apply (N x92); vm_compute; split; discriminate|].
    apply (encode_mul [x8d] [x8e]); [apply (N x8d)|apply (N x8e)]; vm_compute; split; discriminate.
  - apply (encode_ifelse [x8f] [x90] [x8c] [x8d]); [apply (N x8f)|apply (N x90)|apply (N x8c)|apply (N x8d)];
      vm_compute; split; discriminate.
Qed.

(** C44. *)
Theorem C44_add : forall (cfg : config) (st : list f32) (x y : f32),
  binary32 x -> binary32 y -> finite x -> finite y ->
  exists z, rounded (value x + value y) (sign_of (value x + value y) (sign_bit x && sign_bit y)) z /\
    transforms cfg T2_Add (st ++ [x; y]) (st ++ [z]).
Proof. exact transforms_add. Qed.
Print Assumptions C44_add.

Theorem C44_sub : forall (cfg : config) (st : list f32) (x y : f32),
  binary32 x -> binary32 y -> finite x -> finite y ->
  exists z, rounded (value x - value y) (sign_of (value x - value y) (sign_bit x && negb (sign_bit y))) z /\
    transforms cfg T2_Sub (st ++ [x; y]) (st ++ [z]).
Proof. exact transforms_sub. Qed.
Print Assumptions C44_sub.

Theorem C44_mul : forall (cfg : config) (st : list f32) (x y : f32),
  binary32 x -> binary32 y -> finite x -> finite y ->
  exists z, rounded (value x * value y) (xorb (sign_bit x) (sign_bit y)) z /\
    transforms cfg T2_Mul (st ++ [x; y]) (st ++ [z]).
Proof. exact transforms_mul. Qed.
Print Assumptions C44_mul.

Theorem C44_div : forall (cfg : config) (st : list f32) (x y : f32),
  binary32 x -> binary32 y -> finite x -> finite y -> value y <> 0%R ->
  exists z, rounded (value x / value y) (xorb (sign_bit x) (sign_bit y)) z /\
    transforms cfg T2_Div (st ++ [x; y]) (st ++ [z]).
Proof. exact transforms_div. Qed.
Print Assumptions C44_div.

Theorem C44_div_zero : forall (cfg : config) (st : list f32) (x y : f32),
  binary32 x -> binary32 y -> finite x -> finite y -> value y = 0%R ->
  transforms cfg T2_Div (st ++ [x; y])
    (st ++ [if Req_bool (value x) 0 then S754_nan else S754_infinity (xorb (sign_bit x) (sign_bit y))]).
Proof. exact transforms_div_zero. Qed.
Print Assumptions C44_div_zero.

Theorem C44_sqrt : forall (cfg : config) (st : list f32) (x : f32),
  binary32 x -> finite x -> (0 <= value x)%R ->
  exists z, value z = nearest (sqrt (value x)) /\ finite z /\ binary32 z /\ sign_bit z = sign_bit x /\
    transforms cfg T2_Sqrt (st ++ [x]) (st ++ [z]).
Proof. exact transforms_sqrt. Qed.
Print Assumptions C44_sqrt.

Theorem C44_sqrt_negative : forall (cfg : config) (st : list f32) (x : f32),
  binary32 x -> finite x -> (value x < 0)%R ->
  transforms cfg T2_Sqrt (st ++ [x]) (st ++ [S754_nan]).
Proof. exact transforms_sqrt_negative. Qed.
Print Assumptions C44_sqrt_negative.

Theorem C44_neg : forall (cfg : config) (st : list f32) (x : f32),
  binary32 x -> finite x ->
  exists z, value z = (- value x)%R /\ finite z /\ binary32 z /\ sign_bit z = negb (sign_bit x) /\
    transforms cfg T2_Neg (st ++ [x]) (st ++ [z]).
Proof. exact transforms_neg. Qed.
Print Assumptions C44_neg.

Theorem C44_abs : forall (cfg : config) (st : list f32) (x : f32),
  binary32 x -> finite x ->
  exists z, value z = Rabs (value x) /\ finite z /\ binary32 z /\ sign_bit z = false /\
    transforms cfg T2_Abs (st ++ [x]) (st ++ [z]).
Proof. exact transforms_abs. Qed.
Print Assumptions C44_abs.

Theorem C44_eq : forall (cfg : config) (st : list f32) (x y : f32),
  binary32 x -> binary32 y -> finite x -> finite y ->
  transforms cfg T2_Eq (st ++ [x; y]) (st ++ [of_truth (Req_bool (value x) (value y))]).
Proof. exact transforms_eq. Qed.
Print Assumptions C44_eq.

Theorem C44_and : forall (cfg : config) (st : list f32) (x y : f32),
  binary32 x -> binary32 y -> finite x -> finite y ->
  transforms cfg T2_And (st ++ [x; y])
    (st ++ [of_truth (negb (Req_bool (value x) 0) && negb (Req_bool (value y) 0))]).
Proof. exact transforms_and. Qed.
Print Assumptions C44_and.

Theorem C44_or : forall (cfg : config) (st : list f32) (x y : f32),
  binary32 x -> binary32 y -> finite x -> finite y ->
  transforms cfg T2_Or (st ++ [x; y])
    (st ++ [of_truth (negb (Req_bool (value x) 0) || negb (Req_bool (value y) 0))]).
Proof. exact transforms_or. Qed.
Print Assumptions C44_or.

Theorem C44_not : forall (cfg : config) (st : list f32) (x : f32),
  binary32 x -> finite x ->
  transforms cfg T2_Not (st ++ [x]) (st ++ [of_truth (Req_bool (value x) 0)]).
Proof. exact transforms_not. Qed.
Print Assumptions C44_not.

Theorem C44_ifelse : forall (cfg : config) (st : list f32) (a b x y : f32),
  binary32 x -> binary32 y -> finite x -> finite y ->
  transforms cfg T2_IfElse (st ++ [a; b; x; y]) (st ++ [if Rle_bool (value x) (value y) then a else b]).
Proof. exact transforms_ifelse. Qed.
Print Assumptions C44_ifelse.

(** Everything on the stack is a binary32 datum, as are widths and results. *)
Theorem C44_valid : forall (cfg : config) (code : list byte) (g l : list (list byte)) (ops : list t2_operation) (q : program),
  trace cfg (new_program code g l) ops q ->
  Forall binary32 (stack q) /\ (forall w, width q = Some w -> binary32 w) /\
  Forall (fun op => Forall binary32 (snd op)) ops.
Proof. exact all_valid. Qed.
Print Assumptions C44_valid.

Example C44_data : binary32 (f32_of_i32 (-7)) /\ finite (f32_of_i32 (-7)) /\
  binary32 (f32_of_i32 16777216) /\ finite (f32_of_i32 16777216).
Proof. vm_compute. auto. Qed.
Example C44_thirds : f32_div (f32_of_i32 1) (f32_of_i32 3) = S754_finite false 11184811 (-25).
Proof. vm_compute. reflexivity. Qed.

(** C45. *)
Theorem C45_dup : forall (cfg : config) (st : list f32) (x : f32),
  transforms cfg T2_Dup (st ++ [x]) (st ++ [x; x]).
Proof. exact transforms_dup. Qed.
Print Assumptions C45_dup.

Theorem C45_exch : forall (cfg : config) (st : list f32) (x y : f32),
  transforms cfg T2_Exch (st ++ [x; y]) (st ++ [y; x]).
Proof. exact transforms_exch. Qed.
Print Assumptions C45_exch.

Theorem C45_drop : forall (cfg : config) (st : list f32) (x : f32),
  transforms cfg T2_Drop (st ++ [x]) st.
Proof. exact transforms_drop. Qed.
Print Assumptions C45_drop.

(** Negative indices are 0. *)
Theorem C45_index : forall (cfg : config) (st : list f32) (i : f32) (n : Z) (x : f32),
  integral i n -> - 2 ^ 31 <= n < 2 ^ 31 -> nth_error (rev st) (Z.to_nat n) = Some x ->
  transforms cfg T2_Index (st ++ [i]) (st ++ [x]).
Proof. exact transforms_index. Qed.
Print Assumptions C45_index.

Theorem C45_index_too_deep : forall (cfg : config) (st : list f32) (i : f32) (n : Z),
  integral i n -> - 2 ^ 31 <= n < 2 ^ 31 -> (length st <= Z.to_nat n)%nat ->
  rejects cfg T2_Index (st ++ [i]).
Proof. exact rejects_index. Qed.
Print Assumptions C45_index_too_deep.

(** The least 32-bit integer is not a shift. *)
Theorem C45_roll_refuted : forall cfg, exists deep xs n j J,
  integral n (Z.of_nat (length xs)) /\ integral j J /\ - 2 ^ 31 <= J < 2 ^ 31 /\
  forall ys, rotated J xs ys -> ~ transforms cfg T2_Roll (deep ++ xs ++ [n; j]) (deep ++ ys).
Proof. exact roll_refuted. Qed.
Print Assumptions C45_roll_refuted.

(** All other 32-bit integers are. *)
Theorem C45_roll_partial : forall (cfg : config) (deep xs : list f32) (n j : f32) (J : Z),
  integral n (Z.of_nat (length xs)) -> integral j J -> Z.of_nat (length xs) < 2 ^ 31 -> - 2 ^ 31 < J < 2 ^ 31 ->
  exists ys, rotated J xs ys /\ transforms cfg T2_Roll (deep ++ xs ++ [n; j]) (deep ++ ys).
Proof. exact transforms_roll. Qed.
Print Assumptions C45_roll_partial.

(** The least one panics if overflow is checked, and leaves the elements alone otherwise. *)
Theorem C45_roll_least : forall (cfg : config) (p : program) (e : list byte) (xs : list f32) (r : list byte)
    (st : list f32) (n j : f32) (N : Z),
  routine p = e ++ t2_bytes T2_Roll ++ r -> each t2_number e xs -> stack p ++ xs = st ++ [n; j] ->
  stands_for n N -> 0 < N <= Z.of_nat (length st) -> stands_for j (- 2 ^ 31) ->
  step cfg p = if overflow_checks cfg then Panic ArithmeticOverflow else Ok (Again (set_stack (set_routine p r) st)).
Proof. exact roll_of_least. Qed.
Print Assumptions C45_roll_least.

Theorem C45_roll_too_many : forall (cfg : config) (st : list f32) (n j : f32) (N J : Z),
  integral n N -> integral j J -> - 2 ^ 31 <= J <= 2 ^ 31 ->
  - 2 ^ 31 <= N < 2 ^ 31 -> N < 0 \/ Z.of_nat (length st) < N -> rejects cfg T2_Roll (st ++ [n; j]).
Proof. exact rejects_roll. Qed.
Print Assumptions C45_roll_too_many.

Theorem C45_fractions : forall (cfg : config) (st : list f32) (j : f32),
  binary32 j -> (forall v, - 2 ^ 31 <= v <= 2 ^ 31 -> ~ integral j v) ->
  rejects cfg T2_Index (st ++ [j]) /\ rejects cfg T2_Roll (st ++ [j]).
Proof. exact rejects_fraction. Qed.
Print Assumptions C45_fractions.

Theorem C45_too_few : forall (cfg : config) (o : t2_operator) (st : list f32),
  stack_operator o = true -> (length st < arity o)%nat -> rejects cfg o st.
Proof. exact rejects_short. Qed.
Print Assumptions C45_too_few.

Example C45_case : integral (f32_of_i32 3) 3 /\ integral (f32_of_i32 (-1)) (-1) /\
  rotated (-1) (map f32_of_i32 [1; 2; 3]) (map f32_of_i32 [2; 3; 1]) /\
  match next dev_profile 2 (new_program [x8b; x8c; x8d; x8e; x8e; x8a; x0c; x1e; x18] [] []) with
  | Err Other => True | _ => False end /\
  match next dev_profile 2 (new_program ([x8b; x8b] ++ [x8b; x8c; x8d; x8e; x8e; x8a; x0c; x1e] ++ [x08]) [] []) with
  | Ok (Some (o, operands), _) => o = T2_RRCurveTo /\ operands = map f32_of_i32 [0; 0; 0; 2; 3; 1] | _ => False end.
Proof.
  split; [apply integral_of_i32; cbn; lia|]. split; [apply integral_of_i32; cbn; lia|].
  split; [|vm_compute; auto]. split; [reflexivity|].
  intros [|[|[|i]]] x E; cbn in E; try discriminate; try (injection E as <-; reflexivity). destruct i; discriminate.
Qed.

(** C46. *)
Theorem C46_called : forall (cfg : config) (p : program) (o : t2_operator) (subroutines : list (list byte))
    (e : list byte) (xs : list f32) (r : list byte) (st : list f32) (a : f32) (code : list byte),
  calls o p subroutines -> Z.of_nat (length subroutines) < 2 ^ 31 ->
  routine p = e ++ t2_bytes o ++ r -> each t2_number e xs -> stack p ++ xs = st ++ [a] ->
  selects subroutines a code ->
  step cfg p = Ok (Again (set_frames (set_stack p st) code (r :: callers p))).
Proof. exact call_transfers. Qed.
Print Assumptions C46_called.

(** The subroutines are those that the program was made with. *)
Theorem C46_given : forall (cfg : config) (whole : list byte) (globals locals : list (list byte)) (ops : list t2_operation)
    (p : program) (o : t2_operator) (subroutines : list (list byte))
    (e : list byte) (xs : list f32) (r : list byte) (st : list f32) (a : f32) (code : list byte),
  trace cfg (new_program whole globals locals) ops p ->
  o = T2_CallSubr /\ subroutines = locals \/ o = T2_CallGSubr /\ subroutines = globals ->
  Z.of_nat (length subroutines) < 2 ^ 31 ->
  routine p = e ++ t2_bytes o ++ r -> each t2_number e xs -> stack p ++ xs = st ++ [a] ->
  selects subroutines a code ->
  step cfg p = Ok (Again (set_frames (set_stack p st) code (r :: callers p))).
Proof. exact call_given. Qed.
Print Assumptions C46_given.

(** Other operands are errors, provided the sum does not overflow or overflow is not checked. *)
Theorem C46_others_partial : forall (cfg : config) (p : program) (o : t2_operator) (subroutines : list (list byte))
    (e : list byte) (xs : list f32) (r : list byte) (st : list f32) (a : f32),
  calls o p subroutines -> Z.of_nat (length subroutines) < 2 ^ 31 ->
  routine p = e ++ t2_bytes o ++ r -> each t2_number e xs -> stack p ++ xs = st ++ [a] -> binary32 a ->
  (forall code, ~ selects subroutines a code) ->
  (overflow_checks cfg = true ->
   forall v b, stands_for a v -> biased (Z.of_nat (length subroutines)) b -> v + b < 2 ^ 31) ->
  step cfg p = Err Other.
Proof. exact call_rejects. Qed.
Print Assumptions C46_others_partial.

Theorem C46_overflow : forall (cfg : config) (p : program) (o : t2_operator) (subroutines : list (list byte))
    (e : list byte) (xs : list f32) (r : list byte) (st : list f32) (a : f32) (v b : Z),
  calls o p subroutines -> Z.of_nat (length subroutines) < 2 ^ 31 ->
  routine p = e ++ t2_bytes o ++ r -> each t2_number e xs -> stack p ++ xs = st ++ [a] ->
  stands_for a v -> biased (Z.of_nat (length subroutines)) b -> 2 ^ 31 <= v + b ->
  step cfg p = if overflow_checks cfg then Panic ArithmeticOverflow else Err Other.
Proof. exact call_overflows. Qed.
Print Assumptions C46_overflow.

Theorem C46_others_refuted : exists p o subroutines e xs r st a,
  calls o p subroutines /\ routine p = e ++ t2_bytes o ++ r /\
  each t2_number e xs /\ stack p ++ xs = st ++ [a] /\ binary32 a /\ (forall code, ~ selects subroutines a code) /\
  step dev_profile p = Panic ArithmeticOverflow.
Proof. exact call_refuted. Qed.
Print Assumptions C46_others_refuted.

(** The second of two subroutines has the number -106. *)
Example C46_case : selects [[x0b]; [x8c; x16; x0b]] (f32_of_i32 (-106)) [x8c; x16; x0b] /\
  match next dev_profile 3 (new_program [x21; x0a; x0e] [] [[x0b]; [x8c; x16; x0b]]) with
  | Ok (Some op, _) => op = (T2_HMoveTo, [f32_of_i32 1]) | _ => False end.
Proof.
  split; [|vm_compute; reflexivity]. exists (-106), 107. split; [apply integral_of_i32; cbn; lia|].
  split; [left; cbn; lia|]. split; [lia|reflexivity].
Qed.

(** C47. *)
Theorem C47_inlined : forall (cfg : config) (p : program) (o : t2_operator) (subroutines : list (list byte))
    (e : list byte) (xs st : list f32) (a : f32) (body junk rest : list byte)
    (ops : list t2_operation) (q : program) (ys : list f32),
  calls o p subroutines -> Z.of_nat (length subroutines) < 2 ^ 31 ->
  routine p = e ++ t2_bytes o ++ rest -> each t2_number e xs -> stack p ++ xs = st ++ [a] ->
  selects subroutines a (body ++ t2_bytes T2_Return ++ junk) ->
  trace cfg (alone (set_stack p st) body) ops q -> callers q = [] -> each t2_number (routine q) ys ->
  rest <> [] \/ routine q = [] ->
  forall r, runs cfg p r <-> runs cfg (set_stack (set_routine p (body ++ rest)) st) r.
Proof. exact inline. Qed.
Print Assumptions C47_inlined.

(** If the number of the subroutine stands in front of the call, the body can replace both
    in the code. *)
Theorem C47_in_place : forall (cfg : config) (p : program) (o : t2_operator) (subroutines : list (list byte))
    (arguments : list byte) (xs : list f32) (number : list byte) (a : f32) (body junk rest : list byte)
    (ops : list t2_operation) (q : program) (ys : list f32),
  calls o p subroutines -> Z.of_nat (length subroutines) < 2 ^ 31 ->
  routine p = arguments ++ number ++ t2_bytes o ++ rest -> each t2_number arguments xs -> t2_number number a ->
  selects subroutines a (body ++ t2_bytes T2_Return ++ junk) ->
  trace cfg (alone (set_stack p (stack p ++ xs)) body) ops q -> callers q = [] -> each t2_number (routine q) ys ->
  rest <> [] \/ routine q = [] /\ body <> [] ->
  forall r, runs cfg p r <-> runs cfg (set_routine p (arguments ++ body ++ rest)) r.
Proof. exact inline_in_place. Qed.
Print Assumptions C47_in_place.

(** 1 2 (3 hmoveto 4) rmoveto, with what is in parentheses called. *)
Example C47_case :
  let subroutines := [[x8e; x16; x8f; x0b]] in
  match run dev_profile 5 (new_program [x8c; x8d; x20; x0a; x8e; x15; x0e] [] subroutines),
        run dev_profile 5 (new_program ([x8c; x8d] ++ [x8e; x16; x8f] ++ [x8e; x15; x0e]) [] subroutines) with
  | Ok (ops, q), Ok (ops', q') => ops = ops' /\ q = q' /\ length ops = 2%nat
  | _, _ => False
  end.
Proof. vm_compute. auto. Qed.

(** C48. *)
Theorem C48_endchar : forall (cfg : config) (p : program) (e : list byte) (xs : list f32) (r : list byte),
  routine p = e ++ t2_bytes T2_EndChar ++ r -> each t2_number e xs ->
  Forall (fun c => c = []) (removelast (r :: callers p)) ->
  exists q, nexts cfg p (Ok (None, q)) /\ routine q = last (r :: callers p) [] /\ callers q = [].
Proof. exact endchar_ends. Qed.
Print Assumptions C48_endchar.

Theorem C48_unfinished : forall (cfg : config) (p : program) (e : list byte) (xs : list f32) (r : list byte),
  routine p = e ++ t2_bytes T2_EndChar ++ r -> each t2_number e xs ->
  ~ Forall (fun c => c = []) (removelast (r :: callers p)) -> nexts cfg p (Err Other).
Proof. exact endchar_fails. Qed.
Print Assumptions C48_unfinished.

(** The bytes after [endchar] are executed by the next call. *)
Theorem C48_for_good_refuted : forall cfg, exists code q x q',
  nexts cfg (new_program code [] []) (Ok (None, q)) /\ nexts cfg q (Ok (Some x, q')).
Proof. exact for_good_refuted. Qed.
Print Assumptions C48_for_good_refuted.

(** If there are none, [next] returns [None] and nothing else from then on. *)
Theorem C48_for_good_partial : forall (cfg : config) (p : program),
  routine p = [] -> forall r, nexts cfg p r <-> r = Ok (None, p).
Proof. exact for_good. Qed.
Print Assumptions C48_for_good_partial.

Example C48_case : match next dev_profile 2 (new_program [x20; x0a; x0e] [] [[x0e]]) with
  | Ok (None, q) => routine q = [x0e] /\ callers q = [] | _ => False end.
Proof. vm_compute. auto. Qed.
Example C48_unfinished_case : next dev_profile 3 (new_program [x20; x0a] [] [[x21; x0a; x0b]; [x0e]]) = Err Other.
Proof. vm_compute. reflexivity. Qed.

(** C49. *)
Theorem C49_unsupported : forall (cfg : config) (p : program) (o : t2_operator) (e : list byte) (xs : list f32) (r : list byte),
  o = T2_Random \/ o = T2_Put \/ o = T2_Get ->
  routine p = e ++ t2_bytes o ++ r -> each t2_number e xs -> nexts cfg p (Err Other).
Proof. exact unsupported. Qed.
Print Assumptions C49_unsupported.

(** Code that is neither a number nor an operator. *)
Theorem C49_reserved : forall (cfg : config) (p : program) (e : list byte) (xs : list f32) (b : byte) (t : list byte),
  routine p = e ++ b :: t -> each t2_number e xs ->
  ~ (bz b = 28 \/ 32 <= bz b) -> (forall o r, b :: t <> t2_bytes o ++ r) ->
  exists k, nexts cfg p (Err k).
Proof. exact reserved. Qed.
Print Assumptions C49_reserved.

Theorem C49_return : forall (cfg : config) (p : program) (e : list byte) (xs : list f32) (r : list byte),
  callers p = [] -> routine p = e ++ t2_bytes T2_Return ++ r -> each t2_number e xs -> nexts cfg p (Err Other).
Proof. exact return_alone. Qed.
Print Assumptions C49_return.

Example C49_case : (forall o r, [x0c; x02] <> t2_bytes o ++ r) /\
  next dev_profile 1 (new_program [x8c; x0c; x02] [] []) = Err Other.
Proof. split; [|vm_compute; reflexivity]. intros [] r; discriminate. Qed.
Example C49_return_case : next dev_profile 1 (new_program [x8c; x0b] [] []) = Err Other.
Proof. vm_compute. reflexivity. Qed.

(** C50. A subroutine that calls itself. *)
Theorem C50_refuted : forall cfg, exists code local, forall fuel,
  next cfg fuel (new_program code [] local) = OutOfFuel.
Proof. exact terminates_refuted. Qed.
Print Assumptions C50_refuted.

(** A program whose calls are nested at most [d] deep terminates, [b] being the length of
    its longest subroutine. *)
Theorem C50_partial : forall (cfg : config) (code : list byte) (g l : list (list byte)) (b d : nat),
  Forall (fun c => (length c <= b)%nat) g -> Forall (fun c => (length c <= b)%nat) l ->
  (exists r, r <> OutOfFuel /\ run cfg (S (length code * S b ^ d)) (new_program code g l) = r) \/
  (exists ops q, trace cfg (new_program code g l) ops q /\ (d < length (callers q))%nat).
Proof. exact terminates. Qed.
Print Assumptions C50_partial.

(** Programs that do not terminate are those whose calls are nested without bound. *)
Theorem C50_diverges_partial : forall (cfg : config) (code : list byte) (g l : list (list byte)),
  (forall r, ~ runs cfg (new_program code g l) r) <->
  forall d, exists ops q, trace cfg (new_program code g l) ops q /\ (d < length (callers q))%nat.
Proof. exact diverges. Qed.
Print Assumptions C50_diverges_partial.

Theorem C50_no_subroutines : forall (cfg : config) (code : list byte),
  exists r, r <> OutOfFuel /\ run cfg (S (length code)) (new_program code [] []) = r.
Proof. exact terminates_alone. Qed.
Print Assumptions C50_no_subroutines.

Example C50_case : match run dev_profile (S (3 * 4 ^ 1)) (new_program [x20; x0a; x0e] [] [[x8c; x16; x0b]]) with
  | Ok (ops, _) => ops = [(T2_HMoveTo, [f32_of_i32 1])] | _ => False end.
Proof. vm_compute. reflexivity. Qed.

(** C51. *)
Theorem C51_refuted : exists code, nexts dev_profile (new_program code [] []) (Panic ArithmeticOverflow).
Proof. exact panics_refuted. Qed.
Print Assumptions C51_refuted.

(** A panic is an overflow in a checked build; extreme operands, and nothing else, cause it. *)
Theorem C51_partial : forall (cfg : config) (code : list byte) (g l : list (list byte)) (ops : list t2_operation)
    (p : program) (k : panic),
  Z.of_nat (length g) < 2 ^ 31 -> Z.of_nat (length l) < 2 ^ 31 ->
  trace cfg (new_program code g l) ops p ->
  (nexts cfg p (Panic k) <->
   k = ArithmeticOverflow /\ overflow_checks cfg = true /\
   exists q e xs o r, trace cfg p [] q /\ routine q = e ++ t2_bytes o ++ r /\ each t2_number e xs /\
     extreme o (loaded q xs r)).
Proof. exact panics. Qed.
Print Assumptions C51_partial.

Theorem C51_runs_partial : forall (cfg : config) (code : list byte) (g l : list (list byte)) (k : panic),
  Z.of_nat (length g) < 2 ^ 31 -> Z.of_nat (length l) < 2 ^ 31 ->
  (runs cfg (new_program code g l) (Panic k) <->
   k = ArithmeticOverflow /\ overflow_checks cfg = true /\
   exists ops q e xs o r, trace cfg (new_program code g l) ops q /\
     routine q = e ++ t2_bytes o ++ r /\ each t2_number e xs /\ extreme o (loaded q xs r)).
Proof. exact run_panics. Qed.
Print Assumptions C51_runs_partial.

Theorem C51_unchecked : forall (cfg : config) (code : list byte) (g l : list (list byte))
    (r : outcome (list t2_operation * program)),
  Z.of_nat (length g) < 2 ^ 31 -> Z.of_nat (length l) < 2 ^ 31 ->
  overflow_checks cfg = false -> runs cfg (new_program code g l) r -> forall k, r <> Panic k.
Proof. exact no_panics. Qed.
Print Assumptions C51_unchecked.

Example C51_case : match run release_profile 9 (new_program rolling [] []) with Ok _ => True | _ => False end.
Proof. vm_compute. exact I. Qed.

(** C52. *)
Theorem C52_round_trip : forall (cfg : config) (code : list byte) (xs : list item) (g l : list (list byte)),
  each item_encoding code xs ->
  Forall (fun x => path_or_hint (item_operator x) = true /\ legal_count (item_operator x) (length (item_numbers x))) xs ->
  masks_fit 0 xs -> Z.of_nat (length code) + 7 < 2 ^ 64 ->
  exists q, runs cfg (new_program (code ++ t2_bytes T2_EndChar) g l) (Ok (map stated xs, q)) /\
    width q = None /\ routine q = [] /\ callers q = [] /\ nexts cfg q (Ok (None, q)).
Proof. exact round_trip. Qed.
Print Assumptions C52_round_trip.

(** 1 1 hstemhm 1 1 vstemhm hintmask [c0] 1 1 rmoveto *)
Definition sample_items : list item :=
  let ones := repeat (f32_of_i32 1) 2 in
  [{| item_numbers := ones; item_operator := T2_HStemHM; item_mask := [] |};
   {| item_numbers := ones; item_operator := T2_VStemHM; item_mask := [] |};
   {| item_numbers := []; item_operator := T2_HintMask; item_mask := [xc0] |};
   {| item_numbers := ones; item_operator := T2_RMoveTo; item_mask := [] |}].
Definition sample_code : list byte := [x8c; x8c; x12; x8c; x8c; x17; x13; xc0; x8c; x8c; x15].
Example C52_case : masks_fit 0 sample_items /\
  Forall (fun x => path_or_hint (item_operator x) = true /\ legal_count (item_operator x) (length (item_numbers x))) sample_items /\
  match run dev_profile 6 (new_program (sample_code ++ [x0e]) [] []) with
  | Ok (ops, _) => ops = map stated sample_items | _ => False end.
Proof.
  split; [repeat split; vm_compute; auto; discriminate|]. split; [|vm_compute; reflexivity].
  repeat constructor; cbn; try (exists 0%nat; reflexivity).
Qed.
Example C52_encoded : each item_encoding sample_code sample_items.
Proof.
  assert (N : each t2_number [x8c; x8c] (repeat (f32_of_i32 1) 2)).
  { apply (numbers_of_bytes [x8c; x8c]). repeat constructor; vm_compute; discriminate. }
  apply (each_cons _ [x8c; x8c; x12]); [exists [x8c; x8c]; auto|].
  apply (each_cons _ [x8c; x8c; x17]); [exists [x8c; x8c]; auto|].
  apply (each_cons _ [x13; xc0]); [exists []; split; [constructor|reflexivity]|].
  apply (each_cons _ [x8c; x8c; x15]); [exists [x8c; x8c]; auto|constructor].
Qed.

(** C54. *)
Theorem C54_trailing : forall (cfg : config) (code : list byte) (g l : list (list byte)) (ops : list t2_operation)
    (q : program) (e : list byte) (xs : list f32) (r trailing : list byte),
  trace cfg (new_program code g l) ops q -> callers q = [] ->
  routine q = e ++ t2_bytes T2_EndChar ++ r -> each t2_number e xs ->
  exists f f', runs cfg (new_program code g l) (Ok (ops, f)) /\
    runs cfg (new_program (code ++ trailing) g l) (Ok (ops, f')) /\ width f' = width f.
Proof. exact trailing_bytes. Qed.
Print Assumptions C54_trailing.

Example C54_case : match run dev_profile 3 (new_program [x8c; x16; x0e] [] []),
    run dev_profile 3 (new_program [x8c; x16; x0e; x02; x8c; x16] [] []) with
  | Ok (ops, _), Ok (ops', _) => ops = ops' /\ ops = [(T2_HMoveTo, [f32_of_i32 1])] | _, _ => False end.
Proof. vm_compute. auto. Qed.

(** C55. *)
Theorem C55_profiles : forall (cfg cfg' : config) (p : program) (r : outcome (list t2_operation * program)),
  overflow_checks cfg = true -> runs cfg p r -> (forall k, r <> Panic k) -> runs cfg' p r.
Proof. exact profiles. Qed.
Print Assumptions C55_profiles.

Example C55_case : run dev_profile 6 (new_program (sample_code ++ [x0e]) [] []) =
  run release_profile 6 (new_program (sample_code ++ [x0e]) [] []).
Proof. vm_compute. reflexivity. Qed.

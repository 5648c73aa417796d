(** T2Program: execution of character strings (src/type2/program.rs). *)
From Verif Require Import Base Float T2Number T2Operation.

(** [struct Program] with [struct Routine] (src/type2/program.rs:8-21).  A
    routine is represented by the bytes it has not executed yet ([tape] from its
    position on), and the chain of [caller]s by a list, innermost first.
    [Routine::size] is the length of the code, so [Routine::done]
    (src/type2/program.rs:310-312) says that no bytes remain.  [stack] has its
    bottom first, as the [Vec] does.  [stems] is a [usize], here a 64-bit integer.
    The state after an error is that of [T2Machine]. *)
Record program : Type := {
  routine : list byte;
  callers : list (list byte);
  global : list (list byte);
  local : list (list byte);
  stack : list f32;
  stems : Z;
  width : option f32;
}.

(** [Program::new] (src/type2/program.rs:26-35). *)
Definition new_program (code : list byte) (global local : list (list byte)) : program :=
  {| routine := code; callers := []; global := global; local := local;
     stack := []; stems := 0; width := None |}.

(** [Routine::done] (src/type2/program.rs:310-312). *)
Definition done (code : list byte) : bool :=
  match code with [] => true | _ => false end.

(** Field updates. *)
Definition set_routine (p : program) (r : list byte) : program :=
  {| routine := r; callers := callers p; global := global p; local := local p;
     stack := stack p; stems := stems p; width := width p |}.
Definition set_frames (p : program) (r : list byte) (cs : list (list byte)) : program :=
  {| routine := r; callers := cs; global := global p; local := local p;
     stack := stack p; stems := stems p; width := width p |}.
Definition set_stack (p : program) (st : list f32) : program :=
  {| routine := routine p; callers := callers p; global := global p; local := local p;
     stack := st; stems := stems p; width := width p |}.
Definition set_stems (p : program) (n : Z) : program :=
  {| routine := routine p; callers := callers p; global := global p; local := local p;
     stack := stack p; stems := n; width := width p |}.
Definition set_width (p : program) (w : option f32) : program :=
  {| routine := routine p; callers := callers p; global := global p; local := local p;
     stack := stack p; stems := stems p; width := w |}.

(** ** Stack access *)

(** [Vec::pop]: the last element and the others. *)
Fixpoint vec_pop {A : Type} (l : list A) : option (A * list A) :=
  match l with
  | [] => None
  | x :: xs =>
      match vec_pop xs with
      | None => Some (x, [])
      | Some (y, ys) => Some (y, x :: ys)
      end
  end.

(** [pop!()] (src/type2/program.rs:48-51). *)
Definition pop (st : list f32) : outcome (f32 * list f32) :=
  match vec_pop st with
  | Some (value, st') => Ok (value, st')
  | None => Err Other
  end.

(** [pop!(bool)] (src/type2/program.rs:52-55). *)
Definition pop_bool (st : list f32) : outcome (bool * list f32) :=
  match vec_pop st with
  | Some (value, st') => Ok (negb (f32_eqb value f32_zero), st')
  | None => Err Other
  end.

(** [pop!(i32)] (src/type2/program.rs:56-59). *)
Definition pop_i32 (st : list f32) : outcome (Z * list f32) :=
  match vec_pop st with
  | Some (value, st') =>
      if f32_eqb (f32_of_i32 (i32_of_f32 value)) value then Ok (i32_of_f32 value, st')
      else Err Other
  | None => Err Other
  end.

(** [push!(..)] (src/type2/program.rs:66-69). *)
Definition push (x : f32) (st : list f32) : list f32 := st ++ [x].

(** [push!(.., bool)] (src/type2/program.rs:62-65). *)
Definition push_bool (b : bool) (st : list f32) : list f32 :=
  push (if b then f32_one else f32_zero) st.

(** [read!(index)] (src/type2/program.rs:71-77): counted from the top. *)
Definition read_from_top (index : Z) (st : list f32) : outcome f32 :=
  let length := Z.of_nat (length st) in
  if length <=? index then Err Other
  else
    match nth_error st (Z.to_nat (length - 1 - index)) with
    | Some x => Ok x
    | None => Panic IndexOutOfBounds
    end.

(** ** Operand counts *)

(** The predicates of [clear!] (src/type2/program.rs:99-122). *)
Inductive shape : Type :=
| equal (count : nat)
| maybe_equal (count : nat)
| modulo (count : nat)
| maybe_modulo (count : nat).

(** [clear!(@reduce [min, left] [..])] (src/type2/program.rs:94-122).  [None]
    stands for [!0], the initial value of [min]. *)
Fixpoint reduce (shapes : list shape) (left : nat) (min : option nat) : option nat :=
  match shapes with
  | [] =>
      match min with
      | Some m => if Nat.ltb left m then Some left else Some m
      | None => Some left
      end
  | equal c :: rest =>
      if Nat.leb c left then reduce rest (left - c)%nat min else min
  | maybe_equal c :: rest =>
      let min := reduce rest left min in
      if Nat.leb c left then reduce rest (left - c)%nat min else min
  | modulo c :: rest =>
      fold_left (fun min i => reduce rest (left - i * c)%nat min) (seq 1 (left / c)) min
  | maybe_modulo c :: rest =>
      fold_left (fun min i => reduce rest (left - i * c)%nat min) (seq 0 (left / c + 1)) min
  end.

(** What a round of [Program::next] does: return from the function, or call it
    again (src/type2/program.rs:289). *)
Inductive stepped : Type :=
| Yield (result : option t2_operation) (p : program)
| Again (p : program).

(** [clear!([..], ..)] (src/type2/program.rs:123-136): split the stack at the
    least admissible position, remember the width, empty the stack. *)
Definition clear (o : t2_operator) (alternatives : list (list shape)) (p : program)
  : outcome stepped :=
  let st := stack p in
  let min := fold_left (fun min shapes => reduce shapes (length st) min) alternatives None in
  match min with
  | None => Err Other
  | Some min =>
      let operands := skipn min st in
      let rest := firstn min st in
      let* w :=
        if Nat.ltb 0 min && match width p with None => true | Some _ => false end then
          match nth_error rest (min - 1) with
          | Some x => Ok (Some x)
          | None => Panic IndexOutOfBounds
          end
        else Ok (width p) in
      Ok (Yield (Some (o, operands)) (set_width (set_stack p []) w))
  end.

(** ** Operators *)

(** [Vec::insert]. *)
Definition vec_insert {A : Type} (position : nat) (x : A) (l : list A) : outcome (list A) :=
  if Nat.leb position (length l) then Ok (firstn position l ++ x :: skipn position l)
  else Panic IndexOutOfBounds.

(** [Vec::remove]. *)
Definition vec_remove {A : Type} (position : nat) (l : list A) : outcome (A * list A) :=
  match nth_error l position with
  | Some x => Ok (x, firstn position l ++ skipn (S position) l)
  | None => Panic IndexOutOfBounds
  end.

(** [Roll] (src/type2/program.rs:210-234). *)
Definition roll (cfg : config) (st : list f32) : outcome (list f32) :=
  let* (shift, st) := pop_i32 st in
  let* (span, st) := pop_i32 st in
  let length := Z.of_nat (length st) in
  if span <? 0 then Err Other
  else if length <? span then Err Other
  else if 0 <? span then
    let position := Z.to_nat (length - span) in
    match shift ?= 0 with
    | Gt =>
        Z.iter shift
          (fun m => let* st := m in
                    let* (operand, st) := pop st in
                    vec_insert position operand st)
          (Ok st)
    | Lt =>
        let* n := neg_i32 cfg shift in
        Z.iter n
          (fun m => let* st := m in
                    let* (operand, st) := vec_remove position st in
                    Ok (push operand st))
          (Ok st)
    | Eq => Ok st
    end
  else Ok st.

(** [bias] (src/type2/program.rs:323-331). *)
Definition bias (count : Z) : Z :=
  if count <? 1240 then 107 else if count <? 33900 then 1131 else 32768.

(** [CallSubr | CallGSubr] (src/type2/program.rs:261-278). *)
Definition call (cfg : config) (subroutines : list (list byte)) (p : program) : outcome program :=
  let* (address, st) := pop_i32 (stack p) in
  let count := Z.of_nat (length subroutines) in
  let* i := add_i32 cfg address (bias count) in
  if (i <? 0) || (count <=? i) then Err Other
  else
    match nth_error subroutines (Z.to_nat i) with
    | Some code => Ok (set_frames (set_stack p st) code (routine p :: callers p))
    | None => Panic IndexOutOfBounds
    end.

(** [while let Some(caller) = self.routine.caller.take() { .. }]
    (src/type2/program.rs:160-165). *)
Fixpoint unwind (r : list byte) (cs : list (list byte)) : outcome (list byte) :=
  match cs with
  | [] => Ok r
  | c :: cs' => if done r then unwind c cs' else Err Other
  end.

(** A unary operator on the stack (the form of src/type2/program.rs:185,195,198). *)
Definition unary (f : f32 -> f32) (st : list f32) : outcome (list f32) :=
  let* (x, st) := pop st in Ok (push (f x) st).

(** A binary operator on the stack, [rhs] being popped first
    (the form of src/type2/program.rs:187-190). *)
Definition binary (f : f32 -> f32 -> f32) (st : list f32) : outcome (list f32) :=
  let* (rhs, st) := pop st in
  let* (lhs, st) := pop st in
  Ok (push (f lhs rhs) st).

(** The result of a stack operator: continue with another stack. *)
Definition with_stack (p : program) (m : outcome (list f32)) : outcome stepped :=
  let* st := m in Ok (Again (set_stack p st)).

(** [match operator { .. }; self.next()] (src/type2/program.rs:139-289). *)
Definition execute (cfg : config) (o : t2_operator) (p : program) : outcome stepped :=
  match o with
  (* Path-construction operators *)
  | T2_RMoveTo => clear o [[equal 2]] p
  | T2_HMoveTo | T2_VMoveTo => clear o [[equal 1]] p
  | T2_RLineTo => clear o [[modulo 2]] p
  | T2_HLineTo | T2_VLineTo => clear o [[equal 1; maybe_modulo 2]; [modulo 2]] p
  | T2_RRCurveTo => clear o [[modulo 6]] p
  | T2_HHCurveTo | T2_VVCurveTo => clear o [[maybe_equal 1; modulo 4]] p
  | T2_HVCurveTo | T2_VHCurveTo =>
      clear o [[equal 4; maybe_modulo 8; maybe_equal 1]; [modulo 8; maybe_equal 1]] p
  | T2_RCurveLine => clear o [[modulo 6; equal 2]] p
  | T2_RLineCurve => clear o [[modulo 2; equal 6]] p
  | T2_Flex => clear o [[equal 13]] p
  | T2_Flex1 => clear o [[equal 11]] p
  | T2_HFlex => clear o [[equal 7]] p
  | T2_HFlex1 => clear o [[equal 9]] p

  (* Terminal operator *)
  | T2_EndChar =>
      let* r := unwind (routine p) (callers p) in
      let p := set_frames p r [] in
      let w :=
        match vec_pop (stack p), width p with
        | Some (top, _), None => Some top
        | _, w => w
        end in
      Ok (Yield None (set_width p w))

  (* Hint operators *)
  | T2_HStem | T2_VStem | T2_HStemHM | T2_VStemHM =>
      let* n := add_u64 cfg (stems p) (Z.shiftr (Z.of_nat (length (stack p))) 1) in
      clear o [[equal 2; maybe_modulo 2]] (set_stems p n)
  | T2_HintMask | T2_CntrMask =>
      let* n := add_u64 cfg (stems p) (Z.shiftr (Z.of_nat (length (stack p))) 1) in
      let* m := add_u64 cfg n 7 in
      let* (_, r) := take_vec cfg 1 take_byte (Z.shiftr m 3) (routine p) in
      clear o [[equal 0]] (set_routine (set_stems p n) r)

  (* Arithmetic operators *)
  | T2_Abs => with_stack p (unary f32_abs (stack p))
  | T2_Add =>
      with_stack p
        (let* (a, st) := pop (stack p) in
         let* (b, st) := pop st in
         Ok (push (f32_add a b) st))
  | T2_Sub => with_stack p (binary f32_sub (stack p))
  | T2_Div => with_stack p (binary f32_div (stack p))
  | T2_Neg => with_stack p (unary f32_neg (stack p))
  | T2_Mul =>
      with_stack p
        (let* (a, st) := pop (stack p) in
         let* (b, st) := pop st in
         Ok (push (f32_mul a b) st))
  | T2_Sqrt => with_stack p (unary f32_sqrt (stack p))
  | T2_Drop => with_stack p (let* (_, st) := pop (stack p) in Ok st)
  | T2_Exch =>
      with_stack p
        (let* (rhs, st) := pop (stack p) in
         let* (lhs, st) := pop st in
         Ok (push lhs (push rhs st)))
  | T2_Index =>
      with_stack p
        (let* (i, st) := pop_i32 (stack p) in
         let* x := read_from_top (if 0 <=? i then i else 0) st in
         Ok (push x st))
  | T2_Roll => with_stack p (roll cfg (stack p))
  | T2_Dup => with_stack p (let* x := read_from_top 0 (stack p) in Ok (push x (stack p)))

  (* Conditional operators *)
  | T2_And =>
      with_stack p
        (let* (rhs, st) := pop_bool (stack p) in
         let* (lhs, st) := pop_bool st in
         Ok (push_bool (lhs && rhs) st))
  | T2_Or =>
      with_stack p
        (let* (rhs, st) := pop_bool (stack p) in
         let* (lhs, st) := pop_bool st in
         Ok (push_bool (lhs || rhs) st))
  | T2_Not => with_stack p (let* (b, st) := pop_bool (stack p) in Ok (push_bool (negb b) st))
  | T2_Eq =>
      with_stack p
        (let* (rhs, st) := pop (stack p) in
         let* (lhs, st) := pop st in
         Ok (push_bool (f32_eqb lhs rhs) st))
  | T2_IfElse =>
      with_stack p
        (let* (rhs, st) := pop (stack p) in
         let* (lhs, st) := pop st in
         let* (no, st) := pop st in
         let* (yes, st) := pop st in
         Ok (push (if f32_leb lhs rhs then yes else no) st))

  (* Subroutine operators *)
  | T2_CallSubr => let* p := call cfg (local p) p in Ok (Again p)
  | T2_CallGSubr => let* p := call cfg (global p) p in Ok (Again p)
  | T2_Return =>
      match callers p with
      | c :: cs => Ok (Again (set_frames p c cs))
      | [] => Err Other
      end

  (* operator => raise!(..) *)
  | T2_Random | T2_Put | T2_Get => Err Other
  end.

(** The bytes that start an operand (src/type2/program.rs:83). *)
Definition t2_starts_operand (code : Z) : bool :=
  (code =? 0x1c) || ((0x20 <=? code) && (code <=? 0xff)).

(** The loop that pushes operands (src/type2/program.rs:79-86): the stack, the
    first byte that does not start an operand, and the remaining bytes (that byte
    included).  Every round consumes at least one byte; the fuel is the number of
    rounds allowed. *)
Fixpoint push_operands (fuel : nat) (st : list f32) (s : list byte)
  : outcome ((list f32 * Z) * list byte) :=
  match fuel with
  | O => OutOfFuel
  | S fuel' =>
      let* code := peek_u8 s in
      if t2_starts_operand code then
        let* (x, r) := read_operand s in
        push_operands fuel' (push x st) r
      else Ok ((st, code), s)
  end.

(** The operator (src/type2/program.rs:87-91). *)
Definition read_t2_operator (code : Z) : reader t2_operator := fun s =>
  let* (code, r) := if code =? 0x0c then take_u16 s else take_u8 s in
  let* o := t2_operator_from code in
  Ok (o, r).

(** One round of [Program::next] (src/type2/program.rs:40-290), the recursive call
    of line 289 excepted. *)
Definition step (cfg : config) (p : program) : outcome stepped :=
  if done (routine p) then Ok (Yield None p)
  else
    let* ((st, code), r) := push_operands (S (length (routine p))) (stack p) (routine p) in
    let* (o, r) := read_t2_operator code r in
    execute cfg o (set_stack (set_routine p r) st).

(** [Program::next] (src/type2/program.rs:40-290).  The recursion has no a priori
    bound (a subroutine may call itself), so it is fuelled; a call of [next] that
    needs more than [fuel] rounds is [OutOfFuel]. *)
Fixpoint next (cfg : config) (fuel : nat) (p : program)
  : outcome (option t2_operation * program) :=
  match fuel with
  | O => OutOfFuel
  | S fuel' =>
      let* r := step cfg p in
      match r with
      | Yield result p' => Ok (result, p')
      | Again p' => next cfg fuel' p'
      end
  end.

(** Calling [next] until it returns [None], as clients do
    (tests/type2.rs:31-33): the operations in order and the final program. *)
Fixpoint run (cfg : config) (fuel : nat) (p : program)
  : outcome (list t2_operation * program) :=
  match fuel with
  | O => OutOfFuel
  | S fuel' =>
      let* (result, p') := next cfg fuel p in
      match result with
      | None => Ok ([], p')
      | Some operation =>
          let* (operations, p'') := run cfg fuel' p' in
          Ok (operation :: operations, p'')
      end
  end.

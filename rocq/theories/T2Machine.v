(** T2Machine: the execution of character strings (src/type2/program.rs) once more, with
    what every call leaves behind when it fails.

    [T2Program] says nothing about the state after an error.  Here every statement acts on
    the state, as it does on [&mut self]; PropMachine proves that the two agree. *)
From Verif Require Import Base Float T2Number T2Operation T2Program.

(** A computation that changes the state, whether it succeeds or not. *)
Definition action (A : Type) : Type := program -> outcome A * program.

Definition give {A : Type} (a : A) : action A := fun p => (Ok a, p).
(** [raise!(..)] *)
Definition raise {A : Type} : action A := fun p => (Err Other, p).
(** One thing after another; [?] returns early. *)
Definition andthen {A B : Type} (m : action A) (k : A -> action B) : action B := fun p =>
  match m p with
  | (Ok a, p') => k a p'
  | (Err e, p') => (Err e, p')
  | (Panic x, p') => (Panic x, p')
  | (OutOfFuel, p') => (OutOfFuel, p')
  end.
Notation "'let!' x := m 'in' k" := (andthen m (fun x => k)) (at level 200, x name, k at level 200).
Notation "'do!' m 'in' k" := (andthen m (fun _ => k)) (at level 200, k at level 200).

(** Reading and changing the state; a computation that does not depend on it. *)
Definition get {A : Type} (f : program -> A) : action A := fun p => (Ok (f p), p).
Definition change (f : program -> program) : action unit := fun p => (Ok tt, f p).
Definition pure {A : Type} (m : outcome A) : action A := fun p => (m, p).

(** Where a read that does not find enough bytes leaves the cursor: the bytes in front of it after an
    attempt to read [n] bytes of [s], for a number ([u8], [u16] or [u32]) and for a [Vec] of bytes.
    It depends on the versions of the standard library and of [typeface]: [Cursor::read_exact] used
    not to move, and now moves to the end; a [Vec] may be read at once or byte by byte. *)
Record cursor : Type := {
  value_left (n : Z) (s : list byte) : list byte;
  bytes_left (n : Z) (s : list byte) : list byte;
}.

Section machine.

Context (left : cursor) (cfg : config).

(** A read by [rd], [lost] being in front of the cursor when it fails. *)
Definition taking {A : Type} (lost : list byte -> list byte) (rd : reader A) : action A := fun p =>
  match rd (routine p) with
  | Ok (a, r) => (Ok a, set_routine p r)
  | Err e => (Err e, set_routine p (lost (routine p)))
  | Panic x => (Panic x, p)
  | OutOfFuel => (OutOfFuel, p)
  end.

(** [self.routine.take::<T>()], [rd] reading [n] bytes. *)
Definition take {A : Type} (n : Z) (rd : reader A) : action A := taking (value_left left n) rd.
(** [self.routine.take_given::<Vec<u8>>(n)] *)
Definition take_bytes (n : Z) : action (list byte) := taking (bytes_left left n) (take_vec cfg 1 take_byte n).

(** [self.routine.peek::<u8>()]: reads a byte and jumps back; there is nothing to be jumped
    over at the end. *)
Definition peek : action Z := fun p => (peek_u8 (routine p), p).

(** [number::read] (src/type2/number.rs:5-15), by way of [Routine::take_operand]
    (src/type2/program.rs:314-317). *)
Definition take_operand : action f32 :=
  let! first := take 1 take_u8 in
  if (0x20 <=? first) && (first <=? 0xf6) then give (f32_of_i32 (first - 139))
  else if (0xf7 <=? first) && (first <=? 0xfa) then
    let! b := take 1 take_u8 in
    give (f32_of_i32 ((first - 247) * 256 + b + 108))
  else if (0xfb <=? first) && (first <=? 0xfe) then
    let! b := take 1 take_u8 in
    give (f32_of_i32 (- (first - 251) * 256 - b - 108))
  else if first =? 0x1c then
    let! w := take 2 take_u16 in give (f32_of_i32 (as_i16 w))
  else if first =? 0xff then
    let! w := take 4 take_u32 in give (f32_of_q32 (as_i32 w))
  else raise.

(** [self.stack.pop()] *)
Definition pop_stack : action (option f32) := fun p =>
  match vec_pop (stack p) with
  | Some (x, st) => (Ok (Some x), set_stack p st)
  | None => (Ok None, p)
  end.

(** [pop!()], [pop!(bool)] and [pop!(i32)] (src/type2/program.rs:47-60).  An operand that is
    not an integer is gone as well. *)
Definition pop_any : action f32 :=
  let! x := pop_stack in match x with Some x => give x | None => raise end.
Definition pop_truth : action bool :=
  let! x := pop_stack in match x with Some x => give (negb (f32_eqb x f32_zero)) | None => raise end.
Definition pop_integer : action Z :=
  let! x := pop_stack in
  match x with
  | Some x => if f32_eqb (f32_of_i32 (i32_of_f32 x)) x then give (i32_of_f32 x) else raise
  | None => raise
  end.

(** [push!(..)] and [push!(.., bool)] (src/type2/program.rs:61-70). *)
Definition push_any (x : f32) : action unit := change (fun p => set_stack p (stack p ++ [x])).
Definition push_truth (b : bool) : action unit := push_any (if b then f32_one else f32_zero).

(** [read!(index)] (src/type2/program.rs:71-77). *)
Definition peek_stack (index : Z) : action f32 := fun p => (read_from_top index (stack p), p).

(** [clear!(..)] (src/type2/program.rs:93-137): the error comes before the stack is taken. *)
Definition clearing (o : t2_operator) (alternatives : list (list shape)) : action (option (option t2_operation)) :=
  let! st := get stack in
  match fold_left (fun min shapes => reduce shapes (length st) min) alternatives None with
  | None => raise
  | Some min =>
      do! change (fun p => set_stack p []) in
      let! w := get width in
      do! (if Nat.ltb 0 min && match w with None => true | Some _ => false end then
             match nth_error (firstn min st) (min - 1) with
             | Some x => change (fun p => set_width p (Some x))
             | None => pure (Panic IndexOutOfBounds)
             end
           else give tt) in
      give (Some (Some (o, skipn min st)))
  end.

(** [while let Some(caller) = self.routine.caller.take() { .. }]
    (src/type2/program.rs:160-165).  If there is trailing data, the caller has been taken
    already, and is lost with its own callers. *)
Fixpoint unwinding (cs : list (list byte)) : action unit :=
  match cs with
  | [] => give tt
  | c :: cs' =>
      let! r := get routine in
      if done r then do! change (fun p => set_frames p c cs') in unwinding cs'
      else do! change (fun p => set_frames p r []) in raise
  end.

(** [CallSubr | CallGSubr] (src/type2/program.rs:261-278). *)
Definition calling (subroutines : list (list byte)) : action (option (option t2_operation)) :=
  let! address := pop_integer in
  let count := Z.of_nat (length subroutines) in
  let! i := pure (add_i32 cfg address (bias count)) in
  if (i <? 0) || (count <=? i) then raise
  else
    match nth_error subroutines (Z.to_nat i) with
    | Some code => do! change (fun p => set_frames p code (routine p :: callers p)) in give None
    | None => pure (Panic IndexOutOfBounds)
    end.

(** The rest of [Roll] (src/type2/program.rs:212-233), [shift] and [span] having been popped.
    The errors come before the loops, and in the loops there are no errors, so they are
    those of [T2Program.roll]. *)
Definition rolling (shift span : Z) : action unit :=
  let! st := get stack in
  let length := Z.of_nat (length st) in
  if span <? 0 then raise
  else if length <? span then raise
  else if 0 <? span then
    let position := Z.to_nat (length - span) in
    match shift ?= 0 with
    | Gt =>
        let! st := pure (Z.iter shift
          (fun m => let* st := m in
                    let* (operand, st) := pop st in
                    vec_insert position operand st)
          (Ok st)) in
        change (fun p => set_stack p st)
    | Lt =>
        let! n := pure (neg_i32 cfg shift) in
        let! st := pure (Z.iter n
          (fun m => let* st := m in
                    let* (operand, st) := vec_remove position st in
                    Ok (push operand st))
          (Ok st)) in
        change (fun p => set_stack p st)
    | Eq => give tt
    end
  else give tt.

(** What follows an operator that returns nothing: [self.next()] (src/type2/program.rs:289). *)
Definition on (m : action unit) : action (option (option t2_operation)) := do! m in give None.

(** [match operator { .. }] (src/type2/program.rs:139-288): [Some] what is returned, or [None]
    if [next] is called again. *)
Definition executing (o : t2_operator) : action (option (option t2_operation)) :=
  match o with
  (* Path-construction operators *)
  | T2_RMoveTo => clearing o [[equal 2]]
  | T2_HMoveTo | T2_VMoveTo => clearing o [[equal 1]]
  | T2_RLineTo => clearing o [[modulo 2]]
  | T2_HLineTo | T2_VLineTo => clearing o [[equal 1; maybe_modulo 2]; [modulo 2]]
  | T2_RRCurveTo => clearing o [[modulo 6]]
  | T2_HHCurveTo | T2_VVCurveTo => clearing o [[maybe_equal 1; modulo 4]]
  | T2_HVCurveTo | T2_VHCurveTo =>
      clearing o [[equal 4; maybe_modulo 8; maybe_equal 1]; [modulo 8; maybe_equal 1]]
  | T2_RCurveLine => clearing o [[modulo 6; equal 2]]
  | T2_RLineCurve => clearing o [[modulo 2; equal 6]]
  | T2_Flex => clearing o [[equal 13]]
  | T2_Flex1 => clearing o [[equal 11]]
  | T2_HFlex => clearing o [[equal 7]]
  | T2_HFlex1 => clearing o [[equal 9]]

  (* Terminal operator *)
  | T2_EndChar =>
      let! cs := get callers in
      do! unwinding cs in
      let! st := get stack in
      let! w := get width in
      do! (match vec_pop st, w with
           | Some (top, _), None => change (fun p => set_width p (Some top))
           | _, _ => give tt
           end) in
      give (Some None)

  (* Hint operators *)
  | T2_HStem | T2_VStem | T2_HStemHM | T2_VStemHM =>
      let! st := get stack in
      let! k := get stems in
      let! n := pure (add_u64 cfg k (Z.shiftr (Z.of_nat (length st)) 1)) in
      do! change (fun p => set_stems p n) in
      clearing o [[equal 2; maybe_modulo 2]]
  | T2_HintMask | T2_CntrMask =>
      let! st := get stack in
      let! k := get stems in
      let! n := pure (add_u64 cfg k (Z.shiftr (Z.of_nat (length st)) 1)) in
      do! change (fun p => set_stems p n) in
      let! m := pure (add_u64 cfg n 7) in
      do! take_bytes (Z.shiftr m 3) in
      clearing o [[equal 0]]

  (* Arithmetic operators *)
  | T2_Abs => on (let! x := pop_any in push_any (f32_abs x))
  | T2_Add => on (let! a := pop_any in let! b := pop_any in push_any (f32_add a b))
  | T2_Sub => on (let! rhs := pop_any in let! lhs := pop_any in push_any (f32_sub lhs rhs))
  | T2_Div => on (let! rhs := pop_any in let! lhs := pop_any in push_any (f32_div lhs rhs))
  | T2_Neg => on (let! x := pop_any in push_any (f32_neg x))
  | T2_Mul => on (let! a := pop_any in let! b := pop_any in push_any (f32_mul a b))
  | T2_Sqrt => on (let! x := pop_any in push_any (f32_sqrt x))
  | T2_Drop => on (do! pop_any in give tt)
  | T2_Exch => on (let! rhs := pop_any in let! lhs := pop_any in do! push_any rhs in push_any lhs)
  | T2_Index =>
      on (let! i := pop_integer in
          let! x := peek_stack (if 0 <=? i then i else 0) in
          push_any x)
  | T2_Roll => on (let! shift := pop_integer in let! span := pop_integer in rolling shift span)
  | T2_Dup => on (let! x := peek_stack 0 in push_any x)

  (* Conditional operators *)
  | T2_And => on (let! rhs := pop_truth in let! lhs := pop_truth in push_truth (lhs && rhs))
  | T2_Or => on (let! rhs := pop_truth in let! lhs := pop_truth in push_truth (lhs || rhs))
  | T2_Not => on (let! b := pop_truth in push_truth (negb b))
  | T2_Eq => on (let! rhs := pop_any in let! lhs := pop_any in push_truth (f32_eqb lhs rhs))
  | T2_IfElse =>
      on (let! rhs := pop_any in
          let! lhs := pop_any in
          let! no := pop_any in
          let! yes := pop_any in
          push_any (if f32_leb lhs rhs then yes else no))

  (* Subroutine operators *)
  | T2_CallSubr => let! subroutines := get local in calling subroutines
  | T2_CallGSubr => let! subroutines := get global in calling subroutines
  | T2_Return =>
      let! cs := get callers in
      match cs with
      | c :: cs => do! change (fun p => set_frames p c cs) in give None
      | [] => raise
      end

  (* operator => raise!(..) *)
  | T2_Random | T2_Put | T2_Get => raise
  end.

(** The loop that pushes operands (src/type2/program.rs:79-86). *)
Fixpoint pushing (fuel : nat) : action Z :=
  match fuel with
  | O => pure OutOfFuel
  | S fuel' =>
      let! code := peek in
      if t2_starts_operand code then
        let! x := take_operand in
        do! push_any x in
        pushing fuel'
      else give code
  end.

(** One round of [Program::next] (src/type2/program.rs:40-289). *)
Definition round : action (option (option t2_operation)) :=
  let! r := get routine in
  if done r then give (Some None)
  else
    let! code := pushing (S (length r)) in
    let! code := (if code =? 0x0c then take 2 take_u16 else take 1 take_u8) in
    let! o := pure (t2_operator_from code) in
    executing o.

(** [Program::next] (src/type2/program.rs:40-290). *)
Fixpoint advancing (fuel : nat) : action (option t2_operation) :=
  match fuel with
  | O => pure OutOfFuel
  | S fuel' =>
      let! r := round in
      match r with
      | Some result => give result
      | None => advancing fuel'
      end
  end.

End machine.

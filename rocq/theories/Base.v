(** Base: outcomes, machine integers and byte streams.

    Nothing in this file is specific to fonts.  It models the Rust language
    features the crate relies on (results, panics, fixed-width integers, casts)
    and the part of the external crate [typeface] that the source in /repo calls
    ([tape.take], [tape.peek], [tape.take_given], [jump_take!]). *)
From Coq Require Export List ZArith Lia Bool.
From Coq Require Export Strings.Byte.
Export ListNotations.
#[global] Open Scope Z_scope.

(** ** Results and panics *)

(** The [std::io::Error] values the crate produces.  Only the kind is modelled,
    because the code branches on nothing else (src/compact1/operation.rs:63);
    every [raise!] yields a kind different from [UnexpectedEof]. *)
Inductive error : Type :=
| UnexpectedEof   (* a read ran past the end of the tape *)
| Other.          (* every [raise!(..)] of the crate *)

(** The ways in which the modelled code can abort the thread. *)
Inductive panic : Type :=
| ArithmeticOverflow   (* integer overflow with overflow checks on *)
| CapacityOverflow     (* [Vec::with_capacity] beyond [isize::MAX] bytes *)
| IndexOutOfBounds     (* slice indexing *)
| DebugAssertion.      (* [debug_assert!] *)

(** [crate::Result<A>] (src/lib.rs:10) extended with panics.  [OutOfFuel] is the
    answer of a fuelled recursion that was not given enough fuel; it is not a
    behaviour of the code. *)
Inductive outcome (A : Type) : Type :=
| Ok (a : A)
| Err (e : error)
| Panic (p : panic)
| OutOfFuel.
Arguments Ok {A} a.
Arguments Err {A} e.
Arguments Panic {A} p.
Arguments OutOfFuel {A}.

(** The [?] operator. *)
Definition bind {A B : Type} (m : outcome A) (k : A -> outcome B) : outcome B :=
  match m with
  | Ok a => k a
  | Err e => Err e
  | Panic p => Panic p
  | OutOfFuel => OutOfFuel
  end.

Notation "'let*' p ':=' m 'in' k" := (bind m (fun p => k))
  (at level 200, p pattern, m at level 100, k at level 200, right associativity).

(** ** Compilation and environment parameters

    Every theorem quantifies over these.  [overflow_checks] and
    [debug_assertions] are the Cargo profile switches of the same name (both on
    in the default dev profile, both off in the default release profile).
    [preallocates] says whether the external [typeface] crate reserves capacity
    for the whole vector before reading it ([Vec::with_capacity(count)]). *)
Record config : Type := {
  overflow_checks : bool;
  debug_assertions : bool;
  preallocates : bool;
}.

Definition dev_profile : config :=
  {| overflow_checks := true; debug_assertions := true; preallocates := true |}.
Definition release_profile : config :=
  {| overflow_checks := false; debug_assertions := false; preallocates := true |}.

(** ** Machine integers (values are mathematical integers) *)

Definition in_i32 (z : Z) : bool := (-2 ^ 31 <=? z) && (z <? 2 ^ 31).
Definition in_u64 (z : Z) : bool := (0 <=? z) && (z <? 2 ^ 64).

(** Two's complement reinterpretations: [as i16], [as i32], [as u16], [as u64]. *)
Definition as_i16 (z : Z) : Z := (z + 2 ^ 15) mod 2 ^ 16 - 2 ^ 15.
Definition as_i32 (z : Z) : Z := (z + 2 ^ 31) mod 2 ^ 32 - 2 ^ 31.
Definition as_u16 (z : Z) : Z := z mod 2 ^ 16.
Definition as_u64 (z : Z) : Z := z mod 2 ^ 64.
(** [as usize]; a 64-bit target is assumed throughout. *)
Definition as_usize (z : Z) : Z := as_u64 z.

(** Arithmetic that is checked or wraps, depending on the profile. *)
Definition add_i32 (cfg : config) (a b : Z) : outcome Z :=
  if in_i32 (a + b) then Ok (a + b)
  else if overflow_checks cfg then Panic ArithmeticOverflow else Ok (as_i32 (a + b)).
Definition neg_i32 (cfg : config) (a : Z) : outcome Z :=
  if in_i32 (- a) then Ok (- a)
  else if overflow_checks cfg then Panic ArithmeticOverflow else Ok (as_i32 (- a)).
Definition add_u64 (cfg : config) (a b : Z) : outcome Z :=
  if in_u64 (a + b) then Ok (a + b)
  else if overflow_checks cfg then Panic ArithmeticOverflow else Ok (as_u64 (a + b)).
Definition sub_usize (cfg : config) (a b : Z) : outcome Z :=
  if in_u64 (a - b) then Ok (a - b)
  else if overflow_checks cfg then Panic ArithmeticOverflow else Ok (as_usize (a - b)).

(** ** Byte streams

    A tape positioned somewhere inside a byte string is represented by the bytes
    that remain to be read.  The modelled tape is [std::io::Cursor] over an
    in-memory buffer; a [std::fs::File] that is not modified concurrently gives
    the same bytes.  The position a tape is left at after an error is not
    modelled: no code in the crate reads from a tape after an error. *)

(** The value of a byte as an unsigned integer. *)
Definition bz (b : byte) : Z := Z.of_N (Byte.to_N b).

(** [crate::value::Read]: parse a value and return the remaining bytes. *)
Definition reader (A : Type) : Type := list byte -> outcome (A * list byte).

(** [tape.take::<u8>()] of [typeface]: one byte, [UnexpectedEof] if none is left. *)
Definition take_u8 : reader Z := fun s =>
  match s with
  | b :: r => Ok (bz b, r)
  | _ => Err UnexpectedEof
  end.

(** The same read when the byte is kept as it is, for [Vec<u8>] chunks. *)
Definition take_byte : reader byte := fun s =>
  match s with
  | b :: r => Ok (b, r)
  | _ => Err UnexpectedEof
  end.

(** [tape.take::<u16>()] of [typeface]: two bytes, big-endian. *)
Definition take_u16 : reader Z := fun s =>
  match s with
  | b1 :: b0 :: r => Ok (bz b1 * 2 ^ 8 + bz b0, r)
  | _ => Err UnexpectedEof
  end.

(** [tape.take::<[u8; 3]>()] of [typeface]: three bytes. *)
Definition take_u8x3 : reader (Z * Z * Z) := fun s =>
  match s with
  | b2 :: b1 :: b0 :: r => Ok ((bz b2, bz b1, bz b0), r)
  | _ => Err UnexpectedEof
  end.

(** [tape.take::<u32>()] of [typeface]: four bytes, big-endian. *)
Definition take_u32 : reader Z := fun s =>
  match s with
  | b3 :: b2 :: b1 :: b0 :: r =>
      Ok (bz b3 * 2 ^ 24 + bz b2 * 2 ^ 16 + bz b1 * 2 ^ 8 + bz b0, r)
  | _ => Err UnexpectedEof
  end.

(** [tape.peek::<u8>()] of [typeface]: read a byte and restore the position. *)
Definition peek_u8 (s : list byte) : outcome Z :=
  let* (b, _) := take_u8 s in Ok b.

(** [for _ in 0..n { values.push(tape.take()?) }] *)
Fixpoint take_n {A : Type} (rd : reader A) (n : nat) (s : list byte)
  : outcome (list A * list byte) :=
  match n with
  | O => Ok ([], s)
  | S n' =>
      let* (x, s1) := rd s in
      let* (xs, s2) := take_n rd n' s1 in
      Ok (x :: xs, s2)
  end.

(** [isize::MAX], the largest number of bytes a [Vec] may reserve. *)
Definition isize_max : Z := 2 ^ 63 - 1.

(** [tape.take_given::<Vec<T>>(count)] of [typeface]: [count] values in a row,
    [size] being the size of a [T] in memory.  Every [T] the crate reads this way
    occupies at least one byte of the tape, so a loop of [count] rounds fails no
    later than round [length s + 1]; the loop is cut there so that the model can
    be run on absurd counts (the lemma [take_vec_loop] proves the cut harmless). *)
Definition take_vec {A : Type} (cfg : config) (size : Z) (rd : reader A) (count : Z)
  : reader (list A) := fun s =>
  if preallocates cfg && (isize_max <? count * size) then Panic CapacityOverflow
  else take_n rd (Z.to_nat (Z.min count (Z.of_nat (length s) + 1))) s.

(** ** Random access *)

(** The bytes from an absolute position on: the effect of [tape.jump(position)]
    of [typeface] followed by reads.  Seeking a [Cursor] beyond the end succeeds,
    and the next read of at least one byte fails. *)
Definition rest_at (data : list byte) (position : Z) : list byte :=
  if Z.of_nat (length data) <=? position then [] else skipn (Z.to_nat position) data.

(** [jump_take!(@unwrap tape, position, offset)] of [typeface], up to the read:
    [tape.jump(position + offset as u64)]. *)
Definition jump (cfg : config) (data : list byte) (position offset : Z)
  : outcome (list byte) :=
  let* target := add_u64 cfg position (as_u64 offset) in
  Ok (rest_at data target).

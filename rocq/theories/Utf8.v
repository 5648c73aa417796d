(** Utf8: the two UTF-8 functions of the Rust standard library the crate calls,
    [String::from_utf8] and [String::from_utf8_lossy]
    (src/compact1/index/names.rs:16-18, src/compact1/index/strings.rs:20).

    The algorithm is that of core::str::lossy::Utf8Chunks: look for the longest
    well-formed prefix; on failure replace the inspected part of the offending
    sequence by U+FFFD and go on.  A Rust [String] is represented by its bytes. *)
From Verif Require Import Base.

Definition between (a b z : Z) : bool := (a <=? z) && (z <=? b).

(** A continuation byte: [byte & 192 == 128]. *)
Definition is_continuation (b : byte) : bool := between 0x80 0xbf (bz b).

(** The second bytes allowed after a given first byte of a three-byte sequence. *)
Definition second_of_three (a b : Z) : bool :=
  ((a =? 0xe0) && between 0xa0 0xbf b) || (between 0xe1 0xec a && between 0x80 0xbf b)
  || ((a =? 0xed) && between 0x80 0x9f b) || (between 0xee 0xef a && between 0x80 0xbf b).

(** The second bytes allowed after a given first byte of a four-byte sequence. *)
Definition second_of_four (a b : Z) : bool :=
  ((a =? 0xf0) && between 0x90 0xbf b) || (between 0xf1 0xf3 a && between 0x80 0xbf b)
  || ((a =? 0xf4) && between 0x80 0x8f b).

(** Inspect one sequence at the beginning of a non-empty string: whether it is
    well formed, and how many bytes were inspected (at least one). *)
Definition inspect (s : list byte) : bool * nat :=
  match s with
  | [] => (false, 0%nat)
  | a :: s1 =>
      if bz a <? 0x80 then (true, 1%nat)
      else if between 0xc2 0xdf (bz a) then
        match s1 with
        | b :: _ => if is_continuation b then (true, 2%nat) else (false, 1%nat)
        | [] => (false, 1%nat)
        end
      else if between 0xe0 0xef (bz a) then
        match s1 with
        | b :: s2 =>
            if second_of_three (bz a) (bz b) then
              match s2 with
              | c :: _ => if is_continuation c then (true, 3%nat) else (false, 2%nat)
              | [] => (false, 2%nat)
              end
            else (false, 1%nat)
        | [] => (false, 1%nat)
        end
      else if between 0xf0 0xf4 (bz a) then
        match s1 with
        | b :: s2 =>
            if second_of_four (bz a) (bz b) then
              match s2 with
              | c :: s3 =>
                  if is_continuation c then
                    match s3 with
                    | d :: _ => if is_continuation d then (true, 4%nat) else (false, 3%nat)
                    | [] => (false, 3%nat)
                    end
                  else (false, 2%nat)
              | [] => (false, 2%nat)
              end
            else (false, 1%nat)
        | [] => (false, 1%nat)
        end
      else (false, 1%nat)
  end.

(** U+FFFD, the replacement character, in UTF-8. *)
Definition replacement : list byte := [xef; xbf; xbd].

(** [String::from_utf8_lossy].  Every round inspects at least one byte; the fuel
    is the number of bytes. *)
Fixpoint lossy_loop (fuel : nat) (s : list byte) : list byte :=
  match fuel, s with
  | S fuel', _ :: _ =>
      let (valid, n) := inspect s in
      (if valid then firstn n s else replacement) ++ lossy_loop fuel' (skipn n s)
  | _, _ => []
  end.
Definition from_utf8_lossy (s : list byte) : list byte := lossy_loop (length s) s.

(** [String::from_utf8]: the bytes themselves if they are well formed. *)
Fixpoint valid_loop (fuel : nat) (s : list byte) : bool :=
  match fuel, s with
  | S fuel', _ :: _ =>
      let (valid, n) := inspect s in valid && valid_loop fuel' (skipn n s)
  | _, _ => true
  end.
Definition from_utf8 (s : list byte) : option (list byte) :=
  if valid_loop (length s) s then Some s else None.

(** SpecBytes: integers as bytes, and sequences of encodings. *)
From Verif Require Import Base.

(** The byte with a given value (the value is taken modulo 256). *)
Definition zb (z : Z) : byte :=
  match Byte.of_N (Z.to_N (z mod 256)) with Some b => b | None => x00 end.

(** The unsigned integer written by bytes, the most significant first. *)
Definition big_endian (bs : list byte) : Z := fold_left (fun acc b => acc * 256 + bz b) bs 0.

(** The signed integer that a two's complement pattern of so many bits denotes. *)
Definition signed (bits v : Z) : Z := if v <? 2 ^ (bits - 1) then v else v - 2 ^ bits.

(** The low 16 and 32 bits of an integer, the most significant byte first. *)
Definition bytes16 (v : Z) : list byte := [zb (v / 2 ^ 8); zb v].
Definition bytes32 (v : Z) : list byte := [zb (v / 2 ^ 24); zb (v / 2 ^ 16); zb (v / 2 ^ 8); zb v].

(** An integer on a given number of bytes, the most significant first. *)
Fixpoint be_bytes (n : nat) (v : Z) : list byte :=
  match n with
  | O => []
  | S n' => zb (v / 256 ^ Z.of_nat n') :: be_bytes n' v
  end.

(** A byte string made of consecutive encodings of the given values. *)
Inductive each {A} (enc : list byte -> A -> Prop) : list byte -> list A -> Prop :=
| each_nil : each enc [] []
| each_cons e x es xs : enc e x -> each enc es xs -> each enc (e ++ es) (x :: xs).

(** The computation ends, with a value or an error and not in a panic. *)
Definition settled {A} (m : outcome A) : Prop :=
  match m with Ok _ | Err _ => True | Panic _ | OutOfFuel => False end.

(** Properties C01 to C07: numbers, offsets and string identifiers. *)
From Coq Require Import Reals.
From Verif Require Import Base Float C1Number BaseFacts SpecNumber SpecRounding NumberFacts RealFacts.

(** C01. An integer is read if and only if one of its encodings is at the front;
    exactly that encoding is consumed. *)
Theorem C01_dictionary_integers : forall (s : list byte) (v : Z) (r : list byte),
  read_number s = Ok (Integer v, r) <-> exists e, s = e ++ r /\ integer_encoding e v.
Proof. exact read_integer_iff. Qed.
Print Assumptions C01_dictionary_integers.

Example C01_case : integer_encoding [xfe; x14] (-896) /\ integer_encoding [x1c; xd8; xf0] (-10000).
Proof. split; [apply (two_bytes_negative xfe x14); cbv; intuition discriminate | apply (three_bytes xd8 xf0)]. Qed.

(** C02. Every i32 can be written in the shortest form and in the five-byte form,
    and is read back; the shortest form is indeed one of minimal length. *)
Theorem C02_integer_round_trip : forall (v : Z) (r : list byte),
  - 2 ^ 31 <= v < 2 ^ 31 ->
  read_number (shortest v ++ r) = Ok (Integer v, r) /\
  read_number (x1d :: bytes32 v ++ r) = Ok (Integer v, r) /\
  (forall e, integer_encoding e v -> (length (shortest v) <= length e)%nat).
Proof. exact read_integer_round_trip. Qed.
Print Assumptions C02_integer_round_trip.

Example C02_case : shortest (-896) = [xfe; x14] /\ shortest 100000 = [x1d; x00; x01; x86; xa0].
Proof. split; reflexivity. Qed.

(** C03. Every decimal literal has an encoding, and reading any encoding of it
    gives the nearest binary32 datum. *)
Theorem C03_reals_correctly_rounded : forall (d : decimal) (e r : list byte),
  real_encoding e d ->
  exists x, read_number (e ++ r) = Ok (Real x, r) /\ rounded (decimal_value d) (negative d) x.
Proof. exact (fun d e r => read_real_rounded e d r). Qed.
Print Assumptions C03_reals_correctly_rounded.

Theorem C03_every_literal_has_an_encoding : forall d : decimal,
  well_formed d -> exists e, real_encoding e d.
Proof. exact real_encodable. Qed.
Print Assumptions C03_every_literal_has_an_encoding.

(** -2.25 is [1e e2 a2 5f] (from the CFF specification). *)
Definition minus_2_25 : decimal :=
  {| negative := true; whole := [D2]; fraction := Some [D2; D5]; exponent := None |}.
Example C03_case : real_encoding [x1e; xe2; xa2; x5f] minus_2_25.
Proof.
  split; [split; [discriminate|exact I]|].
  exists [xe2; xa2; x5f], [14; 2; 10; 2; 5], []. repeat split; auto.
  exact (literal_nibbles_spell minus_2_25).
Qed.
Example C03_case_value :
  read_number [x1e; xe2; xa2; x5f; x07] = Ok (Real (S754_finite true 9437184 (-22)), [x07]).
Proof. vm_compute. reflexivity. Qed.

(** C04. A real is read if and only if the bytes up to the first terminator spell a
    decimal literal ([spells] excludes terminators); everything else is an error. *)
Theorem C04_reals_are_literals : forall (s : list byte) (x : f32) (r : list byte),
  read_number s = Ok (Real x, r) <->
  exists e d, s = e ++ r /\ real_encoding e d /\ rounded (decimal_value d) (negative d) x.
Proof. exact read_real_iff. Qed.
Print Assumptions C04_reals_are_literals.

Theorem C04_anything_else_is_an_error : forall s : list byte,
  (forall e d r, s = e ++ r -> ~ real_encoding e d) ->
  hd_error s = Some x1e -> exists k, read_number s = Err k.
Proof. exact read_real_not_literal. Qed.
Print Assumptions C04_anything_else_is_an_error.

Theorem C04_reserved_nibble_is_an_error : forall (body : list byte) (ns pad : list Z) (t r : list byte),
  nibbles body = ns ++ 0xd :: pad -> spells ns t ->
  read_number (x1e :: body ++ r) = Err Other.
Proof. exact read_real_reject. Qed.
Print Assumptions C04_reserved_nibble_is_an_error.

Example C04_case_reserved : nibbles [x1d; xff] = [1] ++ 0xd :: [15; 15] /\ spells [1] [x31].
Proof. split; [reflexivity|exact (spells_digits [D1])]. Qed.
Example C04_case_error :
  hd_error [x1e; xee; x1f] = Some x1e /\ read_number [x1e; xee; x1f] = Err Other.
Proof. split; reflexivity. Qed.

(** C05. *)
Theorem C05_number_cut_short : forall e1 e2 : list byte,
  e2 <> [] ->
  (exists v, integer_encoding (e1 ++ e2) v) \/ (exists d, real_encoding (e1 ++ e2) d) ->
  read_number e1 = Err UnexpectedEof.
Proof. exact read_number_cut. Qed.
Print Assumptions C05_number_cut_short.

Example C05_case :
  [x86; xa0] <> [] /\ integer_encoding ([x1d; x00; x01] ++ [x86; xa0]) 100000.
Proof. split; [discriminate|exact (five_bytes x00 x01 x86 xa0)]. Qed.

(** C06. *)
Theorem C06_offsets : forall (size : Z) (s : list byte) (v : Z) (r : list byte),
  read_offset size s = Ok (v, r) <->
  1 <= size <= 4 /\ exists e, s = e ++ r /\ Z.of_nat (length e) = size /\ v = big_endian e.
Proof. exact read_offset_iff. Qed.
Print Assumptions C06_offsets.

Theorem C06_offset_cut_short : forall (size : Z) (s : list byte),
  1 <= size <= 4 -> Z.of_nat (length s) < size -> read_offset size s = Err UnexpectedEof.
Proof. exact read_offset_eof. Qed.
Print Assumptions C06_offset_cut_short.

Theorem C06_other_sizes : forall (size : Z) (s : list byte),
  ~ (1 <= size <= 4) -> read_offset size s = Err Other.
Proof. exact read_offset_bad. Qed.
Print Assumptions C06_other_sizes.

Example C06_case : read_offset 3 [x01; x02; x03; x04] = Ok (66051, [x04]) /\ read_offset 0 [x01] = Err Other.
Proof. split; reflexivity. Qed.

(** C07. The property is false of the code: an operand above 65535 is cut to its
    low 16 bits. *)
Theorem C07_string_id_refuted : exists v : Z,
  0 <= v < 2 ^ 31 /\ string_id_of_number (Integer v) <> Ok v.
Proof. exists 65536. split; [lia|]. discriminate. Qed.
Print Assumptions C07_string_id_refuted.

(** It holds for operands up to 65535 (a string identifier is a 16-bit number). *)
Theorem C07_string_id_partial : forall (n : number) (v : Z),
  (forall w, n = Integer w -> w <= 65535) ->
  string_id_of_number n = Ok v <-> n = Integer v /\ 0 <= v.
Proof. exact string_id_spec. Qed.
Print Assumptions C07_string_id_partial.

(** All identifiers. *)
Theorem C07_string_id_cut : forall (n : number) (id : Z),
  string_id_of_number n = Ok id <-> exists v, n = Integer v /\ 0 <= v /\ id = v mod 2 ^ 16.
Proof. exact string_id_iff. Qed.
Print Assumptions C07_string_id_cut.

Theorem C07_string_id_error : forall n : number,
  string_id_of_number n = Err Other <-> forall v, n = Integer v -> v < 0.
Proof. exact string_id_error. Qed.
Print Assumptions C07_string_id_error.

Example C07_case : string_id_of_number (Integer 391) = Ok 391.
Proof. reflexivity. Qed.

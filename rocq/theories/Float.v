(** Float: the [f32] operations the crate uses, on IEEE 754 binary32 values.

    The type is [spec_float] of the standard library with 24 bits of precision
    and maximal exponent 128.  NaN payloads are not modelled.  That the
    operations below round correctly is proved in FloatFacts.v against Flocq. *)
From Coq Require Export Floats.SpecFloat.
From Verif Require Import Base.

Definition prec : Z := 24.
Definition emax : Z := 128.

(** Rust [f32]. *)
Definition f32 : Type := spec_float.

Definition f32_zero : f32 := S754_zero false.
Definition f32_one : f32 := Eval vm_compute in binary_normalize prec emax 1 0 false.

(** [+], [-], [*], [/], unary [-], [abs], [sqrt] of [f32]
    (used in src/type2/program.rs:185-198). *)
Definition f32_add : f32 -> f32 -> f32 := SFadd prec emax.
Definition f32_sub : f32 -> f32 -> f32 := SFsub prec emax.
Definition f32_mul : f32 -> f32 -> f32 := SFmul prec emax.
Definition f32_div : f32 -> f32 -> f32 := SFdiv prec emax.
Definition f32_neg : f32 -> f32 := SFopp.
Definition f32_abs : f32 -> f32 := SFabs.
Definition f32_sqrt : f32 -> f32 := SFsqrt prec emax.

(** [==] and [<=] of [f32] (src/type2/program.rs:53,57,253,257). *)
Definition f32_eqb : f32 -> f32 -> bool := SFeqb.
Definition f32_leb : f32 -> f32 -> bool := SFleb.

(** [i32 as f32]: round to nearest, ties to even. *)
Definition f32_of_i32 (z : Z) : f32 := binary_normalize prec emax z 0 false.

(** [f32 as i32]: truncate toward zero, saturate, and send NaN to 0. *)
Definition i32_of_f32 (x : f32) : Z :=
  match x with
  | S754_zero _ => 0
  | S754_nan => 0
  | S754_infinity s => if s then - 2 ^ 31 else 2 ^ 31 - 1
  | S754_finite s m e =>
      let t := if 0 <=? e then Zpos m * 2 ^ e else Zpos m / 2 ^ (- e) in
      let v := if s then - t else t in
      Z.max (- 2 ^ 31) (Z.min v (2 ^ 31 - 1))
  end.

(** [f32::from(q32)] of [typeface] (used in src/type2/number.rs:12): a signed
    32-bit number with 16 fractional bits, rounded to nearest. *)
Definition f32_of_q32 (raw : Z) : f32 := binary_normalize prec emax raw (-16) false.

(** The [f32] nearest to [m * 10^e] (ties to even), negated if [sign]: what
    [str::parse::<f32>] of the Rust standard library computes from a decimal
    significand and exponent (used in src/compact1/number.rs:70). *)
Definition f32_of_decimal (sign : bool) (m : Z) (e : Z) : f32 :=
  match m with
  | Zpos p =>
      if 0 <=? e then binary_round prec emax sign (Z.to_pos (Zpos p * 10 ^ e)) 0
      else
        let '(q, e', l) := SFdiv_core_binary prec emax (Zpos p) 0 (10 ^ (- e)) 0 in
        binary_round_aux prec emax sign q e' l
  | _ => S754_zero sign
  end.

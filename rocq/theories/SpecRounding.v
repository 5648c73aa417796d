(** SpecRounding: IEEE 754 binary32 rounding, in terms of real numbers and of the
    rounding operator of Flocq. *)
From Coq Require Import Reals.
From Flocq Require Import Core BinarySingleNaN.
From Verif Require Import Base Float SpecNumber.

(** The real number a finite binary32 datum denotes (0 for the others). *)
Definition value (x : f32) : R := SF2R radix2 x.

(** Finite, that is, neither infinite nor NaN. *)
Definition finite (x : f32) : Prop := is_finite_SF x = true.

(** The sign bit. *)
Definition sign_bit (x : f32) : bool := sign_SF x.

(** A binary32 datum: the significand and exponent are those of the format. *)
Definition binary32 (x : f32) : Prop := valid_binary 24 128 x = true.

(** The multiple of 2^-149 with at most 24 significant bits that is nearest to a
    real number, ties to even. *)
Definition nearest (r : R) : R := round radix2 (FLT_exp (-149) 24) ZnearestE r.

(** [x] is [r] rounded to nearest-even in binary32: the nearest datum, or an
    infinity if that is too large; [s] is the sign of the result. *)
Definition rounded (r : R) (s : bool) (x : f32) : Prop :=
  binary32 x /\
  if Rlt_bool (Rabs (nearest r)) (bpow radix2 128) then
    value x = nearest r /\ finite x /\ sign_bit x = s
  else x = S754_infinity s.

(** The sign of a non-zero real number, and [zero] for 0. *)
Definition sign_of (r : R) (zero : bool) : bool :=
  match Rcompare r 0 with Lt => true | Eq => zero | Gt => false end.

(** The real number that a decimal literal denotes. *)
Definition decimal_value (d : decimal) : R :=
  ((if negative d then -1 else 1) * IZR (significand d) * powerRZ 10 (scale d))%R.

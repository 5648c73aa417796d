(** SpecNumber: what the bytes of numbers mean, after "The Compact Font Format
    Specification" (Adobe technical note 5176), section 4, tables 3 to 5.

    The only notion taken from the model is [bz], the value of a byte. *)
From Verif Require Import Base.
From Verif Require Export SpecBytes.

(** Table 3: the encodings of an integer operand. *)
Inductive integer_encoding : list byte -> Z -> Prop :=
| one_byte b0 :
    32 <= bz b0 <= 246 -> integer_encoding [b0] (bz b0 - 139)
| two_bytes_positive b0 b1 :
    247 <= bz b0 <= 250 -> integer_encoding [b0; b1] ((bz b0 - 247) * 256 + bz b1 + 108)
| two_bytes_negative b0 b1 :
    251 <= bz b0 <= 254 -> integer_encoding [b0; b1] (- (bz b0 - 251) * 256 - bz b1 - 108)
| three_bytes b1 b2 :
    integer_encoding [x1c; b1; b2] (signed 16 (big_endian [b1; b2]))
| five_bytes b1 b2 b3 b4 :
    integer_encoding [x1d; b1; b2; b3; b4] (signed 32 (big_endian [b1; b2; b3; b4])).

(** The shortest encoding of an integer. *)
Definition shortest (v : Z) : list byte :=
  if (-107 <=? v) && (v <=? 107) then [zb (v + 139)]
  else if (108 <=? v) && (v <=? 1131) then [zb ((v - 108) / 256 + 247); zb (v - 108)]
  else if (-1131 <=? v) && (v <=? -108) then [zb ((- v - 108) / 256 + 251); zb (- v - 108)]
  else if (- 2 ^ 15 <=? v) && (v <? 2 ^ 15) then x1c :: bytes16 v
  else x1d :: bytes32 v.

(** ** Decimal literals *)

Inductive digit : Type := D0 | D1 | D2 | D3 | D4 | D5 | D6 | D7 | D8 | D9.

Definition digit_value (d : digit) : Z :=
  match d with
  | D0 => 0 | D1 => 1 | D2 => 2 | D3 => 3 | D4 => 4
  | D5 => 5 | D6 => 6 | D7 => 7 | D8 => 8 | D9 => 9
  end.

(** The ASCII character of a digit. *)
Definition digit_char (d : digit) : byte :=
  match d with
  | D0 => x30 | D1 => x31 | D2 => x32 | D3 => x33 | D4 => x34
  | D5 => x35 | D6 => x36 | D7 => x37 | D8 => x38 | D9 => x39
  end.

(** A literal such as [-12.5e-3]: a sign, digits, digits after a point (if there is
    one) and a signed exponent (if there is one). *)
Record decimal : Type := {
  negative : bool;
  whole : list digit;
  fraction : option (list digit);
  exponent : option (bool * list digit);
}.

Definition fraction_digits (d : decimal) : list digit :=
  match fraction d with Some ds => ds | None => [] end.

(** There is a digit before or after the point, and one in the exponent. *)
Definition well_formed (d : decimal) : Prop :=
  whole d ++ fraction_digits d <> [] /\
  match exponent d with Some (_, []) => False | _ => True end.

(** How a literal is written in ASCII. *)
Definition text (d : decimal) : list byte :=
  (if negative d then [x2d] else [])
  ++ map digit_char (whole d)
  ++ match fraction d with Some ds => x2e :: map digit_char ds | None => [] end
  ++ match exponent d with
     | Some (minus, ds) => x65 :: (if minus then [x2d] else []) ++ map digit_char ds
     | None => []
     end.

(** The integer written by digits. *)
Definition decimal_integer (ds : list digit) : Z :=
  fold_left (fun acc d => acc * 10 + digit_value d) ds 0.

(** The literal denotes [(-1)^negative * significand * 10^scale]. *)
Definition significand (d : decimal) : Z := decimal_integer (whole d ++ fraction_digits d).
Definition scale (d : decimal) : Z :=
  match exponent d with
  | Some (minus, ds) => if minus then - decimal_integer ds else decimal_integer ds
  | None => 0
  end - Z.of_nat (length (fraction_digits d)).

(** ** Nibbles *)

(** Table 5: what a nibble other than the terminator stands for. *)
Inductive nibble_text : Z -> list byte -> Prop :=
| nibble_digit d : nibble_text (digit_value d) [digit_char d]
| nibble_point : nibble_text 0xa [x2e]
| nibble_e : nibble_text 0xb [x65]
| nibble_e_minus : nibble_text 0xc [x65; x2d]
| nibble_minus : nibble_text 0xe [x2d].

(** The text that a sequence of nibbles spells. *)
Inductive spells : list Z -> list byte -> Prop :=
| spells_nil : spells [] []
| spells_cons n t ns ts : nibble_text n t -> spells ns ts -> spells (n :: ns) (t ++ ts).

(** The nibbles of bytes, the high one first. *)
Definition nibbles (bs : list byte) : list Z := flat_map (fun b => [bz b / 16; bz b mod 16]) bs.

(** Table 4: byte 30, the nibbles that spell the literal, the terminator 0xf, and
    one more nibble if that is needed to fill the last byte (the specification
    says it is 0xf as well; the code does not look at it). *)
Definition real_encoding (e : list byte) (d : decimal) : Prop :=
  well_formed d /\
  exists body ns pad,
    e = x1e :: body /\
    nibbles body = ns ++ 0xf :: pad /\
    (length pad <= 1)%nat /\
    spells ns (text d).

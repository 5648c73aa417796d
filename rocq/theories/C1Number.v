(** C1Number: numbers in dictionary data (src/compact1/number.rs), offsets
    (src/compact1/offset.rs) and string identifiers (src/compact1/mod.rs). *)
From Verif Require Import Base Float.

(** [enum Number] (src/compact1/number.rs:7-12). *)
Inductive number : Type :=
| Integer (value : Z)
| Real (value : f32).

(** ** Real numbers *)

(** The effect of one nibble in [parse] (src/compact1/number.rs:60-68). *)
Inductive nibble_action : Type :=
| Push (text : list byte)   (* characters appended to the buffer *)
| Stop                      (* 0x0f: end of number *)
| Reject.                   (* [reject!()] *)

(** [match nibble { .. }] (src/compact1/number.rs:60-68). *)
Definition on_nibble (n : Z) : nibble_action :=
  if (0 <=? n) && (n <=? 9) then
    match Byte.of_N (Z.to_N (48 + n)) with
    | Some c => Push [c]                  (* (b'0' + nibble) as char *)
    | None => Reject                      (* impossible *)
    end
  else if n =? 0x0a then Push [x2e]       (* '.' *)
  else if n =? 0x0b then Push [x65]       (* 'e' *)
  else if n =? 0x0c then Push [x65; x2d]  (* "e-" *)
  else if n =? 0x0e then Push [x2d]       (* '-' *)
  else if n =? 0x0f then Stop
  else Reject.

(** The loop of [parse] (src/compact1/number.rs:48-69), two rounds (one byte) at
    a time: [byte >> 4] when [high], then [byte & 0x0f]. *)
Fixpoint parse_loop (buffer : list byte) (s : list byte) : outcome (list byte * list byte) :=
  match s with
  | [] => Err UnexpectedEof
  | b :: r =>
      match on_nibble (Z.shiftr (bz b) 4) with
      | Stop => Ok (buffer, r)
      | Reject => Err Other
      | Push high =>
          match on_nibble (Z.land (bz b) 0x0f) with
          | Stop => Ok (buffer ++ high, r)
          | Reject => Err Other
          | Push low => parse_loop ((buffer ++ high) ++ low) r
          end
      end
  end.

(** Whether a character is an ASCII digit, and its value. *)
Definition digit_of (c : byte) : option Z :=
  if (48 <=? bz c) && (bz c <=? 57) then Some (bz c - 48) else None.

(** The longest prefix of ASCII digits and what follows it. *)
Fixpoint span_digits (s : list byte) : list Z * list byte :=
  match s with
  | c :: r =>
      match digit_of c with
      | Some d => let (ds, r') := span_digits r in (d :: ds, r')
      | None => ([], s)
      end
  | [] => ([], [])
  end.

(** The integer written by decimal digits. *)
Definition digits_value (ds : list Z) : Z := fold_left (fun acc d => 10 * acc + d) ds 0.

(** An optional sign. *)
Definition strip_sign (s : list byte) : bool * list byte :=
  match s with
  | c :: r => if Byte.eqb c x2d then (true, r) else (false, s)
  | [] => (false, [])
  end.

(** [str::parse::<f32>] of the Rust standard library, on the alphabet [parse]
    can produce (digits, '.', 'e', '-'); used at src/compact1/number.rs:70:
    [Sign? ( Digit+ | Digit+ '.' Digit* | Digit* '.' Digit+ ) ( 'e' Sign? Digit+ )?].
    Leading '+', "inf" and "nan" cannot occur and are left out. *)
Definition parse_f32 (s : list byte) : option f32 :=
  let (sign, s1) := strip_sign s in
  let (whole, s2) := span_digits s1 in
  let (fraction, s3) :=
    match s2 with
    | c :: r => if Byte.eqb c x2e then span_digits r else ([], s2)
    | [] => ([], [])
    end in
  match whole ++ fraction with
  | [] => None
  | _ :: _ =>
      let m := digits_value (whole ++ fraction) in
      let shift := Z.of_nat (length fraction) in
      match s3 with
      | [] => Some (f32_of_decimal sign m (- shift))
      | c :: r =>
          if Byte.eqb c x65 then
            let (negative, r1) := strip_sign r in
            let (exponent, r2) := span_digits r1 in
            match exponent, r2 with
            | _ :: _, [] =>
                let e := digits_value exponent in
                Some (f32_of_decimal sign m ((if negative then - e else e) - shift))
            | _, _ => None
            end
          else None
      end
  end.

(** [parse] (src/compact1/number.rs:47-74). *)
Definition parse : reader f32 := fun s =>
  let* (buffer, r) := parse_loop [] s in
  match parse_f32 buffer with
  | Some value => Ok (value, r)
  | None => Err Other
  end.

(** ** Numbers *)

(** [<Number as value::Read>::read] (src/compact1/number.rs:28-45).  The [i32]
    arithmetic on bytes cannot overflow and is exact. *)
Definition read_number : reader number := fun s =>
  let* (first, s1) := take_u8 s in
  if (0x20 <=? first) && (first <=? 0xf6) then Ok (Integer (first - 139), s1)
  else if (0xf7 <=? first) && (first <=? 0xfa) then
    let* (b, s2) := take_u8 s1 in
    Ok (Integer ((first - 247) * 256 + b + 108), s2)
  else if (0xfb <=? first) && (first <=? 0xfe) then
    let* (b, s2) := take_u8 s1 in
    Ok (Integer (- (first - 251) * 256 - b - 108), s2)
  else if first =? 0x1c then
    let* (w, s2) := take_u16 s1 in Ok (Integer (as_i16 w), s2)
  else if first =? 0x1d then
    let* (w, s2) := take_u32 s1 in Ok (Integer (as_i32 w), s2)
  else if first =? 0x1e then
    let* (x, s2) := parse s1 in Ok (Real x, s2)
  else Err Other.

(** ** Offsets *)

(** [<Offset as walue::Read>::read] (src/compact1/offset.rs:10-25). *)
Definition read_offset (size : Z) : reader Z := fun s =>
  if size =? 1 then take_u8 s
  else if size =? 2 then take_u16 s
  else if size =? 3 then
    let* ((v0, v1, v2), r) := take_u8x3 s in
    (* u32::from_be_bytes([0, value[0], value[1], value[2]]) *)
    Ok (0 * 2 ^ 24 + v0 * 2 ^ 16 + v1 * 2 ^ 8 + v2, r)
  else if size =? 4 then take_u32 s
  else Err Other.

(** ** String identifiers *)

(** [<StringID as TryFrom<Number>>::try_from] (src/compact1/mod.rs:32-42);
    [value as u16] keeps the low 16 bits. *)
Definition string_id_of_number (n : number) : outcome Z :=
  match n with
  | Integer value => if 0 <=? value then Ok (as_u16 value) else Err Other
  | Real _ => Err Other
  end.

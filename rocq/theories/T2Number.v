(** T2Number: numbers in character strings (src/type2/number.rs). *)
From Verif Require Import Base Float.

(** [number::read] (src/type2/number.rs:5-15). *)
Definition read_operand : reader f32 := fun s =>
  let* (first, s1) := take_u8 s in
  if (0x20 <=? first) && (first <=? 0xf6) then Ok (f32_of_i32 (first - 139), s1)
  else if (0xf7 <=? first) && (first <=? 0xfa) then
    let* (b, s2) := take_u8 s1 in
    Ok (f32_of_i32 ((first - 247) * 256 + b + 108), s2)
  else if (0xfb <=? first) && (first <=? 0xfe) then
    let* (b, s2) := take_u8 s1 in
    Ok (f32_of_i32 (- (first - 251) * 256 - b - 108), s2)
  else if first =? 0x1c then
    let* (w, s2) := take_u16 s1 in Ok (f32_of_i32 (as_i16 w), s2)
  else if first =? 0xff then
    let* (w, s2) := take_u32 s1 in Ok (f32_of_q32 (as_i32 w), s2)
  else Err Other.

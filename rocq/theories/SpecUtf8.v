(** SpecUtf8: well-formed UTF-8 and its lossy decoding, after The Unicode Standard,
    section 3.9 (definitions D92 and "substitution of maximal subparts"). *)
From Verif Require Import Base.
From Verif Require Export SpecBytes.

(** D76: Unicode scalar values. *)
Definition scalar (v : Z) : Prop := 0 <= v <= 0xd7ff \/ 0xe000 <= v <= 0x10ffff.

(** D92: the UTF-8 encoding form. *)
Definition utf8 (v : Z) : list byte :=
  if v <? 0x80 then [zb v]
  else if v <? 0x800 then [zb (0xc0 + v / 64); zb (0x80 + v mod 64)]
  else if v <? 0x10000 then
    [zb (0xe0 + v / 4096); zb (0x80 + v / 64 mod 64); zb (0x80 + v mod 64)]
  else
    [zb (0xf0 + v / 262144); zb (0x80 + v / 4096 mod 64); zb (0x80 + v / 64 mod 64);
     zb (0x80 + v mod 64)].

(** Well-formed text. *)
Definition well_formed_utf8 (s : list byte) : Prop :=
  exists vs, Forall scalar vs /\ s = flat_map utf8 vs.

(** A beginning of the encoding of a scalar value. *)
Definition begins (p : list byte) : Prop := exists v u, scalar v /\ utf8 v = p ++ u.

(** The text with each maximal ill-formed part replaced by U+FFFD: where no
    character stands, the part is the longest beginning of a character, or one
    byte if there is none. *)
Inductive lossy : list byte -> list byte -> Prop :=
| lossy_end : lossy [] []
| lossy_char v s t : scalar v -> lossy s t -> lossy (utf8 v ++ s) (utf8 v ++ t)
| lossy_bad p s t :
    p <> [] ->
    (forall v r, scalar v -> p ++ s <> utf8 v ++ r) ->
    (length p = 1%nat \/ begins p) ->
    (forall q r, q ++ r = p ++ s -> (length p < length q)%nat -> ~ begins q) ->
    lossy s t -> lossy (p ++ s) (utf8 0xfffd ++ t).

(** SpecDevice: reading from devices that fail, or that do not give the same answer twice. *)
From Verif Require Import Base Float C1Number C1Operation C1Index C1Glyphs C1FontSet C1Tape C1Plan.
From Verif Require Export SpecFontSet SpecParts.

(** ** Devices *)

(** What a device answers if it is asked for a byte: the byte, that there is none because the
    device ends before, or a failure of any kind. *)
Inductive answer (E : Type) : Type :=
| Byte (b : byte)
| Ended
| Failure (e : E).
Arguments Byte {E} b.
Arguments Ended {E}.
Arguments Failure {E} e.

(** The answer can depend on everything: on the number of the request and on the position. *)
Definition device (E : Type) : Type := nat -> Z -> answer E.

(** What the caller gets: an outcome, or the failure. *)
Inductive served (A E : Type) : Type :=
| Returned (o : outcome A)
| Failed (e : E).
Arguments Returned {A E} o.
Arguments Failed {A E} e.

(** The requests of a reader put to a device, from the [n]-th request on, and the positions that
    have been asked for.  A failure is passed on by the [?] operator. *)
Fixpoint put_to {A E : Type} (dev : device E) (n : nat) (m : plan A) : served A E * list Z :=
  match m with
  | Done o => (Returned o, [])
  | Ask p k =>
      match dev n p with
      | Byte b => let (r, asked) := put_to dev (S n) (k b) in (r, p :: asked)
      | Ended => (Returned (Err UnexpectedEof), [p])
      | Failure e => (Failed e, [p])
      end
  end.

(** The device holds a file: if it does not fail it tells the truth. *)
Definition holds {E : Type} (dev : device E) (file : list byte) : Prop :=
  forall n p, match dev n p with
  | Byte b => nth_error file (Z.to_nat p) = Some b
  | Ended => nth_error file (Z.to_nat p) = None
  | Failure _ => True
  end.

(** The device has fewer than 2^63 bytes or so, at any one time. *)
Definition sized {E : Type} (dev : device E) : Prop := forall n p b, 2 ^ 63 <= p -> dev n p <> Byte b.

(** The request that fails first, among requests for these positions. *)
Definition first_failure {E : Type} (dev : device E) (asked : list Z) (k : nat) (e : E) : Prop :=
  (exists p, nth_error asked k = Some p /\ dev k p = Failure e) /\
  forall j p e', (j < k)%nat -> nth_error asked j = Some p -> dev j p <> Failure e'.

Definition no_failure {E : Type} (dev : device E) (asked : list Z) : Prop :=
  forall j p e, nth_error asked j = Some p -> dev j p <> Failure e.

(** ** Font sets whose tables need not come from the same file

    As [SpecFontSet], without the places at which the tables stand. *)

Definition private_loosely (top : operations) (r : private_record) : Prop :=
  exists size offset chunk,
    operands top Op_Private size offset /\ Z.of_nat (length chunk) = size /\
    dictionary_data chunk (private_operations r) /\
    (no_operand (private_operations r) Op_Subrs /\ private_subroutines r = index_value 0 [] \/
     exists another e, operand (private_operations r) Op_Subrs another /\ index_encoding e (private_subroutines r)).

(** The format of a selector of format 0 is looked at twice; the second time only by an
    assertion. *)
Definition select_loosely (asserts : bool) (glyphs : Z) (x : C1FontSet.dictionary_encoding) : Prop :=
  (exists e, select_encoding glyphs e x) \/
  asserts = false /\ exists b ids, Z.of_nat (length ids) = glyphs /\ x = DictFormat0 (bz b) (map bz ids).

Definition cid_loosely (asserts : bool) (top : operations) (glyphs : Z) (r : cid_record) : Prop :=
  exists a b select array dictionaries ea,
    operand_list top Op_ROS [Integer a; Integer b; cid_supplement r] /\
    0 <= a /\ registry r = a mod 2 ^ 16 /\ 0 <= b /\ ordering r = b mod 2 ^ 16 /\
    operand top Op_FDSelect select /\ select_loosely asserts glyphs (cid_encoding r) /\
    operand top Op_FDArray array /\ index_encoding ea dictionaries /\
    Forall2 dictionary_data (data dictionaries) (cid_operations r) /\
    Forall2 private_loosely (cid_operations r) (cid_records r).

Definition record_loosely (asserts : bool) (top : operations) (glyphs : Z) (r : record) : Prop :=
  match r with
  | CharacterIDKeyed r => ~ absent top Op_ROS /\ cid_loosely asserts top glyphs r
  | CharacterNameKeyed r => absent top Op_ROS /\ private_loosely top r
  end.

Definition character_set_loosely (offset glyphs : Z) (c : character_set) : Prop :=
  offset = 0 /\ c = ISOAdobe \/ offset = 1 /\ c = ExpertSet \/ offset = 2 /\ c = ExpertSubset \/
  ~ (0 <= offset <= 2) /\ exists e, character_set_encoding glyphs e c.

(** So is the format of an encoding with supplements, the second time not at all. *)
Definition encoding_loosely (offset : Z) (x : encoding) : Prop :=
  offset = 0 /\ x = Standard \/ offset = 1 /\ x = ExpertEncoding \/
  ~ (0 <= offset <= 1) /\
  ((exists e, any_encoding e x) \/
   exists f n e supplements, bz n = Z.of_nat (length supplements) /\ each supplement_encoding e supplements /\
     x = EncSupplemental (bz f) (bz n) supplements).

Definition font_loosely (asserts : bool) (x : font) : Prop :=
  exists strings set code e,
    operand (font_operations x) Op_CharStrings strings /\
    operand (font_operations x) Op_CharStringType 2 /\
    index_encoding e (font_character_strings x) /\
    operand (font_operations x) Op_CharSet set /\
    character_set_loosely set (count (font_character_strings x)) (font_character_set x) /\
    operand (font_operations x) Op_Encoding code /\
    encoding_loosely code (font_encoding x) /\
    record_loosely asserts (font_operations x) (count (font_character_strings x)) (font_record x).

Definition font_set_loosely (asserts : bool) (f : font_set) : Prop :=
  exists eh e1 e2 e3 e4 dictionaries fonts,
    header_encoding eh (fs_header f) /\
    index_encoding e1 (fs_names f) /\ index_encoding e2 dictionaries /\
    index_encoding e3 (fs_strings f) /\ index_encoding e4 (fs_subroutines f) /\
    Forall2 dictionary_data (data dictionaries) (fs_operations f) /\
    fs_operations f = map font_operations fonts /\
    fs_encodings f = map font_encoding fonts /\
    fs_character_sets f = map font_character_set fonts /\
    fs_character_strings f = map font_character_strings fonts /\
    fs_records f = map font_record fonts /\
    Forall (font_loosely asserts) fonts.

(** The panics a build can have at all. *)
Definition possible_panic (cfg : config) (k : panic) : Prop :=
  match k with
  | ArithmeticOverflow => overflow_checks cfg = true
  | CapacityOverflow => preallocates cfg = true
  | IndexOutOfBounds => False
  | DebugAssertion => debug_assertions cfg = true
  end.

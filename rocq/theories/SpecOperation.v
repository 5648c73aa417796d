(** SpecOperation: dictionary data, after "The Compact Font Format Specification"
    (Adobe technical note 5176), section 4 and tables 9, 10 and 23. *)
From Coq Require Import Reals.
From Verif Require Import Base Float C1Number C1Operation SpecNumber SpecRounding.

(** The code of an operator: one byte, or 12 and another byte. *)
Definition operator_code (o : operator) : Z :=
  match o with
  | Op_Version => 0
  | Op_Notice => 1
  | Op_FullName => 2
  | Op_FamilyName => 3
  | Op_Weight => 4
  | Op_FontBBox => 5
  | Op_BlueValues => 6
  | Op_OtherBlues => 7
  | Op_FamilyBlues => 8
  | Op_FamilyOtherBlues => 9
  | Op_StdHW => 10
  | Op_StdVW => 11
  | Op_UniqueID => 13
  | Op_XUID => 14
  | Op_CharSet => 15
  | Op_Encoding => 16
  | Op_CharStrings => 17
  | Op_Private => 18
  | Op_Subrs => 19
  | Op_DefaultWidthX => 20
  | Op_NominalWidthX => 21
  | Op_Copyright => 12 * 256 + 0
  | Op_IsFixedPitch => 12 * 256 + 1
  | Op_ItalicAngle => 12 * 256 + 2
  | Op_UnderlinePosition => 12 * 256 + 3
  | Op_UnderlineThickness => 12 * 256 + 4
  | Op_PaintType => 12 * 256 + 5
  | Op_CharStringType => 12 * 256 + 6
  | Op_FontMatrix => 12 * 256 + 7
  | Op_StrokeWidth => 12 * 256 + 8
  | Op_BlueScale => 12 * 256 + 9
  | Op_BlueShift => 12 * 256 + 10
  | Op_BlueFuzz => 12 * 256 + 11
  | Op_StemSnapH => 12 * 256 + 12
  | Op_StemSnapV => 12 * 256 + 13
  | Op_ForceBold => 12 * 256 + 14
  | Op_LanguageGroup => 12 * 256 + 17
  | Op_ExpansionFactor => 12 * 256 + 18
  | Op_InitialRandomSeed => 12 * 256 + 19
  | Op_SyntheticBase => 12 * 256 + 20
  | Op_PostScript => 12 * 256 + 21
  | Op_BaseFontName => 12 * 256 + 22
  | Op_BaseFontBlend => 12 * 256 + 23
  | Op_ROS => 12 * 256 + 30
  | Op_CIDFontVersion => 12 * 256 + 31
  | Op_CIDFontRevision => 12 * 256 + 32
  | Op_CIDFontType => 12 * 256 + 33
  | Op_CIDCount => 12 * 256 + 34
  | Op_UIDBase => 12 * 256 + 35
  | Op_FDArray => 12 * 256 + 36
  | Op_FDSelect => 12 * 256 + 37
  | Op_FontName => 12 * 256 + 38
  end.

Definition operator_bytes (o : operator) : list byte :=
  if operator_code o <? 256 then [zb (operator_code o)]
  else [zb (operator_code o / 256); zb (operator_code o)].

(** An operand and its encodings. *)
Definition operand_encoding (e : list byte) (n : number) : Prop :=
  match n with
  | Integer v => integer_encoding e v
  | Real x => exists d, real_encoding e d /\ rounded (decimal_value d) (negative d) x
  end.

(** The operands that there are: 32-bit integers, and binary32 data other than NaN. *)
Definition storable (n : number) : Prop :=
  match n with
  | Integer v => - 2 ^ 31 <= v < 2 ^ 31
  | Real x => binary32 x /\ x <> S754_nan
  end.

(** An operation: the operands, then the operator. *)
Definition operation_encoding (e : list byte) (op : operator * list number) : Prop :=
  exists es, e = es ++ operator_bytes (fst op) /\ each operand_encoding es (snd op).

(** A dictionary: operations one after another. *)
Definition dictionary_encoding (e : list byte) (ops : list (operator * list number)) : Prop :=
  each operation_encoding e ops.

(** The operands of the last occurrence of an operator. *)
Definition last_occurrence (ops : list (operator * list number)) (o : operator) (v : list number) : Prop :=
  exists before after, ops = before ++ (o, v) :: after /\ forall w, ~ In (o, w) after.

(** The beginning of a number: an integer with bytes missing, or a real with no
    terminator so far. *)
Definition cut_number (t : list byte) : Prop :=
  (t <> [] /\ exists u v, u <> [] /\ integer_encoding (t ++ u) v) \/
  (exists body text, t = x1e :: body /\ spells (nibbles body) text).

(** The beginning of an operation: operands, then nothing, the beginning of
    another one, or the first byte of a two-byte operator. *)
Definition cut_operation (t : list byte) : Prop :=
  exists e ns p, t = e ++ p /\ each operand_encoding e ns /\
    (p = [] \/ p = [x0c] \/ cut_number p).

(** The table that operations amount to: the last occurrence of each operator.  (Tables are
    unordered in the program and lists here; they have the latest operation first.) *)
Fixpoint first_occurrences (ops : list (operator * list number)) : list (operator * list number) :=
  match ops with
  | [] => []
  | (o, v) :: rest =>
      (o, v) :: filter (fun entry => negb (operator_code (fst entry) =? operator_code o)) (first_occurrences rest)
  end.
Definition table (ops : list (operator * list number)) : list (operator * list number) :=
  first_occurrences (rev ops).

(** Dictionary data: operations, and possibly the beginning of another one, which does not count. *)
Definition dictionary_data (s : list byte) (t : list (operator * list number)) : Prop :=
  exists e ops cut, s = e ++ cut /\ dictionary_encoding e ops /\ cut_operation cut /\ t = table ops.

(** The entry of a table for an operator. *)
Definition entry (t : list (operator * list number)) (o : operator) (v : list number) : Prop :=
  exists before after, t = before ++ (o, v) :: after /\ forall w, ~ In (o, w) before.
Definition absent (t : list (operator * list number)) (o : operator) : Prop := forall v, ~ In (o, v) t.

(** ** Default operands *)

(** A number in the text of the specification: an integer or [significand * 10^exponent]. *)
Inductive literal : Type :=
| Whole (value : Z)
| Scaled (significand exponent : Z).

Definition denotes (l : literal) (n : number) : Prop :=
  match l, n with
  | Whole z, Integer v => v = z
  | Scaled m e, Real x => rounded (IZR m * powerRZ 10 e)%R false x
  | _, _ => False
  end.

(** The column "default" of tables 9, 10 and 23. *)
Definition specified_default (o : operator) : option (list literal) :=
  match o with
  (* Table 9: top dictionary *)
  | Op_IsFixedPitch => Some [Whole 0] (* false *)
  | Op_ItalicAngle => Some [Whole 0]
  | Op_UnderlinePosition => Some [Whole (-100)]
  | Op_UnderlineThickness => Some [Whole 50]
  | Op_PaintType => Some [Whole 0]
  | Op_CharStringType => Some [Whole 2]
  | Op_FontMatrix =>
      Some [Scaled 1 (-3); Scaled 0 0; Scaled 0 0; Scaled 1 (-3); Scaled 0 0; Scaled 0 0]
  | Op_FontBBox => Some [Whole 0; Whole 0; Whole 0; Whole 0]
  | Op_StrokeWidth => Some [Whole 0]
  | Op_CharSet => Some [Whole 0]
  | Op_Encoding => Some [Whole 0]
  (* Table 10: additions for character-ID-keyed fonts *)
  | Op_CIDFontVersion => Some [Whole 0]
  | Op_CIDFontRevision => Some [Whole 0]
  | Op_CIDFontType => Some [Whole 0]
  | Op_CIDCount => Some [Whole 8720]
  (* Table 23: private dictionary *)
  | Op_BlueScale => Some [Scaled 39625 (-6)]
  | Op_BlueShift => Some [Whole 7]
  | Op_BlueFuzz => Some [Whole 1]
  | Op_ForceBold => Some [Whole 0] (* false *)
  | Op_LanguageGroup => Some [Whole 0]
  | Op_ExpansionFactor => Some [Scaled 6 (-2)]
  | Op_InitialRandomSeed => Some [Whole 0]
  | Op_DefaultWidthX => Some [Whole 0]
  | Op_NominalWidthX => Some [Whole 0]
  | _ => None
  end.

(** The operands of an operator: those of its entry, or else the default. *)
Definition operand_list (t : list (operator * list number)) (o : operator) (v : list number) : Prop :=
  entry t o v \/
  absent t o /\ exists literals, specified_default o = Some literals /\ Forall2 denotes literals v.

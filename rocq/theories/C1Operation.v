(** C1Operation: dictionary operations (src/compact1/operation.rs). *)
From Verif Require Import Base Float C1Number.

(** [enum Operator] (src/compact1/operation.rs:135-214). *)
Inductive operator : Type :=
| Op_Version | Op_Notice | Op_FullName | Op_FamilyName | Op_Weight
| Op_FontBBox | Op_BlueValues | Op_OtherBlues | Op_FamilyBlues | Op_FamilyOtherBlues
| Op_StdHW | Op_StdVW | Op_UniqueID | Op_XUID | Op_CharSet
| Op_Encoding | Op_CharStrings | Op_Private | Op_Subrs | Op_DefaultWidthX
| Op_NominalWidthX | Op_Copyright | Op_IsFixedPitch | Op_ItalicAngle | Op_UnderlinePosition
| Op_UnderlineThickness | Op_PaintType | Op_CharStringType | Op_FontMatrix | Op_StrokeWidth
| Op_BlueScale | Op_BlueShift | Op_BlueFuzz | Op_StemSnapH | Op_StemSnapV
| Op_ForceBold | Op_LanguageGroup | Op_ExpansionFactor | Op_InitialRandomSeed | Op_SyntheticBase
| Op_PostScript | Op_BaseFontName | Op_BaseFontBlend | Op_ROS | Op_CIDFontVersion
| Op_CIDFontRevision | Op_CIDFontType | Op_CIDCount | Op_UIDBase | Op_FDArray
| Op_FDSelect | Op_FontName.

(** Derived [PartialEq]/[Eq]/[Hash] (src/compact1/operation.rs:110). *)
Definition operator_eq_dec (a b : operator) : {a = b} + {a <> b}.
Proof. decide equality. Defined.
Definition operator_eqb (a b : operator) : bool :=
  if operator_eq_dec a b then true else false.

(** The arms of [Operator::from] (src/compact1/operation.rs:118-121,137-211), in
    source order. *)
Definition operator_codes : list (Z * operator) :=
  [
   (0x00, Op_Version);
   (0x01, Op_Notice);
   (0x02, Op_FullName);
   (0x03, Op_FamilyName);
   (0x04, Op_Weight);
   (0x05, Op_FontBBox);
   (0x06, Op_BlueValues);
   (0x07, Op_OtherBlues);
   (0x08, Op_FamilyBlues);
   (0x09, Op_FamilyOtherBlues);
   (0x0a, Op_StdHW);
   (0x0b, Op_StdVW);
   (0x0d, Op_UniqueID);
   (0x0e, Op_XUID);
   (0x0f, Op_CharSet);
   (0x10, Op_Encoding);
   (0x11, Op_CharStrings);
   (0x12, Op_Private);
   (0x13, Op_Subrs);
   (0x14, Op_DefaultWidthX);
   (0x15, Op_NominalWidthX);
   (0x0c00, Op_Copyright);
   (0x0c01, Op_IsFixedPitch);
   (0x0c02, Op_ItalicAngle);
   (0x0c03, Op_UnderlinePosition);
   (0x0c04, Op_UnderlineThickness);
   (0x0c05, Op_PaintType);
   (0x0c06, Op_CharStringType);
   (0x0c07, Op_FontMatrix);
   (0x0c08, Op_StrokeWidth);
   (0x0c09, Op_BlueScale);
   (0x0c0a, Op_BlueShift);
   (0x0c0b, Op_BlueFuzz);
   (0x0c0c, Op_StemSnapH);
   (0x0c0d, Op_StemSnapV);
   (0x0c0e, Op_ForceBold);
   (0x0c11, Op_LanguageGroup);
   (0x0c12, Op_ExpansionFactor);
   (0x0c13, Op_InitialRandomSeed);
   (0x0c14, Op_SyntheticBase);
   (0x0c15, Op_PostScript);
   (0x0c16, Op_BaseFontName);
   (0x0c17, Op_BaseFontBlend);
   (0x0c1e, Op_ROS);
   (0x0c1f, Op_CIDFontVersion);
   (0x0c20, Op_CIDFontRevision);
   (0x0c21, Op_CIDFontType);
   (0x0c22, Op_CIDCount);
   (0x0c23, Op_UIDBase);
   (0x0c24, Op_FDArray);
   (0x0c25, Op_FDSelect);
   (0x0c26, Op_FontName)
  ].

(** First matching arm of a [match] on an integer. *)
Fixpoint lookup_code {A : Type} (code : Z) (arms : list (Z * A)) : option A :=
  match arms with
  | [] => None
  | (k, v) :: rest => if code =? k then Some v else lookup_code code rest
  end.

(** [Operator::from] (src/compact1/operation.rs:115-122). *)
Definition operator_from (code : Z) : outcome operator :=
  match lookup_code code operator_codes with
  | Some o => Ok o
  | None => Err Other
  end.

(** The [f32] literals of src/compact1/operation.rs:180-196. *)

Definition lit_0_001 : f32 := f32_of_decimal false 1 (-3). (* 0.001 *)
Definition lit_0_0 : f32 := f32_of_decimal false 0 (-1). (* 0.0 *)
Definition lit_0_039625 : f32 := f32_of_decimal false 39625 (-6). (* 0.039625 *)
Definition lit_0_06 : f32 := f32_of_decimal false 6 (-2). (* 0.06 *)

(** [Operator::default] (src/compact1/operation.rs:125-131,137-211). *)
Definition operator_default (o : operator) : option (list number) :=
  match o with
  | Op_FontBBox => Some [Integer 0; Integer 0; Integer 0; Integer 0]
  | Op_CharSet => Some [Integer 0]
  | Op_Encoding => Some [Integer 0]
  | Op_DefaultWidthX => Some [Integer 0]
  | Op_NominalWidthX => Some [Integer 0]
  | Op_IsFixedPitch => Some [Integer 0]
  | Op_ItalicAngle => Some [Integer 0]
  | Op_UnderlinePosition => Some [Integer (-100)]
  | Op_UnderlineThickness => Some [Integer 50]
  | Op_PaintType => Some [Integer 0]
  | Op_CharStringType => Some [Integer 2]
  | Op_FontMatrix => Some [Real lit_0_001; Real lit_0_0; Real lit_0_0; Real lit_0_001; Real lit_0_0; Real lit_0_0]
  | Op_StrokeWidth => Some [Integer 0]
  | Op_BlueScale => Some [Real lit_0_039625]
  | Op_BlueShift => Some [Integer 7]
  | Op_BlueFuzz => Some [Integer 1]
  | Op_ForceBold => Some [Integer 0]
  | Op_LanguageGroup => Some [Integer 0]
  | Op_ExpansionFactor => Some [Real lit_0_06]
  | Op_InitialRandomSeed => Some [Integer 0]
  | Op_CIDFontVersion => Some [Integer 0]
  | Op_CIDFontRevision => Some [Integer 0]
  | Op_CIDFontType => Some [Integer 0]
  | Op_CIDCount => Some [Integer 8720]
  | _ => None
  end.

(** ** Collections of operations *)

(** [struct Operations(HashMap<Operator, Vec<Operand>>)]
    (src/compact1/operation.rs:13), as an association list with at most one
    entry per operator.  The iteration order of the hash map is not modelled. *)
Definition operations : Type := list (operator * list number).

(** [HashMap::get]. *)
Fixpoint map_get (ops : operations) (o : operator) : option (list number) :=
  match ops with
  | [] => None
  | (k, v) :: rest => if operator_eqb o k then Some v else map_get rest o
  end.

(** [HashMap::insert]: replaces the previous value of the key. *)
Definition map_insert (o : operator) (v : list number) (ops : operations) : operations :=
  (o, v) :: filter (fun kv => negb (operator_eqb o (fst kv))) ops.

(** [HashMap::contains_key] (used at src/compact1/font_set/mod.rs:125). *)
Definition map_contains (ops : operations) (o : operator) : bool :=
  match map_get ops o with Some _ => true | None => false end.

(** [Operations::get] (src/compact1/operation.rs:20-25). *)
Definition operations_get (ops : operations) (o : operator) : option (list number) :=
  match map_get ops o with
  | Some operands => Some operands
  | None => operator_default o
  end.

(** [Operations::get_single] (src/compact1/operation.rs:29-37). *)
Definition get_single (ops : operations) (o : operator) : option number :=
  match operations_get ops o with
  | Some (x :: _) => Some x
  | _ => None
  end.

(** [Operations::get_double] (src/compact1/operation.rs:41-49). *)
Definition get_double (ops : operations) (o : operator) : option (number * number) :=
  match operations_get ops o with
  | Some (x :: y :: _) => Some (x, y)
  | _ => None
  end.

(** The bytes that start an operand (src/compact1/operation.rs:81). *)
Definition starts_operand (code : Z) : bool :=
  (code =? 0x1c) || (code =? 0x1d) || (code =? 0x1e) || ((0x20 <=? code) && (code <=? 0xfe)).

(** [<Operation as value::Read>::read] (src/compact1/operation.rs:76-93).  Every
    round of the loop consumes at least one byte; the fuel is the number of
    rounds allowed. *)
Fixpoint read_operation_loop (fuel : nat) (operands : list number) (s : list byte)
  : outcome ((operator * list number) * list byte) :=
  match fuel with
  | O => OutOfFuel
  | S fuel' =>
      let* code := peek_u8 s in
      if starts_operand code then
        let* (x, r) := read_number s in
        read_operation_loop fuel' (operands ++ [x]) r
      else
        let* (code, r) := if code =? 0x0c then take_u16 s else take_u8 s in
        let* o := operator_from code in
        Ok ((o, operands), r)
  end.

Definition read_operation : reader (operator * list number) := fun s =>
  read_operation_loop (S (length s)) [] s.

(** [<Operations as value::Read>::read] (src/compact1/operation.rs:52-72): read
    operations until [UnexpectedEof], which ends the collection successfully.
    The tape left behind is not modelled. *)
Fixpoint read_operations_loop (fuel : nat) (ops : operations) (s : list byte)
  : outcome operations :=
  match fuel with
  | O => OutOfFuel
  | S fuel' =>
      match read_operation s with
      | Ok ((o, operands), r) => read_operations_loop fuel' (map_insert o operands ops) r
      | Err UnexpectedEof => Ok ops
      | Err Other => Err Other
      | Panic p => Panic p
      | OutOfFuel => OutOfFuel
      end
  end.

Definition read_operations (s : list byte) : outcome operations :=
  read_operations_loop (S (length s)) [] s.

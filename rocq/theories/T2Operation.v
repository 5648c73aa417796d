(** T2Operation: operators of character strings (src/type2/operation.rs). *)
From Verif Require Import Base Float C1Operation.

(** [enum Operator] (src/type2/operation.rs:36-113). *)
Inductive t2_operator : Type :=
| T2_HStem | T2_VStem | T2_VMoveTo | T2_RLineTo | T2_HLineTo | T2_VLineTo
| T2_RRCurveTo | T2_CallSubr | T2_Return | T2_EndChar | T2_HStemHM | T2_HintMask
| T2_CntrMask | T2_RMoveTo | T2_HMoveTo | T2_VStemHM | T2_RCurveLine | T2_RLineCurve
| T2_VVCurveTo | T2_HHCurveTo | T2_CallGSubr | T2_VHCurveTo | T2_HVCurveTo | T2_And
| T2_Or | T2_Not | T2_Abs | T2_Add | T2_Sub | T2_Div
| T2_Neg | T2_Eq | T2_Drop | T2_Put | T2_Get | T2_IfElse
| T2_Random | T2_Mul | T2_Sqrt | T2_Dup | T2_Exch | T2_Index
| T2_Roll | T2_HFlex | T2_Flex | T2_HFlex1 | T2_Flex1.

(** Derived [PartialEq]/[Eq] (src/type2/operation.rs:21). *)
Definition t2_operator_eq_dec (a b : t2_operator) : {a = b} + {a <> b}.
Proof. decide equality. Defined.

(** The arms of [Operator::from] (src/type2/operation.rs:28-31,38-111), in source
    order. *)
Definition t2_operator_codes : list (Z * t2_operator) :=
  [
   (0x01, T2_HStem);
   (0x03, T2_VStem);
   (0x04, T2_VMoveTo);
   (0x05, T2_RLineTo);
   (0x06, T2_HLineTo);
   (0x07, T2_VLineTo);
   (0x08, T2_RRCurveTo);
   (0x0a, T2_CallSubr);
   (0x0b, T2_Return);
   (0x0e, T2_EndChar);
   (0x12, T2_HStemHM);
   (0x13, T2_HintMask);
   (0x14, T2_CntrMask);
   (0x15, T2_RMoveTo);
   (0x16, T2_HMoveTo);
   (0x17, T2_VStemHM);
   (0x18, T2_RCurveLine);
   (0x19, T2_RLineCurve);
   (0x1a, T2_VVCurveTo);
   (0x1b, T2_HHCurveTo);
   (0x1d, T2_CallGSubr);
   (0x1e, T2_VHCurveTo);
   (0x1f, T2_HVCurveTo);
   (0x0c03, T2_And);
   (0x0c04, T2_Or);
   (0x0c05, T2_Not);
   (0x0c09, T2_Abs);
   (0x0c0a, T2_Add);
   (0x0c0b, T2_Sub);
   (0x0c0c, T2_Div);
   (0x0c0e, T2_Neg);
   (0x0c0f, T2_Eq);
   (0x0c12, T2_Drop);
   (0x0c14, T2_Put);
   (0x0c15, T2_Get);
   (0x0c16, T2_IfElse);
   (0x0c17, T2_Random);
   (0x0c18, T2_Mul);
   (0x0c1a, T2_Sqrt);
   (0x0c1b, T2_Dup);
   (0x0c1c, T2_Exch);
   (0x0c1d, T2_Index);
   (0x0c1e, T2_Roll);
   (0x0c22, T2_HFlex);
   (0x0c23, T2_Flex);
   (0x0c24, T2_HFlex1);
   (0x0c25, T2_Flex1)
  ].

(** [Operator::from] (src/type2/operation.rs:26-32). *)
Definition t2_operator_from (code : Z) : outcome t2_operator :=
  match lookup_code code t2_operator_codes with
  | Some o => Ok o
  | None => Err Other
  end.

(** [type Operation = (Operator, Vec<Operand>)] (src/type2/operation.rs:9). *)
Definition t2_operation : Type := t2_operator * list f32.

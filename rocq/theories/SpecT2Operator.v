(** SpecT2Operator: the operators of character strings, after "The Type 2 Charstring
    Format" (Adobe technical note 5177), appendix A. *)
From Verif Require Import Base T2Operation SpecBytes.

(** The code of an operator: one byte, or 12 and another byte. *)
Definition t2_code (o : t2_operator) : Z :=
  match o with
  | T2_HStem => 1
  | T2_VStem => 3
  | T2_VMoveTo => 4
  | T2_RLineTo => 5
  | T2_HLineTo => 6
  | T2_VLineTo => 7
  | T2_RRCurveTo => 8
  | T2_CallSubr => 10
  | T2_Return => 11
  | T2_EndChar => 14
  | T2_HStemHM => 18
  | T2_HintMask => 19
  | T2_CntrMask => 20
  | T2_RMoveTo => 21
  | T2_HMoveTo => 22
  | T2_VStemHM => 23
  | T2_RCurveLine => 24
  | T2_RLineCurve => 25
  | T2_VVCurveTo => 26
  | T2_HHCurveTo => 27
  | T2_CallGSubr => 29
  | T2_VHCurveTo => 30
  | T2_HVCurveTo => 31
  | T2_And => 12 * 256 + 3
  | T2_Or => 12 * 256 + 4
  | T2_Not => 12 * 256 + 5
  | T2_Abs => 12 * 256 + 9
  | T2_Add => 12 * 256 + 10
  | T2_Sub => 12 * 256 + 11
  | T2_Div => 12 * 256 + 12
  | T2_Neg => 12 * 256 + 14
  | T2_Eq => 12 * 256 + 15
  | T2_Drop => 12 * 256 + 18
  | T2_Put => 12 * 256 + 20
  | T2_Get => 12 * 256 + 21
  | T2_IfElse => 12 * 256 + 22
  | T2_Random => 12 * 256 + 23
  | T2_Mul => 12 * 256 + 24
  | T2_Sqrt => 12 * 256 + 26
  | T2_Dup => 12 * 256 + 27
  | T2_Exch => 12 * 256 + 28
  | T2_Index => 12 * 256 + 29
  | T2_Roll => 12 * 256 + 30
  | T2_HFlex => 12 * 256 + 34
  | T2_Flex => 12 * 256 + 35
  | T2_HFlex1 => 12 * 256 + 36
  | T2_Flex1 => 12 * 256 + 37
  end.

Definition t2_bytes (o : t2_operator) : list byte :=
  if t2_code o <? 256 then [zb (t2_code o)] else [zb (t2_code o / 256); zb (t2_code o)].

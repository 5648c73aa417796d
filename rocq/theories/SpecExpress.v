(** SpecExpress: character strings written as a list of operators whose operands are expressions. *)
From Verif Require Import Base Float T2Operation.
From Verif Require Export SpecProgram SpecWidth.

(** The expressions for the operands, an operator, and the mask of a mask operator. *)
Record statement : Type := {
  statement_operands : list expression;
  statement_operator : t2_operator;
  statement_mask : list byte;
}.

Definition statement_encoding (e : list byte) (s : statement) : Prop :=
  exists es, each expression_encoding es (statement_operands s) /\
    e = es ++ t2_bytes (statement_operator s) ++ statement_mask s.

(** The same with the values of the expressions. *)
Definition performed (s : statement) : item :=
  {| item_numbers := map evaluate (statement_operands s);
     item_operator := statement_operator s;
     item_mask := statement_mask s |}.

(** An operation that can be asked for: a path or hint operator with as many operands as it takes. *)
Definition well_formed (op : t2_operation) : Prop :=
  path_or_hint (fst op) = true /\ legal_count (fst op) (length (snd op)).

(** The operands are binary32 data: finite numbers, infinities or NaN. *)
Definition numeric (op : t2_operation) : Prop := Forall binary32 (snd op).

(** The code of a width, if there is one. *)
Inductive width_encoding : list byte -> option f32 -> Prop :=
| no_width : width_encoding [] None
| some_width e a : expression_encoding e a -> width_encoding e (Some (evaluate a)).

(** There is no width, or the first operator may have it in front of its operands. *)
Definition width_allowed (w : option f32) (ops : list t2_operation) : Prop :=
  w = None \/ match ops with [] => True | op :: _ => may_have_width (fst op) = true end.

(** The width, the statements, and endchar, as in technical note 5177, section 3.1. *)
Definition glyph_encoding (code : list byte) (w : option f32) (ss : list statement) : Prop :=
  exists ew es, width_encoding ew w /\ each statement_encoding es ss /\ code = ew ++ es ++ t2_bytes T2_EndChar.

(** The same with the width in front of endchar. *)
Definition late_glyph_encoding (code : list byte) (w : option f32) (ss : list statement) : Prop :=
  exists ew es, width_encoding ew w /\ each statement_encoding es ss /\ code = es ++ ew ++ t2_bytes T2_EndChar.

(** The operations that statements ask for. *)
Definition asked (ss : list statement) : list t2_operation := map (fun s => stated (performed s)) ss.

(** The number of operands of some operations. *)
Definition operand_count (ops : list t2_operation) : Z :=
  fold_right Z.add 0 (map (fun op => Z.of_nat (length (snd op))) ops).

(** A number of bytes that is enough to write some operations and a width. *)
Definition glyph_length (ops : list t2_operation) : Z :=
  405 + 404 * operand_count ops + Z.of_nat (length ops) * (operand_count ops + 3).

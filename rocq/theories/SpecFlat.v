(** SpecFlat: character strings with subroutines, and without. *)
From Verif Require Import Base Float T2Operation T2Program.
From Verif Require Export SpecProgram SpecRewrite SpecInline.

Section Flat.
  Context (k : nat) (globals locals : list (list byte)).

  (** Code in which the number of the subroutine is right in front of every call, the subroutine exists
      and is code of that kind in turn, and which returns or ends with endchar.  The masks have [k] bytes.
      Being inductive, this says also that no subroutine calls itself, directly or not. *)
  Inductive literal : list byte -> Prop :=
  | literal_number e x c : t2_number e x -> literal c -> literal (e ++ c)
  | literal_operator o c : plain_operator o = true -> literal c -> literal (t2_bytes o ++ c)
  | literal_mask o m c : mask_operator o = true -> length m = k -> literal c -> literal (t2_bytes o ++ m ++ c)
  | literal_call e a o body c :
      t2_number e a -> called globals locals o a body -> literal body -> literal c -> literal (e ++ t2_bytes o ++ c)
  | literal_return rest : literal (t2_bytes T2_Return ++ rest)
  | literal_end rest : literal (t2_bytes T2_EndChar ++ rest).
End Flat.

(** Code without calls. *)
Inductive flat (k : nat) : list byte -> Prop :=
| flat_number e x c : t2_number e x -> flat k c -> flat k (e ++ c)
| flat_operator o c : plain_operator o = true -> flat k c -> flat k (t2_bytes o ++ c)
| flat_mask o m c : mask_operator o = true -> length m = k -> flat k c -> flat k (t2_bytes o ++ m ++ c)
| flat_return : flat k (t2_bytes T2_Return)
| flat_end : flat k (t2_bytes T2_EndChar).

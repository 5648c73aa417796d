(** SpecInline: code in which subroutines are inlined, renumbered and moved between the tables. *)
From Verif Require Import Base Float T2Operation T2Program.
From Verif Require Export SpecProgram SpecNest SpecRewrite.

(** Operators that neither change which code is executed nor have a mask. *)
Definition plain_operator (o : t2_operator) : bool :=
  match o with
  | T2_CallSubr | T2_CallGSubr | T2_Return | T2_EndChar => false
  | _ => negb (mask_operator o)
  end.

(** The subroutine that an operator and its operand call. *)
Definition called (globals locals : list (list byte)) (o : t2_operator) (a : f32) (body : list byte) : Prop :=
  o = T2_CallSubr /\ selects locals a body \/ o = T2_CallGSubr /\ selects globals a body.

Section Inline.
  Context (cfg : config) (k : nat).
  Context (globals locals globals' locals' : list (list byte)).
  Context (bodies : list byte -> list byte -> Prop).

  (** [rewritten c returns c'] says that [c'] stands for [c] and, as soon as that returns, for the
      code in [returns], the code that follows the calls whose subroutines have been inlined.  The
      masks have [k] bytes. *)
  Inductive rewritten : list byte -> list (list byte) -> list byte -> Prop :=
  | rewritten_nothing returns : rewritten [] returns []
  | rewritten_numbers e x xs e' x' xs' returns :
      each t2_number e (x :: xs) -> each t2_number e' (x' :: xs') -> rewritten e returns e'
  | rewritten_piece u v c returns c' :
      alike cfg u v -> c <> [] -> c' <> [] -> rewritten c returns c' -> rewritten (u ++ c) returns (v ++ c')
  | rewritten_operator o c returns c' :
      plain_operator o = true -> rewritten c returns c' -> rewritten (t2_bytes o ++ c) returns (t2_bytes o ++ c')
  | rewritten_mask o m c returns c' :
      mask_operator o = true -> length m = k -> rewritten c returns c' ->
      rewritten (t2_bytes o ++ m ++ c) returns (t2_bytes o ++ m ++ c')
  (** A call remains one, of the subroutine that has taken the place of the other. *)
  | rewritten_call e a o body e' a' o' body' c returns c' :
      t2_number e a -> called globals locals o a body ->
      t2_number e' a' -> called globals' locals' o' a' body' -> bodies body body' ->
      rewritten c returns c' -> rewritten (e ++ t2_bytes o ++ c) returns (e' ++ t2_bytes o' ++ c')
  (** A call of a subroutine that does not exist remains one. *)
  | rewritten_failure e a o e' a' o' c returns c' :
      t2_number e a -> In o [T2_CallSubr; T2_CallGSubr] -> (forall body, ~ called globals locals o a body) ->
      t2_number e' a' -> In o' [T2_CallSubr; T2_CallGSubr] -> (forall body, ~ called globals' locals' o' a' body) ->
      rewritten (e ++ t2_bytes o ++ c) returns (e' ++ t2_bytes o' ++ c')
  (** The subroutine takes the place of the call. *)
  | rewritten_inline e a o body c returns c' :
      t2_number e a -> called globals locals o a body -> rewritten body (c :: returns) c' ->
      rewritten (e ++ t2_bytes o ++ c) returns c'
  | rewritten_return rest c returns c' :
      rewritten c returns c' -> rewritten (t2_bytes T2_Return ++ rest) (c :: returns) c'
  | rewritten_returns rest rest' :
      rewritten (t2_bytes T2_Return ++ rest) [] (t2_bytes T2_Return ++ rest')
  | rewritten_end rest returns rest' :
      (rest = [] -> rest' = []) -> rewritten (t2_bytes T2_EndChar ++ rest) returns (t2_bytes T2_EndChar ++ rest').
End Inline.

(** The program does not end in a subroutine when there is code left to return to, which is an error. *)
Definition ends_cleanly (cfg : config) (p : program) : Prop :=
  forall ops q st, trace cfg p ops q -> about_to q T2_EndChar st -> step cfg q <> Err Other.

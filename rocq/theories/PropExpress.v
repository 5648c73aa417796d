(** PropExpress: property C90. *)
From Verif Require Import Base Float T2Operation T2Program BaseFacts SpecProgram SpecExpress ProgramFacts ExpressFacts.
Local Open Scope list_scope.
Local Open Scope Z_scope.

(** C90. The numbers that can be written in a character string are exactly the binary32 data, with the infinities,
    NaN and the negative zero. *)
Theorem C90_numbers : forall x : f32, binary32 x <-> exists e a, expression_encoding e a /\ evaluate a = x.
Proof. exact expressible_iff. Qed.
Print Assumptions C90_numbers.

(** 404 bytes are enough for any of them. *)
Theorem C90_length : forall x : f32, binary32 x ->
  exists e a, expression_encoding e a /\ evaluate a = x /\ (length e <= 404)%nat.
Proof. exact expressible. Qed.
Print Assumptions C90_length.

(** Statements are executed as written, whatever the subroutines are. *)
Theorem C90_written : forall (cfg : config) (code : list byte) (w : option f32) (ss : list statement)
    (globals locals : list (list byte)),
  Z.of_nat (length globals) < 2 ^ 31 -> Z.of_nat (length locals) < 2 ^ 31 ->
  glyph_encoding code w ss /\ width_allowed w (asked ss) \/ late_glyph_encoding code w ss ->
  Forall well_formed (asked ss) -> masks_fit 0 (map performed ss) -> operand_count (asked ss) + 7 < 2 ^ 64 ->
  exists q, runs cfg (new_program code globals locals) (Ok (asked ss, q)) /\ width q = w.
Proof. exact written_runs. Qed.
Print Assumptions C90_written.

(** The lists of operations that [Program::next] returns, together with the width, are exactly those of path and hint
    operators with as many operands as they take. *)
Theorem C90_glyphs : forall (cfg : config) (ops : list t2_operation) (w : option f32),
  operand_count ops + 7 < 2 ^ 64 ->
  (exists code globals locals q, runs cfg (new_program code globals locals) (Ok (ops, q)) /\ width q = w) <->
  Forall well_formed ops /\ Forall numeric ops /\ (forall x, w = Some x -> binary32 x).
Proof. exact glyphs_iff. Qed.
Print Assumptions C90_glyphs.

(** Every glyph that is executed to the end can be written as statements, without subroutines, for all builds. *)
Theorem C90_normal : forall (cfg : config) (code : list byte) (globals locals : list (list byte))
    (ops : list t2_operation) (q : program),
  runs cfg (new_program code globals locals) (Ok (ops, q)) -> operand_count ops + 7 < 2 ^ 64 ->
  exists code' ss, (width_allowed (width q) ops -> glyph_encoding code' (width q) ss) /\
    (glyph_encoding code' (width q) ss \/ late_glyph_encoding code' (width q) ss) /\ asked ss = ops /\
    Z.of_nat (length code') <= glyph_length ops /\
    forall cfg' globals' locals', Z.of_nat (length globals') < 2 ^ 31 -> Z.of_nat (length locals') < 2 ^ 31 ->
    exists q', runs cfg' (new_program code' globals' locals') (Ok (ops, q')) /\ width q' = width q.
Proof. exact rewritten_glyph. Qed.
Print Assumptions C90_normal.

(** The least positive number. *)
Example C90_number_case : binary32 (S754_finite false 1 (-149)) /\ finite (S754_finite false 1 (-149)).
Proof. split; reflexivity. Qed.

(** 3 4 2 mul rmoveto; 1 0 div hlineto; the width, 5, is in front, or after the statements. *)
Definition sample_statements : list statement :=
  [{| statement_operands := [Number (f32_of_i32 3); Mul (Number (f32_of_i32 4)) (Number (f32_of_i32 2))];
      statement_operator := T2_RMoveTo; statement_mask := [] |};
   {| statement_operands := [Div (Number (f32_of_i32 1)) (Number (f32_of_i32 0))];
      statement_operator := T2_HLineTo; statement_mask := [] |}].
Definition sample_statements_code : list byte := [x8e; x8f; x8d; x0c; x18; x15; x8c; x8b; x0c; x0c; x06].
Example C90_case :
  glyph_encoding ([x90] ++ sample_statements_code ++ [x0e]) (Some (f32_of_i32 5)) sample_statements /\
  late_glyph_encoding (sample_statements_code ++ [x90] ++ [x0e]) (Some (f32_of_i32 5)) sample_statements /\
  width_allowed (Some (f32_of_i32 5)) (asked sample_statements) /\ Forall well_formed (asked sample_statements) /\
  masks_fit 0 (map performed sample_statements) /\ operand_count (asked sample_statements) + 7 < 2 ^ 64.
Proof.
  assert (N : forall b, (32 <=? bz b) && (bz b <=? 246) = true -> expression_encoding [b] (Number (f32_of_i32 (bz b - 139)))).
  { intros b B. constructor. apply number_of_byte. lia. }
  assert (W : width_encoding [x90] (Some (f32_of_i32 5))) by exact (some_width _ _ (N x90 eq_refl)).
  assert (E : each statement_encoding sample_statements_code sample_statements).
  { apply (each_cons _ [x8e; x8f; x8d; x0c; x18; x15]); [|apply (each_cons _ [x8c; x8b; x0c; x0c; x06] _ []); [|constructor]].
    - exists [x8e; x8f; x8d; x0c; x18]. split; [|reflexivity].
      apply (each_cons _ [x8e] _ [x8f; x8d; x0c; x18] _ (N x8e eq_refl)).
      apply (each_cons _ [x8f; x8d; x0c; x18] _ []); [|constructor].
      exact (encode_mul _ _ _ _ (N x8f eq_refl) (N x8d eq_refl)).
    - exists [x8c; x8b; x0c; x0c]. split; [|reflexivity]. apply (each_cons _ [x8c; x8b; x0c; x0c] _ []); [|constructor].
      exact (encode_div _ _ _ _ (N x8c eq_refl) (N x8b eq_refl)). }
  split; [exists [x90], sample_statements_code; auto|]. split; [exists [x90], sample_statements_code; auto|].
  split; [right; reflexivity|]. split; [|split; [repeat split|reflexivity]].
  repeat constructor. exists O. reflexivity.
Qed.
Example C90_run_case : forall cfg,
  match run cfg 4 (new_program ([x90] ++ sample_statements_code ++ [x0e]) [] []) with
  | Ok (ops, q) => ops = [(T2_RMoveTo, map f32_of_i32 [3; 8]); (T2_HLineTo, [S754_infinity false])] /\
      width q = Some (f32_of_i32 5)
  | _ => False end.
Proof. intros [[] [] []]; vm_compute; auto. Qed.

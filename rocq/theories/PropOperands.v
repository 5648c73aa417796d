(** PropOperands: properties C38 to C42. *)
From Coq Require Import Reals.
From Verif Require Import Base Float T2Number T2Operation T2Program BaseFacts SpecProgram T2NumberFacts ProgramFacts.
Local Open Scope list_scope.
Local Open Scope Z_scope.

(** C38. *)
Theorem C38_numbers : forall (s : list byte) (x : f32) (r : list byte),
  read_operand s = Ok (x, r) <-> exists e, s = e ++ r /\ t2_number e x.
Proof. exact read_operand_iff. Qed.
Print Assumptions C38_numbers.

(** Integers are exact, and so are fixed-point numbers of at most 24 bits. *)
Theorem C38_integers : forall (e : list byte) (x : f32),
  t2_number e x -> hd_error e <> Some xff ->
  exists v, t2_denotes e (IZR v) /\ value x = IZR v /\ finite x.
Proof. exact t2_number_integer. Qed.
Print Assumptions C38_integers.

Theorem C38_fixed : forall (b1 b2 b3 b4 : byte) (x : f32),
  t2_number [xff; b1; b2; b3; b4] x -> Z.abs (signed 32 (big_endian [b1; b2; b3; b4])) < 2 ^ 24 ->
  value x = (IZR (signed 32 (big_endian [b1; b2; b3; b4])) / 65536)%R /\ finite x.
Proof. exact t2_number_fixed. Qed.
Print Assumptions C38_fixed.

Theorem C38_finite : forall (e : list byte) (x : f32), t2_number e x -> binary32 x /\ finite x.
Proof. exact t2_number_finite. Qed.
Print Assumptions C38_finite.

Theorem C38_truncated : forall (e1 e2 : list byte) (x : f32),
  t2_number (e1 ++ e2) x -> e2 <> [] -> read_operand e1 = Err UnexpectedEof.
Proof. exact read_operand_eof. Qed.
Print Assumptions C38_truncated.

Theorem C38_others : forall (b : byte) (t : list byte),
  ~ (bz b = 28 \/ 32 <= bz b) -> read_operand (b :: t) = Err Other.
Proof. exact read_operand_other. Qed.
Print Assumptions C38_others.

Example C38_one_byte : read_operand [xef; x05] = Ok (f32_of_i32 100, [x05]).
Proof. vm_compute. reflexivity. Qed.
Example C38_two_bytes : read_operand [xfa; xff; x05] = Ok (f32_of_i32 1131, [x05]).
Proof. vm_compute. reflexivity. Qed.
Example C38_two_bytes_negative : read_operand [xfe; xff] = Ok (f32_of_i32 (-1131), []).
Proof. vm_compute. reflexivity. Qed.
Example C38_three_bytes : read_operand [x1c; x80; x00] = Ok (f32_of_i32 (-32768), []).
Proof. vm_compute. reflexivity. Qed.
Example C38_minus_one_half : read_operand [xff; xff; xff; x80; x00] = Ok (f32_div (f32_of_i32 (-1)) (f32_of_i32 2), []).
Proof. vm_compute. reflexivity. Qed.

(** C39. The operands of an operation are the longest legal suffix of the stack. *)
Theorem C39_operands : forall (cfg : config) (p : program) (o : t2_operator) (operands : list f32) (p' : program),
  nexts cfg p (Ok (Some (o, operands), p')) ->
  legal_count o (length operands) /\
  exists q e xs r surplus, trace cfg p [] q /\ routine q = e ++ t2_bytes o ++ r /\ each t2_number e xs /\
    longest o (stack q ++ xs) surplus operands.
Proof. exact next_operands. Qed.
Print Assumptions C39_operands.

(** The other way round: there is an operation whenever some suffix is legal. *)
Theorem C39_passed : forall (cfg : config) (p : program) (o : t2_operator) (e : list byte) (xs : list f32)
    (mask r : list byte) (surplus operands : list f32),
  path_or_hint o = true ->
  routine p = e ++ t2_bytes o ++ mask ++ r -> each t2_number e xs -> longest o (stack p ++ xs) surplus operands ->
  (if mask_operator o then mask_bytes (stems p + declared o (length (stack p ++ xs))) (Z.of_nat (length mask)) else mask = []) ->
  0 <= stems p -> stems p + declared o (length (stack p ++ xs)) + 7 < 2 ^ 64 ->
  exists q, nexts cfg p (Ok (Some (o, operands), q)) /\
    routine q = r /\ callers q = callers p /\ stack q = [] /\ stems q = stems p + declared o (length (stack p ++ xs)).
Proof. exact next_passes. Qed.
Print Assumptions C39_passed.

(** Masks take no operands, so every stack has a legal suffix for them. *)
Theorem C39_too_few : forall (cfg : config) (p : program) (o : t2_operator) (e : list byte) (xs : list f32) (r : list byte),
  path_operator o = true \/ stem_operator o = true ->
  routine p = e ++ t2_bytes o ++ r -> each t2_number e xs ->
  (forall m, legal_count o m -> (length (stack p ++ xs) < m)%nat) ->
  0 <= stems p -> stems p + declared o (length (stack p ++ xs)) < 2 ^ 64 ->
  nexts cfg p (Err Other).
Proof. exact next_starves. Qed.
Print Assumptions C39_too_few.

Example C39_case : longest T2_RLineTo (map f32_of_i32 [1; 2; 3]) [f32_of_i32 1] (map f32_of_i32 [2; 3]) /\
  next dev_profile 1 (new_program [x8c; x8d; x8e; x05; x0e] [] []) =
    Ok (Some (T2_RLineTo, map f32_of_i32 [2; 3]),
        {| routine := [x0e]; callers := []; global := []; local := []; stack := []; stems := 0; width := Some (f32_of_i32 1) |}).
Proof.
  split; [|vm_compute; reflexivity]. split; [reflexivity|]. split; [exists 1%nat; auto|].
  intros m (k & K & ->) L. cbn in *. lia.
Qed.
Example C39_few_case : (forall m, legal_count T2_HVCurveTo m -> (length (map f32_of_i32 [1; 2; 3]%Z) < m)%nat) /\
  next dev_profile 1 (new_program [x8c; x8d; x8e; x1f] [] []) = Err Other.
Proof.
  split; [|vm_compute; reflexivity].
  intros m [(k & [->| ->])|(k & K & [->| ->])]; cbn; lia.
Qed.

(** C40. *)
Theorem C40_emitted : forall (cfg : config) (p : program) (o : t2_operator) (operands : list f32) (p' : program),
  nexts cfg p (Ok (Some (o, operands), p')) -> path_or_hint o = true /\ stack p' = [].
Proof. exact next_emits. Qed.
Print Assumptions C40_emitted.

Theorem C40_run : forall (cfg : config) (p : program) (ops : list t2_operation) (q : program),
  runs cfg p (Ok (ops, q)) ->
  Forall (fun op => path_or_hint (fst op) = true /\ legal_count (fst op) (length (snd op))) ops.
Proof. exact run_emits. Qed.
Print Assumptions C40_run.

Example C40_case : run dev_profile 3 (new_program [x8c; x8d; x0c; x0a; x16; x0e] [] []) =
  Ok ([(T2_HMoveTo, [f32_of_i32 3])],
      {| routine := []; callers := []; global := []; local := []; stack := []; stems := 0; width := None |}).
Proof. vm_compute. reflexivity. Qed.

(** C41. [n] counts the stem hints of all operators executed before. *)
Theorem C41_skipped : forall (cfg : config) (code : list byte) (g l : list (list byte)) (n : Z) (q : program)
    (o : t2_operator) (e : list byte) (xs : list f32) (mask r : list byte),
  history cfg (new_program code g l) n q ->
  mask_operator o = true -> routine q = e ++ t2_bytes o ++ mask ++ r -> each t2_number e xs ->
  mask_bytes (n + Z.of_nat (length (stack q ++ xs)) / 2) (Z.of_nat (length mask)) ->
  n + Z.of_nat (length (stack q ++ xs)) / 2 + 7 < 2 ^ 64 ->
  exists q', nexts cfg q (Ok (Some (o, []), q')) /\ routine q' = r /\ callers q' = callers q.
Proof. exact mask_skipped. Qed.
Print Assumptions C41_skipped.

Theorem C41_truncated : forall (cfg : config) (code : list byte) (g l : list (list byte)) (n : Z) (q : program)
    (o : t2_operator) (e : list byte) (xs : list f32) (r : list byte) (size : Z),
  history cfg (new_program code g l) n q ->
  mask_operator o = true -> routine q = e ++ t2_bytes o ++ r -> each t2_number e xs ->
  mask_bytes (n + Z.of_nat (length (stack q ++ xs)) / 2) size -> Z.of_nat (length r) < size ->
  n + Z.of_nat (length (stack q ++ xs)) / 2 + 7 < 2 ^ 64 -> nexts cfg q (Err UnexpectedEof).
Proof. exact mask_short. Qed.
Print Assumptions C41_truncated.

(** Nine stem hints, one of them implicit: two bytes. *)
Definition nine_stems : list byte := repeat x8c 16 ++ [x12; x8c; x8c; x13; xff; x80; x0e].
Example C41_case : mask_bytes 9 2 /\
  match run dev_profile 4 (new_program nine_stems [] []) with
  | Ok (ops, q) => ops = [(T2_HStemHM, repeat (f32_of_i32 1) 16); (T2_HintMask, [])] /\ stems q = 9 /\ routine q = []
  | _ => False
  end.
Proof. split; [unfold mask_bytes; lia|]. vm_compute. auto. Qed.
Example C41_short_case : run dev_profile 4 (new_program (removelast (removelast nine_stems)) [] []) = Err UnexpectedEof.
Proof. vm_compute. reflexivity. Qed.

(** C42. The code takes the top-most surplus argument of any operator, so the width is
    wrong if the first operator is a mask with implicit stem hints or an [endchar] with an
    accented character, or if a later operator has surplus arguments. *)
Theorem C42_mask_refuted : forall cfg, exists e numbers mask ops q,
  each t2_number e numbers /\ length mask = 1%nat /\
  runs cfg (new_program (e ++ t2_bytes T2_HintMask ++ mask ++ t2_bytes T2_EndChar) [] []) (Ok (ops, q)) /\
  width q <> specified_width T2_HintMask numbers.
Proof. exact width_mask_refuted. Qed.
Print Assumptions C42_mask_refuted.

Theorem C42_later_refuted : forall cfg, exists e1 n1 e2 n2 ops q,
  each t2_number e1 n1 /\ each t2_number e2 n2 /\ legal_count T2_HMoveTo (length n1) /\
  runs cfg (new_program (e1 ++ t2_bytes T2_HMoveTo ++ e2 ++ t2_bytes T2_HMoveTo ++ t2_bytes T2_EndChar) [] []) (Ok (ops, q)) /\
  specified_width T2_HMoveTo n1 = None /\ width q <> None.
Proof. exact width_later_refuted. Qed.
Print Assumptions C42_later_refuted.

Theorem C42_accent_refuted : forall cfg, exists e numbers q,
  each t2_number e numbers /\ length numbers = 5%nat /\
  runs cfg (new_program (e ++ t2_bytes T2_EndChar) [] []) (Ok ([], q)) /\
  width q <> specified_width T2_EndChar numbers.
Proof. exact width_accent_refuted. Qed.
Print Assumptions C42_accent_refuted.

(** What holds: straight-line strings in which only the first operator has a surplus
    argument.  Missing are the three cases above, and strings with subroutines and
    expressions (but see C43 and C47, which reduce them to straight-line ones). *)
Theorem C42_partial : forall (cfg : config) (code : list byte) (x : item) (xs : list item) (surplus : list f32)
    (surpluses : list (list f32)) (ops : list t2_operation) (g l : list (list byte)),
  each item_encoding code (x :: xs) -> results (x :: xs) (surplus :: surpluses) ops ->
  masks_fit 0 (x :: xs) -> Z.of_nat (length code) + 7 < 2 ^ 64 ->
  (length surplus <= 1)%nat ->
  (surplus = [] \/ stem_operator (item_operator x) = true \/ mask_operator (item_operator x) = true \/
   item_operator x = T2_RMoveTo \/ item_operator x = T2_HMoveTo \/ item_operator x = T2_VMoveTo) ->
  Forall (fun s => s = []) surpluses ->
  exists q, runs cfg (new_program (code ++ t2_bytes T2_EndChar) g l) (Ok (ops, q)) /\
    width q = specified_width (item_operator x) (item_numbers x).
Proof. exact width_first. Qed.
Print Assumptions C42_partial.

Theorem C42_endchar_partial : forall (cfg : config) (e : list byte) (last : list f32) (g l : list (list byte)),
  each t2_number e last -> (length last <= 1)%nat ->
  exists q, runs cfg (new_program (e ++ t2_bytes T2_EndChar) g l) (Ok ([], q)) /\
    width q = specified_width T2_EndChar last.
Proof. exact width_endchar. Qed.
Print Assumptions C42_endchar_partial.

(** Once there is a width it stays. *)
Theorem C42_kept : forall (cfg : config) (p : program) (x : option t2_operation) (p' : program) (w : f32),
  width p = Some w -> nexts cfg p (Ok (x, p')) -> width p' = Some w.
Proof. exact width_kept. Qed.
Print Assumptions C42_kept.

(** 7 1 2 hstem 3 hmoveto endchar *)
Example C42_case :
  specified_width T2_HStem (map f32_of_i32 [7; 1; 2]) = Some (f32_of_i32 7) /\
  match run dev_profile 4 (new_program [x92; x8c; x8d; x01; x8e; x16; x0e] [] []) with
  | Ok (ops, q) => ops = [(T2_HStem, map f32_of_i32 [1; 2]); (T2_HMoveTo, [f32_of_i32 3])] /\ width q = Some (f32_of_i32 7)
  | _ => False
  end.
Proof. vm_compute. auto. Qed.

(** What the width is for every program: the top-most surplus argument of the first
    operator that has any, [endchar] having the whole stack as its surplus. *)
Theorem C42_taken : forall (cfg : config) (p : program) (o : t2_operator) (operands : list f32) (p' : program),
  nexts cfg p (Ok (Some (o, operands), p')) ->
  width p <> None /\ width p' = width p \/
  width p = None /\ exists q e xs r surplus,
    trace cfg p [] q /\ routine q = e ++ t2_bytes o ++ r /\ each t2_number e xs /\
    longest o (stack q ++ xs) surplus operands /\
    (surplus = [] /\ width p' = None \/ exists s w, surplus = s ++ [w] /\ width p' = Some w).
Proof. exact next_width. Qed.
Print Assumptions C42_taken.

Theorem C42_taken_at_end : forall (cfg : config) (p p' : program),
  nexts cfg p (Ok (None, p')) ->
  width p' = width p \/
  width p = None /\ exists q e xs r s w,
    trace cfg p [] q /\ routine q = e ++ t2_bytes T2_EndChar ++ r /\ each t2_number e xs /\
    stack q ++ xs = s ++ [w] /\ width p' = Some w.
Proof. exact next_end_width. Qed.
Print Assumptions C42_taken_at_end.

Example C42_taken_case : match next dev_profile 1 (new_program [x92; x8e; x0e] [] []) with
  | Ok (None, q) => width q = Some (f32_of_i32 3) | _ => False end.
Proof. vm_compute. reflexivity. Qed.

(** PropSemantics: property C56. *)
From Verif Require Import Base Float T2Number T2Operation T2Program BaseFacts SpecProgram SpecExecution T2NumberFacts ProgramFacts ReferenceFacts.
Local Open Scope list_scope.
Local Open Scope Z_scope.

(** C56. Character strings with a meaning are executed as they mean, in every build. *)
Theorem C56_executed : forall (globals locals : list (list byte)) (cfg : config) (code : list byte)
    (ops : list t2_operation) (m : machine),
  Z.of_nat (length globals) < 2 ^ 31 -> Z.of_nat (length locals) < 2 ^ 31 ->
  meaning globals locals code ops m ->
  exists q, runs cfg (new_program code globals locals) (Ok (ops, q)) /\
    stack q = values m /\ stems q = hints m /\ width q = advance m.
Proof. exact (fun g l cfg code ops m Lg Ll => meaning_runs g l Lg Ll cfg code ops m). Qed.
Print Assumptions C56_executed.

(** With overflow checks, no others are executed to the end. *)
Theorem C56_meant : forall (globals locals : list (list byte)) (cfg : config) (code : list byte)
    (ops : list t2_operation) (q : program),
  overflow_checks cfg = true ->
  runs cfg (new_program code globals locals) (Ok (ops, q)) ->
  exists m, meaning globals locals code ops m /\
    stack q = values m /\ stems q = hints m /\ width q = advance m.
Proof. exact runs_meaning. Qed.
Print Assumptions C56_meant.

(** Without overflow checks, only those that panic with them. *)
Theorem C56_unchecked : forall (globals locals : list (list byte)) (cfg : config) (code : list byte)
    (ops : list t2_operation) (q : program),
  runs cfg (new_program code globals locals) (Ok (ops, q)) ->
  (exists m, meaning globals locals code ops m /\
     stack q = values m /\ stems q = hints m /\ width q = advance m) \/
  (exists k, runs dev_profile (new_program code globals locals) (Panic k)).
Proof. exact runs_meaning_unchecked. Qed.
Print Assumptions C56_unchecked.

(** There is at most one meaning, and what fails has none. *)
Theorem C56_unique : forall (globals locals : list (list byte)) (code : list byte)
    (ops ops' : list t2_operation) (m m' : machine),
  Z.of_nat (length globals) < 2 ^ 31 -> Z.of_nat (length locals) < 2 ^ 31 ->
  meaning globals locals code ops m -> meaning globals locals code ops' m' -> ops = ops' /\ m = m'.
Proof. exact (fun g l code ops ops' m m' Lg Ll => meaning_unique g l Lg Ll code ops m ops' m'). Qed.
Print Assumptions C56_unique.

Theorem C56_fails : forall (globals locals : list (list byte)) (cfg : config) (code : list byte)
    (r : outcome (list t2_operation * program)),
  Z.of_nat (length globals) < 2 ^ 31 -> Z.of_nat (length locals) < 2 ^ 31 ->
  runs cfg (new_program code globals locals) r -> (forall x, r <> Ok x) ->
  forall ops m, ~ meaning globals locals code ops m.
Proof. exact (fun g l cfg code r Lg Ll => meaning_fails g l Lg Ll cfg code r). Qed.
Print Assumptions C56_fails.

(** 5 1 2 hstem; 1 2 hintmask (2 hints, 1 byte); 3 4 add callsubr (the body is 1 rmoveto
    return); endchar.  The subroutine number is -107. *)
Definition sample_semantics_code : list byte :=
  [x90; x8c; x8d; x01; x8c; x8d; x13; xc0; x8e; x8f; x0c; x0a; x20; x0a; x0e].
Definition sample_semantics_body : list byte := [x8c; x15; x0b].
Definition sample_semantics_operations : list t2_operation :=
  [(T2_HStem, map f32_of_i32 [1; 2]); (T2_HintMask, []); (T2_RMoveTo, map f32_of_i32 [7; 1])].
Definition sample_semantics_state : machine :=
  {| values := []; hints := 2; advance := Some (f32_of_i32 5) |}.

Example C56_case : meaning [] [sample_semantics_body] sample_semantics_code
  sample_semantics_operations sample_semantics_state.
Proof.
  assert (N : forall bs, Forall (fun b => 32 <= bz b <= 246) bs ->
    each t2_number bs (map (fun b => f32_of_i32 (bz b - 139)) bs)) by exact numbers_of_bytes.
  assert (F : forall bs, forallb (fun b => (32 <=? bz b) && (bz b <=? 246)) bs = true ->
    Forall (fun b => 32 <= bz b <= 246) bs).
  { intros bs H. apply Forall_forall. intros b I. rewrite forallb_forall in H. specialize (H b I). lia. }
  exists (Ended [] sample_semantics_state). split; [|reflexivity].
  apply (executes_stem [] _ [x90; x8c; x8d] (map f32_of_i32 [5; 1; 2]) T2_HStem _ start [f32_of_i32 5]
    (map f32_of_i32 [1; 2]) 1).
  { exact (N [x90; x8c; x8d] (F [x90; x8c; x8d] eq_refl)). } { reflexivity. }
  { split; [reflexivity|]. split; [exists O; reflexivity|]. intros m (k & ->) L. cbn in *. lia. }
  { reflexivity. } { reflexivity. }
  apply (executes_mask [] _ [x8c; x8d] (map f32_of_i32 [1; 2]) T2_HintMask [xc0] _ _ 2).
  { exact (N [x8c; x8d] (F [x8c; x8d] eq_refl)). } { reflexivity. } { reflexivity. } { reflexivity. }
  { split; reflexivity || discriminate. }
  apply (executes_stack [] _ [x8e; x8f] (map f32_of_i32 [3; 4]) T2_Add _ _ (map f32_of_i32 [7])).
  { exact (N [x8e; x8f] (F [x8e; x8f] eq_refl)). } { exact (computes_add [] (f32_of_i32 3) (f32_of_i32 4)). }
  apply (executes_call [] _ [x20] [f32_of_i32 (-107)] T2_CallSubr [x0e] _ (map f32_of_i32 [7])
    (f32_of_i32 (-107)) sample_semantics_body [(T2_RMoveTo, map f32_of_i32 [7; 1])] sample_semantics_state []).
  { exact (N [x20] (F [x20] eq_refl)). } { reflexivity. }
  { left. split; [reflexivity|]. exists (-107), 107. split; [apply integral_of_i32; cbn; lia|].
    split; [left; split; reflexivity|]. split; [discriminate|reflexivity]. }
  { apply (executes_path [] _ [x8c] [f32_of_i32 1] T2_RMoveTo [x0b] _ [] (map f32_of_i32 [7; 1])).
    { exact (N [x8c] (F [x8c] eq_refl)). } { reflexivity. }
    { split; [reflexivity|]. split; [reflexivity|]. intros m -> _. apply le_n. }
    exact (executes_return [] _ [] [] [] sample_semantics_state (each_nil _)). }
  exact (executes_end [] _ [] [] [] sample_semantics_state (each_nil _)).
Qed.
Example C56_run : match run dev_profile 6 (new_program sample_semantics_code [] [sample_semantics_body]) with
  | Ok (ops, q) => ops = sample_semantics_operations /\ width q = advance sample_semantics_state /\ stems q = 2
  | _ => False end.
Proof. vm_compute. auto. Qed.

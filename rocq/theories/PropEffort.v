(** PropEffort: property C71. *)
From Verif Require Import Base Float T2Operation T2Program T2Effort SpecProgram SpecEffort EffortFacts.
Local Open Scope list_scope.
Local Open Scope Z_scope.

(** C71. Counting does not change what happens. *)
Theorem C71_agrees : forall (cfg : config) (p : program), fst (step_counted cfg p) = step cfg p.
Proof. exact step_counted_agrees. Qed.
Print Assumptions C71_agrees.

(** One call of [next] on 1 + 13 n bytes without subroutines takes n * 2^30 rounds. *)
Theorem C71_refuted : forall (cfg : config) (n : nat), exists (code : list byte) (q q' : program),
  length code = (1 + 13 * n)%nat /\ spent cfg (new_program code [] []) (Z.of_nat n * 2 ^ 30) q /\
  nexts cfg (new_program code [] []) (Ok (None, q')) /\ width q' = None.
Proof. exact grinds. Qed.
Print Assumptions C71_refuted.

(** A roll takes as many rounds as the shift says, and nothing else takes any. *)
Theorem C71_rounds : forall (cfg : config) (p : program) (e : list byte) (xs : list f32) (r : list byte)
    (st : list f32) (n j : f32) (N J : Z),
  routine p = e ++ t2_bytes T2_Roll ++ r -> each t2_number e xs -> stack p ++ xs = st ++ [n; j] ->
  stands_for n N -> 0 <= N <= Z.of_nat (length st) -> stands_for j J ->
  snd (step_counted cfg p) = if (N =? 0) || (J =? - 2 ^ 31) then 0 else Z.abs J.
Proof. exact step_rounds. Qed.
Print Assumptions C71_rounds.

(** Rolls that are rejected take none either. *)
Theorem C71_rejected : forall (cfg : config) (p : program) (k : error), step cfg p = Err k ->
  snd (step_counted cfg p) = 0.
Proof. exact step_failed_rounds. Qed.
Print Assumptions C71_rejected.

Theorem C71_others : forall (cfg : config) (p : program),
  (forall e xs r, each t2_number e xs -> routine p <> e ++ t2_bytes T2_Roll ++ r) ->
  snd (step_counted cfg p) = 0.
Proof. exact step_no_rounds. Qed.
Print Assumptions C71_others.

(** Fewer rounds than there are elements would do. *)
Theorem C71_needless : forall (j : Z) (xs ys : list f32),
  rotated j xs ys <-> rotated (j mod Z.of_nat (length xs)) xs ys.
Proof. exact rotated_less. Qed.
Print Assumptions C71_needless.

(** There are no more than 2^31 - 1 rounds per byte that is executed. *)
Theorem C71_partial : forall (cfg : config) (code : list byte) (g l : list (list byte)) (b d : nat) (k : Z) (q : program),
  Forall (fun c => (length c <= b)%nat) g -> Forall (fun c => (length c <= b)%nat) l ->
  spent cfg (new_program code g l) k q ->
  (exists ops' q', trace cfg (new_program code g l) ops' q' /\ (d < length (callers q'))%nat) \/
  k <= (2 ^ 31 - 1) * Z.of_nat (length code * S b ^ d).
Proof. exact spent_program. Qed.
Print Assumptions C71_partial.

Theorem C71_no_subroutines_partial : forall (cfg : config) (code : list byte) (k : Z) (q : program),
  spent cfg (new_program code [] []) k q -> k <= (2 ^ 31 - 1) * Z.of_nat (length code).
Proof. exact spent_alone. Qed.
Print Assumptions C71_no_subroutines_partial.

(** 7 8 9 3 -5 roll: five rounds, where one would do. *)
Example C71_case :
  step_counted dev_profile (new_program [x92; x93; x94; x8e; x86; x0c; x1e; x0e] [] []) =
    (Ok (Again {| routine := [x0e]; callers := []; global := []; local := []; stack := map f32_of_i32 [9; 7; 8];
                  stems := 0; width := None |}), 5) /\
  stands_for (f32_of_i32 3) 3 /\ stands_for (f32_of_i32 (-5)) (-5).
Proof. split; [vm_compute; reflexivity|]. split; [exact (small_stands 3 ltac:(reflexivity))|exact (small_stands (-5) ltac:(reflexivity))]. Qed.
Example C71_case_spent : exists q,
  spent dev_profile (new_program [x92; x93; x94; x8e; x86; x0c; x1e; x0e] [] []) 5 q.
Proof. eexists. change 5 with (5 + 0). eapply spent_again; [exact (proj1 C71_case)|constructor]. Qed.
(** 7 0 5 roll and 7 2 5 roll. *)
Example C71_case_none :
  snd (step_counted dev_profile (new_program [x92; x8b; x90; x0c; x1e; x0e] [] [])) = 0 /\
  step dev_profile (new_program [x92; x8d; x90; x0c; x1e; x0e] [] []) = Err Other.
Proof. split; vm_compute; reflexivity. Qed.

(** PropMachine: character strings after errors (C67, C68). *)
From Verif Require Import Base Float T2Number T2Operation T2Program T2Machine SpecMachine MachineFacts SessionFacts.
From Verif Require Import SpecProgram SessionBoundFacts.

(** * C67: What a failed call leaves behind *)

(** The two models of [next] return the same, and leave the same behind unless they fail. *)
Theorem C67_agrees : forall (left : cursor) (cfg : config) (fuel : nat) (p : program),
  match next cfg fuel p with
  | Ok (x, q) => advancing left cfg fuel p = (Ok x, q)
  | Err k => fst (advancing left cfg fuel p) = Err k
  | Panic k => fst (advancing left cfg fuel p) = Panic k
  | OutOfFuel => fst (advancing left cfg fuel p) = OutOfFuel
  end.
Proof. exact advancing_agrees. Qed.
Print Assumptions C67_agrees.

(** The state after an error, exactly; earlier calls may have failed too. *)
Theorem C67_left : forall (left : cursor) (cfg : config) (code : list byte) (globals locals : list (list byte))
    (rs : list (outcome (option t2_operation))) (p : program) (k : error) (q : program),
  session left cfg (new_program code globals locals) rs p ->
  ((exists fuel, advancing left cfg fuel p = (Err k, q)) <->
   exists p', trace cfg p [] p' /\ step cfg p' = Err k /\ leaves left p' q).
Proof. exact session_left. Qed.
Print Assumptions C67_left.

(** Errors or not, the subroutines stay the same, and so does the width once it is known. *)
Theorem C67_kept : forall (left : cursor) (cfg : config) (code : list byte) (globals locals : list (list byte))
    (rs rs' : list (outcome (option t2_operation))) (p q : program),
  session left cfg (new_program code globals locals) rs p -> session left cfg p rs' q ->
  global q = globals /\ local q = locals /\ forall w, width p = Some w -> width q = Some w.
Proof. intros left cfg code g l rs rs' p q. exact (session_kept left cfg code g l rs p rs' q). Qed.
Print Assumptions C67_kept.

(** After errors, a call panics for the same reason as before: overflow, if it is checked. *)
Theorem C67_panics : forall (left : cursor) (cfg : config) (code : list byte) (globals locals : list (list byte))
    (rs : list (outcome (option t2_operation))) (p : program) (k : panic),
  Z.of_nat (length globals) < 2 ^ 31 -> Z.of_nat (length locals) < 2 ^ 31 ->
  session left cfg (new_program code globals locals) rs p ->
  ((exists fuel, fst (advancing left cfg fuel p) = Panic k) <->
   k = ArithmeticOverflow /\ overflow_checks cfg = true /\
   exists q xs o r, trace cfg p [] q /\ ahead q xs (t2_bytes o ++ r) /\ extreme o (loaded q xs r)).
Proof. exact session_panics. Qed.
Print Assumptions C67_panics.

(** 1 2 9 1 roll rmoveto: [roll] fails, having taken 9 and 1, and [rmoveto] gets the others. *)
Example C67_case : forall left, let one := f32_of_i32 1 in let two := f32_of_i32 2 in
  exists q q',
    session left dev_profile (new_program [x8c; x8d; x94; x8c; x0c; x1e; x15] [] []) [Err Other] q /\
    stack q = [one; two] /\ routine q = [x15] /\
    session left dev_profile q [Ok (Some (T2_RMoveTo, [one; two]))] q'.
Proof.
  intros left one two. eexists _, _. split.
  { eapply (session_failed left dev_profile 1); [vm_compute; reflexivity|constructor]. }
  split; [reflexivity|]. split; [reflexivity|].
  eapply (session_returned left dev_profile 1); [vm_compute; reflexivity|constructor].
Qed.

(** * C68: Calls after errors *)

(** An error is not final. *)
Theorem C68_final_refuted : forall (left : cursor) (cfg : config), exists code q x,
  session left cfg (new_program code [] []) [Err Other; Ok (Some x)] q.
Proof. exact error_not_final. Qed.
Print Assumptions C68_final_refuted.

(** An unexpected end of file is, if a read that fails moves to the end: the end follows, for ever. *)
Theorem C68_final_partial : forall (cfg : config) (code : list byte) (globals locals : list (list byte))
    (rs rs' : list (outcome (option t2_operation))) (p : program) (fuel : nat) (q q' : program),
  session drops cfg (new_program code globals locals) rs p -> advancing drops cfg fuel p = (Err UnexpectedEof, q) ->
  session drops cfg q rs' q' -> q' = q /\ Forall (eq (Ok None)) rs'.
Proof. intros cfg code g l rs rs' p fuel q q'. exact (session_eof cfg code g l rs p fuel q rs' q'). Qed.
Print Assumptions C68_final_partial.

(** A client that ignores errors may get the same one for ever, if a read that fails does not move. *)
Theorem C68_ends_refuted : forall (cfg : config), exists code, forall n, exists q,
  session stays cfg (new_program code [] []) (repeat (Err UnexpectedEof) n) q.
Proof. exact error_for_ever. Qed.
Print Assumptions C68_ends_refuted.

(** That is for half an operator.  If it is passed over, every error and every operation takes a byte,
    unless there are subroutines. *)
Theorem C68_ends_partial : forall (left : cursor) (cfg : config) (code : list byte)
    (rs : list (outcome (option t2_operation))) (q : program),
  forward left -> value_left left 2 [x0c] = [] ->
  session left cfg (new_program code [] []) rs q -> (length (filter fruitful rs) <= length code)%nat.
Proof. exact code_progress. Qed.
Print Assumptions C68_ends_partial.

(** With subroutines, a client that ignores errors may get errors for ever however failed reads move,
    although calls never nest: a failed [endchar] in a subroutine forgets the caller. *)
Theorem C68_nested_refuted : forall (left : cursor) (cfg : config), exists code locals,
  (forall n, exists q, session left cfg (new_program code [] locals) (repeat (Err Other) n) q) /\
  forall rs p ops q,
    session left cfg (new_program code [] locals) rs p -> trace cfg p ops q -> (length (callers q) <= 1)%nat.
Proof. exact persists. Qed.
Print Assumptions C68_nested_refuted.

(** If the subroutines are without [endchar], either calls nest deeper than [depth] or there is a bound on
    what the calls give, which is by the length of the code and the length of the longest subroutine. *)
Theorem C68_subroutines_partial : forall (left : cursor) (cfg : config) (code : list byte)
    (globals locals : list (list byte)) (longest depth : nat) (rs : list (outcome (option t2_operation))) (q : program),
  forward left -> value_left left 2 [x0c] = [] ->
  Forall (fun c => (length c <= longest)%nat) globals -> Forall (fun c => (length c <= longest)%nat) locals ->
  Forall (fun c => ~ In x0e c) globals -> Forall (fun c => ~ In x0e c) locals ->
  session left cfg (new_program code globals locals) rs q ->
  (exists rs' p ops q', session left cfg (new_program code globals locals) rs' p /\
     trace cfg p ops q' /\ (depth < length (callers q'))%nat) \/
  (length (filter fruitful rs) <= length code * S longest ^ depth)%nat.
Proof. exact session_bound. Qed.
Print Assumptions C68_subroutines_partial.

(** 02 is no operator; 1 hmoveto; a number cut short; the end. *)
Example C68_case : forward drops /\ forward stays /\ exists q,
  session drops release_profile (new_program [x02; x8c; x16; xff; x00] [] [])
    [Err Other; Ok (Some (T2_HMoveTo, [f32_of_i32 1])); Err UnexpectedEof; Ok None; Ok None] q.
Proof.
  split; [intros n s; split; exists s; cbn; rewrite app_nil_r; reflexivity|].
  split; [intros n s; split; exists []; reflexivity|]. eexists.
  eapply (session_failed _ _ 1); [vm_compute; reflexivity|].
  eapply (session_returned _ _ 1); [vm_compute; reflexivity|].
  eapply (session_failed _ _ 1); [vm_compute; reflexivity|].
  eapply (session_returned _ _ 1); [vm_compute; reflexivity|].
  eapply (session_returned _ _ 1); [vm_compute; reflexivity|]. constructor.
Qed.

(** A subroutine with something that is no operator, which is called twice: 02 1 hmoveto return. *)
Example C68_subroutines_case : exists q, let sub := [x02; x8c; x16; x0b] in
  (length sub <= 4)%nat /\ ~ In x0e sub /\ value_left drops 2 [x0c] = [] /\
  session drops release_profile (new_program [x20; x0a; x20; x0a] [] [sub])
    [Err Other; Ok (Some (T2_HMoveTo, [f32_of_i32 1])); Err Other; Ok (Some (T2_HMoveTo, [f32_of_i32 1])); Ok None] q.
Proof.
  eexists. split; [cbn; lia|]. split; [cbn; intuition discriminate|]. split; [reflexivity|].
  eapply (session_failed _ _ 2); [vm_compute; reflexivity|].
  eapply (session_returned _ _ 1); [vm_compute; reflexivity|].
  eapply (session_failed _ _ 3); [vm_compute; reflexivity|].
  eapply (session_returned _ _ 1); [vm_compute; reflexivity|].
  eapply (session_returned _ _ 3); [vm_compute; reflexivity|]. constructor.
Qed.

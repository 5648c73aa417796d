(** MachineFacts: the state after errors. *)
From Verif Require Import Base Float T2Number T2Operation T2Program T2Machine BaseFacts.
Local Open Scope list_scope.
Local Open Scope Z_scope.

(** ** The two models agree *)

Definition agree (m : outcome stepped) (r : outcome (option (option t2_operation)) * program) : Prop :=
  match m with
  | Ok (Yield x p) => r = (Ok (Some x), p)
  | Ok (Again p) => r = (Ok None, p)
  | Err e => fst r = Err e
  | Panic k => fst r = Panic k
  | OutOfFuel => fst r = OutOfFuel
  end.

(** A part that changes the stack only. *)
Definition agree_stack (p : program) (m : outcome (list f32)) (r : outcome unit * program) : Prop :=
  match m with
  | Ok st => r = (Ok tt, set_stack p st)
  | Err e => fst r = Err e
  | Panic k => fst r = Panic k
  | OutOfFuel => fst r = OutOfFuel
  end.

Lemma agree_on p m a : agree_stack p m (a p) -> agree (with_stack p m) (on a p).
Proof.
  unfold on, andthen, give. destruct m; cbn; destruct (a p) as [[] q]; cbn; intros H; try discriminate; try congruence.
Qed.

Section machine.
  Context (left : cursor) (cfg : config).

  Ltac pops := repeat match goal with
    | |- context [vec_pop ?s] => destruct (vec_pop s) as [[? ?]|]; cbn
    | |- context [if ?b then _ else _] => destruct b; cbn
    end; try reflexivity.

  Lemma clearing_agrees o alternatives p : agree (clear o alternatives p) (clearing o alternatives p).
  Proof.
    unfold clear, clearing, andthen, get, change, raise, give, pure. cbn.
    destruct (fold_left _ _ _) as [[|m]|]; cbn -[Nat.sub nth_error firstn skipn]; [destruct p; reflexivity| |reflexivity].
    destruct (width p) eqn:W; cbn; [destruct p; cbn in *; subst; reflexivity|].
    destruct (nth_error _ _); reflexivity.
  Qed.

  Lemma unwinding_agrees p : forall cs r,
    match unwind r cs with
    | Ok r' => unwinding cs (set_frames p r cs) = (Ok tt, set_frames p r' [])
    | Err e => fst (unwinding cs (set_frames p r cs)) = Err e
    | _ => False
    end.
  Proof.
    induction cs as [|c cs IH]; intros r; cbn; [reflexivity|]. unfold andthen, get, change; cbn.
    destruct (done r); cbn; [|reflexivity]. exact (IH c).
  Qed.

  Lemma calling_agrees subs p : agree (let* p := call cfg subs p in Ok (Again p)) (calling cfg subs p).
  Proof.
    unfold call, calling, pop_i32, pop_integer, pop_stack, andthen, get, change, raise, give, pure.
    destruct (vec_pop (stack p)) as [[x st]|]; cbn; [|reflexivity].
    destruct (f32_eqb _ _); cbn; [|reflexivity]. destruct (add_i32 _ _ _); cbn; try reflexivity.
    destruct (_ || _); cbn; [reflexivity|]. destruct (nth_error _ _); reflexivity.
  Qed.

  Lemma roll_agrees p : agree_stack p (roll cfg (stack p))
    (andthen pop_integer (fun shift => andthen pop_integer (fun span => rolling cfg shift span)) p).
  Proof.
    unfold roll, pop_i32, pop_integer, pop_stack, rolling, andthen, get, change, raise, give, pure.
    destruct (vec_pop (stack p)) as [[x st]|]; cbn; [|reflexivity].
    destruct (f32_eqb _ _); cbn; [|reflexivity].
    destruct (vec_pop st) as [[y st']|]; cbn; [|reflexivity].
    destruct (f32_eqb _ _); cbn; [|reflexivity].
    destruct (_ <? 0); cbn; [reflexivity|]. destruct (_ <? _); cbn; [reflexivity|]. destruct (0 <? _); cbn; [|reflexivity].
    destruct (_ ?= 0); cbn; [reflexivity| |].
    - destruct (neg_i32 _ _); cbn; try reflexivity. destruct (Z.iter _ _ _); reflexivity.
    - destruct (Z.iter _ _ _); reflexivity.
  Qed.

  Lemma stem_agrees o p : agree
    (let* n := add_u64 cfg (stems p) (Z.shiftr (Z.of_nat (length (stack p))) 1) in clear o [[equal 2; maybe_modulo 2]] (set_stems p n))
    ((let! st := get stack in
      let! k := get stems in
      let! n := pure (add_u64 cfg k (Z.shiftr (Z.of_nat (length st)) 1)) in
      do! change (fun p => set_stems p n) in
      clearing o [[equal 2; maybe_modulo 2]]) p).
  Proof.
    unfold andthen at 1 2 3 4, get, pure, change. destruct (add_u64 _ _ _); cbn [bind]; try reflexivity. apply clearing_agrees.
  Qed.

  Lemma mask_agrees o p : agree
    (let* n := add_u64 cfg (stems p) (Z.shiftr (Z.of_nat (length (stack p))) 1) in
     let* m := add_u64 cfg n 7 in
     let* (_, r) := take_vec cfg 1 take_byte (Z.shiftr m 3) (routine p) in
     clear o [[equal 0]] (set_routine (set_stems p n) r))
    ((let! st := get stack in
      let! k := get stems in
      let! n := pure (add_u64 cfg k (Z.shiftr (Z.of_nat (length st)) 1)) in
      do! change (fun p => set_stems p n) in
      let! m := pure (add_u64 cfg n 7) in
      do! take_bytes left cfg (Z.shiftr m 3) in
      clearing o [[equal 0]]) p).
  Proof.
    unfold andthen at 1 2 3 4 5 6, get, pure, change. destruct (add_u64 _ _ _) as [n| | |]; cbn [bind]; try reflexivity.
    destruct (add_u64 _ _ _) as [m| | |]; cbn [bind]; try reflexivity.
    unfold take_bytes, taking. cbn [routine set_stems].
    destruct (take_vec _ _ _ _ _) as [[v r]| | |]; cbn [bind]; try reflexivity. apply clearing_agrees.
  Qed.

  Lemma end_agrees p : agree (execute cfg T2_EndChar p) (executing left cfg T2_EndChar p).
  Proof.
    cbn [execute executing]. unfold andthen at 1, get at 1. unfold andthen at 1.
    pose proof (unwinding_agrees p (callers p) (routine p)) as H.
    replace (set_frames p (routine p) (callers p)) with p in H by (destruct p; reflexivity).
    destruct (unwind _ _) as [r|e| |]; cbn [bind]; try contradiction.
    - rewrite H. unfold andthen, get, give, change. cbn [stack width set_frames].
      destruct (vec_pop (stack p)) as [[x st]|]; destruct (width p) eqn:W; cbn; try (destruct p; cbn in *; subst; reflexivity).
    - destruct (unwinding _ _) as [x q]. cbn in H. subst. reflexivity.
  Qed.

  Lemma executing_agrees o p : agree (execute cfg o p) (executing left cfg o p).
  Proof.
    destruct o; try apply end_agrees; cbn [execute executing]; try apply clearing_agrees; try apply calling_agrees; try apply stem_agrees;
      try apply mask_agrees; try reflexivity;
      try (apply agree_on; apply roll_agrees);
      try (apply agree_on;
           unfold unary, binary, pop, pop_bool, pop_i32, pop_any, pop_truth, pop_integer, pop_stack, push_truth, push_any, push_bool, push, peek_stack,
             andthen, get, change, raise, give, pure; pops; fail).
    - unfold andthen, get, change, give, raise. destruct (callers p); reflexivity.
    - apply agree_on. unfold push_any, push, peek_stack, andthen, change. destruct (read_from_top _ _); reflexivity.
    - apply agree_on. unfold pop_i32, pop_integer, pop_stack, push_any, push, peek_stack, andthen, change, raise, give.
      pops; destruct (read_from_top _ _); reflexivity.
  Qed.

  Definition agree_read {A : Type} (p : program) (m : outcome (A * list byte)) (r : outcome A * program) : Prop :=
    match m with
    | Ok (a, t) => r = (Ok a, set_routine p t)
    | Err e => fst r = Err e
    | Panic k => fst r = Panic k
    | OutOfFuel => fst r = OutOfFuel
    end.

  Lemma take_operand_agrees p : agree_read p (read_operand (routine p)) (take_operand left p).
  Proof.
    unfold read_operand, take_operand, take, taking, give, raise.
    unfold andthen at 1. destruct (routine p) as [|b s]; cbn [take_u8 bind]; [reflexivity|].
    repeat match goal with
    | |- context [if ?c then _ else _] => destruct c
    end; try reflexivity; unfold andthen; cbn [routine set_routine].
    - destruct s as [|b1 s]; reflexivity.
    - destruct s as [|b1 s]; reflexivity.
    - destruct s as [|b1 [|b2 s]]; reflexivity.
    - destruct s as [|b1 [|b2 [|b3 [|b4 s]]]]; reflexivity.
  Qed.

  Lemma pushing_agrees fuel : forall p,
    match push_operands fuel (stack p) (routine p) with
    | Ok ((st, code), r) => pushing left fuel p = (Ok code, set_stack (set_routine p r) st)
    | Err e => fst (pushing left fuel p) = Err e
    | Panic k => fst (pushing left fuel p) = Panic k
    | OutOfFuel => fst (pushing left fuel p) = OutOfFuel
    end.
  Proof.
    induction fuel as [|fuel IH]; intros p; [reflexivity|]. cbn [push_operands pushing].
    unfold andthen, peek. destruct (peek_u8 (routine p)) as [code|e|k|]; cbn [bind]; try reflexivity.
    destruct (t2_starts_operand code).
    - pose proof (take_operand_agrees p) as H. destruct (read_operand (routine p)) as [[x r]|e|k|]; cbn [bind]; cbn in H.
      + rewrite H. unfold push_any, change. cbn [stack routine set_stack set_routine].
        specialize (IH (set_stack (set_routine p r) (stack p ++ [x]))). cbn [stack routine set_stack set_routine] in IH.
        unfold push. destruct (push_operands _ _ _) as [[[st c] t]|e|k|]; exact IH.
      + destruct (take_operand left p) as [y q]. cbn in H. subst. reflexivity.
      + destruct (take_operand left p) as [y q]. cbn in H. subst. reflexivity.
      + destruct (take_operand left p) as [y q]. cbn in H. subst. reflexivity.
    - unfold give. destruct p; reflexivity.
  Qed.

  Lemma round_agrees p : agree (step cfg p) (round left cfg p).
  Proof.
    unfold step, round. unfold andthen at 1, get. destruct (done (routine p)); [reflexivity|].
    unfold andthen at 1. pose proof (pushing_agrees (S (length (routine p))) p) as H.
    destruct (push_operands _ _ _) as [[[st code] r]|e|k|]; cbn [bind];
      try (destruct (pushing _ _ _) as [y q]; cbn in H; subst; reflexivity).
    rewrite H. unfold andthen at 1. unfold read_t2_operator. destruct (code =? 12).
    - unfold take at 1, taking. cbn [routine set_stack set_routine]. destruct (take_u16 r) as [[c t]|e|k|]; cbn [bind]; try reflexivity.
      unfold andthen, pure. destruct (t2_operator_from c) as [o|e|k|]; cbn [bind]; try reflexivity. apply executing_agrees.
    - unfold take at 1, taking. cbn [routine set_stack set_routine]. destruct (take_u8 r) as [[c t]|e|k|]; cbn [bind]; try reflexivity.
      unfold andthen, pure. destruct (t2_operator_from c) as [o|e|k|]; cbn [bind]; try reflexivity. apply executing_agrees.
  Qed.

  (** What is returned by [next] once more. *)
  Definition agree_next (m : outcome (option t2_operation * program)) (r : outcome (option t2_operation) * program) : Prop :=
    match m with
    | Ok (x, p) => r = (Ok x, p)
    | Err e => fst r = Err e
    | Panic k => fst r = Panic k
    | OutOfFuel => fst r = OutOfFuel
    end.

  Lemma advancing_agrees fuel : forall p, agree_next (next cfg fuel p) (advancing left cfg fuel p).
  Proof.
    induction fuel as [|fuel IH]; intros p; [reflexivity|]. cbn [next advancing]. unfold andthen.
    pose proof (round_agrees p) as H. destruct (step cfg p) as [[x q|q]|e|k|]; cbn [bind]; unfold agree in H.
    - rewrite H. reflexivity.
    - rewrite H. apply IH.
    - destruct (round _ _ _) as [y q]. cbn in H. subst. reflexivity.
    - destruct (round _ _ _) as [y q]. cbn in H. subst. reflexivity.
    - destruct (round _ _ _) as [y q]. cbn in H. subst. reflexivity.
  Qed.
End machine.

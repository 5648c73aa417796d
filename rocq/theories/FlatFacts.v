(** FlatFacts: subroutines can be done without. *)
From Coq Require Import Reals.
From Verif Require Import Base Float T2Number T2Operation T2Program BaseFacts SpecProgram T2NumberFacts StepFacts
  RunFacts ProgramFacts SpecRewrite RewriteFacts IdentityFacts SpecInline InlineFacts InlineSamples SpecFlat WidthSamples.
Local Open Scope list_scope.
Local Open Scope Z_scope.

Section Flat.
Context (cfg : config) (k : nat) (g l : list (list byte)).
Notation rewritten := (rewritten cfg k g l [] [] (fun _ _ => False)).

Lemma literal_not_nil c : literal k g l c -> c <> [].
Proof.
  assert (B : forall o r, t2_bytes o ++ r <> []).
  { intros o r E. apply app_eq_nil in E as [E _]. exact (t2_bytes_not_nil o E). }
  assert (A : forall e r, r <> [] -> e ++ r <> (@nil byte)) by (intros [] r; auto; discriminate).
  induction 1; auto.
Qed.

Lemma flat_not_nil c : flat k c -> c <> [].
Proof.
  assert (B : forall o r, t2_bytes o ++ r <> []).
  { intros o r E. apply app_eq_nil in E as [E _]. exact (t2_bytes_not_nil o E). }
  assert (A : forall e r, r <> [] -> e ++ r <> (@nil byte)) by (intros [] r; auto; discriminate).
  induction 1; auto; apply t2_bytes_not_nil.
Qed.

Lemma literal_flat c : literal k g l c -> forall returns,
  (forall c1 rs, returns = c1 :: rs -> exists c', rewritten c1 rs c' /\ flat k c') ->
  exists c', rewritten c returns c' /\ flat k c'.
Proof.
  induction 1 as [e x c N L IH|o c P L IH|o m c M Lm L IH|e a o body c N C Lb IHb L IH|rest|rest]; intros returns K.
  - destruct (IH returns K) as (c' & R & F). exists (e ++ c'). split; [|eapply flat_number; eauto].
    apply rewritten_piece; auto.
    + apply alike_refl, (one_number _ _ N).
    + eapply literal_not_nil; eauto.
    + apply flat_not_nil; auto.
  - destruct (IH returns K) as (c' & R & F). exists (t2_bytes o ++ c'). split; [apply rewritten_operator|apply flat_operator]; auto.
  - destruct (IH returns K) as (c' & R & F). exists (t2_bytes o ++ m ++ c'). split; [apply rewritten_mask|apply flat_mask]; auto.
  - destruct (IH returns K) as (c' & R & F).
    destruct (IHb (c :: returns)) as (b' & Rb & Fb).
    { intros c1 rs E. injection E as <- <-. eauto. }
    exists b'. split; auto. eapply rewritten_inline; eauto.
  - destruct returns as [|c1 rs].
    + exists (t2_bytes T2_Return). split; [|apply flat_return]. rewrite <- (app_nil_r (t2_bytes T2_Return)) at 2. apply rewritten_returns.
    + destruct (K c1 rs eq_refl) as (c' & R & F). exists c'. split; auto. apply rewritten_return. exact R.
  - exists (t2_bytes T2_EndChar). split; [|apply flat_end]. rewrite <- (app_nil_r (t2_bytes T2_EndChar)) at 2. apply rewritten_end. auto.
Qed.
End Flat.

Lemma flattened cfg k (Bk : Z.of_nat k < 2 ^ 60) g l code : Z.of_nat (length g) < 2 ^ 31 -> Z.of_nat (length l) < 2 ^ 31 ->
  masks_of cfg k (new_program code g l) -> ends_cleanly cfg (new_program code g l) -> literal k g l code ->
  exists code', flat k code' /\ seen_alike cfg (new_program code g l) (new_program code' [] []).
Proof.
  intros Bg Bl M C L. destruct (literal_flat cfg k g l code L []) as (code' & R & F); [discriminate|].
  exists code'. split; auto.
  apply (programs_inlined cfg k Bk g l [] [] Bg Bl ltac:(reflexivity) ltac:(reflexivity) (fun _ _ => False)); auto. contradiction.
Qed.

Lemma flattened_success cfg k (Bk : Z.of_nat k < 2 ^ 60) g l code ops w : Z.of_nat (length g) < 2 ^ 31 -> Z.of_nat (length l) < 2 ^ 31 ->
  masks_of cfg k (new_program code g l) -> literal k g l code -> shows cfg (new_program code g l) (Ok (ops, w)) ->
  exists code', flat k code' /\ shows cfg (new_program code' [] []) (Ok (ops, w)).
Proof.
  intros Bg Bl M L S. assert (C : ends_cleanly cfg (new_program code g l)).
  { destruct S as ([[ops' q]| | |] & R & E); try discriminate. eapply success_cleanly; eauto. }
  destruct (flattened cfg k Bk g l code Bg Bl M C L) as (code' & F & A). exists code'. split; auto. apply A, S.
Qed.

Lemma flattened_halts cfg k (Bk : Z.of_nat k < 2 ^ 60) g l code : Z.of_nat (length g) < 2 ^ 31 -> Z.of_nat (length l) < 2 ^ 31 ->
  masks_of cfg k (new_program code g l) -> ends_cleanly cfg (new_program code g l) -> literal k g l code ->
  exists r, runs cfg (new_program code g l) r.
Proof.
  intros Bg Bl M C L. destruct (flattened cfg k Bk g l code Bg Bl M C L) as (code' & F & _ & A).
  destruct (terminates_alone cfg code') as (r & N & R).
  assert (S : exists v, shows cfg (new_program code' [] []) v) by (eexists; exists r; split; [split; eauto|reflexivity]).
  destruct S as (v & S). apply A in S as (r' & R' & _). eauto.
Qed.

(** The glyph of InlineSamples *)
Lemma nested_literal : literal 0 nested_globals nested_locals nested_code.
Proof.
  assert (Line : literal 0 nested_globals nested_locals called_line).
  { apply (literal_number _ _ _ [x8e] (f32_of_i32 3)); [apply number_sample; vm_compute; reflexivity|].
    apply literal_operator; [reflexivity|]. rewrite <- (app_nil_r (t2_bytes T2_Return)). apply literal_return. }
  assert (S2 : called nested_globals nested_locals T2_CallGSubr (f32_of_i32 (-106)) called_line).
  { right. split; [reflexivity|]. apply second_selected; reflexivity. }
  unfold nested_code. rewrite <- app_assoc.
  apply (literal_number _ _ _ [x90] (f32_of_i32 5)); [apply number_sample; vm_compute; reflexivity|].
  apply (literal_number _ _ _ [x91] (f32_of_i32 6)); [apply number_sample; vm_compute; reflexivity|].
  apply literal_operator; [reflexivity|].
  eapply (literal_call _ _ _ [x20] (f32_of_i32 (-107)) T2_CallSubr); [exact first_number| | |].
  - left. split; [reflexivity|]. apply first_selected; reflexivity.
  - rewrite <- app_assoc.
    apply (literal_number _ _ _ [x8c] (f32_of_i32 1)); [apply number_sample; vm_compute; reflexivity|].
    apply (literal_number _ _ _ [x8d] (f32_of_i32 2)); [apply number_sample; vm_compute; reflexivity|].
    apply literal_operator; [reflexivity|].
    eapply (literal_call _ _ _ [x21] (f32_of_i32 (-106)) T2_CallGSubr); [exact second_number|exact S2|exact Line|].
    apply literal_return.
  - eapply (literal_call _ _ _ [x21] (f32_of_i32 (-106)) T2_CallGSubr); [exact second_number|exact S2|exact Line|].
    apply literal_end.
Qed.

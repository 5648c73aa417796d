(** RewriteSamples: glyphs for the examples of PropRewrite. *)
From Coq Require Import Reals.
From Verif Require Import Base Float T2Number T2Operation T2Program SpecProgram SpecRewrite RunFacts ExecutionFacts ProgramFacts RewriteFacts
  IdentityFacts.
Local Open Scope list_scope.
Local Open Scope Z_scope.

Lemma new_valid code g l : valid_program (new_program code g l) /\ possible (new_program code g l).
Proof. split; [split; [apply Forall_nil|discriminate]|unfold possible; cbn; lia]. Qed.

Lemma programs_rewritten cfg k code code' g g' l l' :
  Z.of_nat k < 2 ^ 60 -> masks_of cfg k (new_program code g l) ->
  replaced cfg k code code' -> Forall2 (replaced cfg k) g g' -> Forall2 (replaced cfg k) l l' ->
  seen_alike cfg (new_program code g l) (new_program code' g' l').
Proof.
  intros B M R G L. destruct (new_valid code g l). apply (twin_seen cfg k B); auto.
  constructor; auto. constructor.
Qed.

Lemma alike_equivalence cfg :
  (forall u, straight u -> alike cfg u u) /\ (forall u v, alike cfg u v -> alike cfg v u) /\
  (forall u v w, alike cfg u v -> alike cfg v w -> alike cfg u w).
Proof. split; [|split]; intros; eauto using alike_refl, alike_sym, alike_trans. Qed.

Lemma works_determined cfg u st : straight u -> exists r, works cfg u st r /\ forall r', works cfg u st r' -> r' = r.
Proof.
  intros S'. destruct (works_total cfg u S' st) as (r & W). exists r. split; auto. intros r' W'.
  symmetry. eapply works_unique; eauto.
Qed.

(** 1 2 add, and 3. *)
Lemma end_matters cfg : exists u v, alike cfg u v /\ ~ seen_alike cfg (new_program u [] []) (new_program v [] []).
Proof.
  exists ([x8c] ++ [x8d] ++ t2_bytes T2_Add), [x8e]. split.
  - apply (expressions_alike cfg _ _ (Add (Number (f32_of_i32 1)) (Number (f32_of_i32 2))) (Number (f32_of_i32 3))).
    + apply encode_add; apply encode_number; apply number_sample; vm_compute; reflexivity.
    + apply encode_number; apply number_sample; vm_compute; reflexivity.
    + vm_compute. reflexivity.
  - eapply seen_differently; (split; [discriminate|]); exists 9%nat; destruct cfg as [[] [] []]; vm_compute; reflexivity.
Qed.

(** 1 3 hstemhm hintmask, 2 1 exch or 1 2, hmoveto endchar: the first number is the mask. *)
Lemma masks_matter cfg : exists k code code',
  replaced cfg k code code' /\ ~ seen_alike cfg (new_program code [] []) (new_program code' [] []).
Proof.
  exists 0%nat, ([x8c; x8e] ++ t2_bytes T2_HStemHM ++ t2_bytes T2_HintMask ++ [] ++ ([x8d] ++ [x8c] ++ t2_bytes T2_Exch) ++ [x16; x0e]),
    ([x8c; x8e] ++ t2_bytes T2_HStemHM ++ t2_bytes T2_HintMask ++ [] ++ ([x8c] ++ [x8d]) ++ [x16; x0e]). split.
  - apply replaced_piece; [|discriminate|discriminate|].
    { apply alike_refl. apply (straight_number [x8c] (f32_of_i32 1)); [apply number_sample; vm_compute; reflexivity|].
      apply (straight_number [x8e] (f32_of_i32 3) []); [apply number_sample; vm_compute; reflexivity|constructor]. }
    apply replaced_operator; [reflexivity|]. apply replaced_mask; [reflexivity|reflexivity|].
    apply replaced_piece; [|discriminate|discriminate|apply replaced_not].
    apply identity_alike, (numbers_exch _ (f32_of_i32 2) _ (f32_of_i32 1)); apply number_sample; vm_compute; reflexivity.
  - intros [S1 S2]. eapply (seen_differently cfg (new_program _ [] []) (new_program _ [] [])); [| |split; intros; symmetry; [apply S1|apply S2]];
      (split; [discriminate|]); exists 9%nat; destruct cfg as [[] [] []]; vm_compute; reflexivity.
Qed.

(** 1 3 hstemhm, 5 6 exch hintmask, 2 3 add 4 rmoveto, -107 callsubr, endchar. *)
Definition verbose_code : list byte :=
  [x8c; x8e] ++ t2_bytes T2_HStemHM ++ ([x90] ++ [x91] ++ t2_bytes T2_Exch) ++ t2_bytes T2_HintMask ++ [xc0] ++
  ([x8d] ++ [x8e] ++ t2_bytes T2_Add) ++ ([x8f] ++ []) ++ t2_bytes T2_RMoveTo ++ ([x20] ++ []) ++ t2_bytes T2_CallSubr ++ [x0e].
Definition terse_code : list byte :=
  [x8c; x8e] ++ t2_bytes T2_HStemHM ++ ([x91] ++ [x90]) ++ t2_bytes T2_HintMask ++ [xc0] ++
  [x90] ++ ([x8f] ++ []) ++ t2_bytes T2_RMoveTo ++ ([x20] ++ []) ++ t2_bytes T2_CallSubr ++ [x0e].

(** 7 neg abs hlineto return. *)
Definition verbose_local : list (list byte) :=
  [([x92] ++ []) ++ (t2_bytes T2_Neg ++ t2_bytes T2_Abs) ++ t2_bytes T2_HLineTo ++ t2_bytes T2_Return].
Definition terse_local : list (list byte) := [([x92] ++ []) ++ t2_bytes T2_Abs ++ t2_bytes T2_HLineTo ++ t2_bytes T2_Return].

Lemma one_number cfg e x : t2_number e x -> alike cfg (e ++ []) (e ++ []).
Proof. intros N. apply alike_refl. eapply straight_number; eauto. constructor. Qed.

Ltac sample := apply number_sample; vm_compute; reflexivity.

Lemma sample_code cfg : replaced cfg 1 verbose_code terse_code.
Proof.
  unfold verbose_code, terse_code.
  apply replaced_piece; [|discriminate|discriminate|].
  { apply alike_refl. apply (straight_number [x8c] (f32_of_i32 1)); [sample|].
    apply (straight_number [x8e] (f32_of_i32 3) []); [sample|constructor]. }
  apply replaced_operator; [reflexivity|].
  apply replaced_piece; [|discriminate|discriminate|].
  { apply identity_alike, (numbers_exch _ (f32_of_i32 5) _ (f32_of_i32 6)); sample. }
  apply replaced_mask; [reflexivity|reflexivity|].
  apply replaced_piece; [|discriminate|discriminate|].
  { apply (expressions_alike cfg _ _ (Add (Number (f32_of_i32 2)) (Number (f32_of_i32 3))) (Number (f32_of_i32 5))).
    - apply encode_add; apply encode_number; sample.
    - apply encode_number; sample.
    - vm_compute. reflexivity. }
  apply replaced_piece; [|discriminate|discriminate|apply replaced_not].
  apply (one_number cfg _ (f32_of_i32 4)). sample.
Qed.

Lemma sample_local cfg : Forall2 (replaced cfg 1) verbose_local terse_local.
Proof.
  constructor; [|constructor]. apply replaced_piece; [|discriminate|discriminate|].
  { apply (one_number cfg _ (f32_of_i32 7)). sample. }
  apply replaced_piece; [|discriminate|discriminate|apply replaced_not].
  apply identity_alike, neg_abs.
Qed.

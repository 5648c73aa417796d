(** PropRewrite: property C81. *)
From Coq Require Import Reals.
From Verif Require Import Base Float T2Number T2Operation T2Program SpecRewrite RunFacts ProgramFacts RewriteFacts IdentityFacts
  RewriteSamples.
Local Open Scope list_scope.
Local Open Scope Z_scope.

(** C81. If pieces of the code and of the subroutines are replaced by pieces that do the same, a program returns the
    same operations and the same width, or fails in the same way. *)
Theorem C81_rewritten : forall (cfg : config) (k : nat) (code code' : list byte) (global global' local local' : list (list byte)),
  Z.of_nat k < 2 ^ 60 -> masks_of cfg k (new_program code global local) ->
  replaced cfg k code code' -> Forall2 (replaced cfg k) global global' -> Forall2 (replaced cfg k) local local' ->
  seen_alike cfg (new_program code global local) (new_program code' global' local').
Proof. exact programs_rewritten. Qed.
Print Assumptions C81_rewritten.

(** Pieces that do the same can be put one after the other. *)
Theorem C81_composed : forall (cfg : config) (u v u' v' : list byte),
  alike cfg u v -> alike cfg u' v' -> alike cfg (u ++ u') (v ++ v').
Proof. exact alike_app. Qed.
Print Assumptions C81_composed.

(** Doing the same is an equivalence. *)
Theorem C81_equivalence : forall (cfg : config),
  (forall u, straight u -> alike cfg u u) /\
  (forall u v, alike cfg u v -> alike cfg v u) /\
  (forall u v w, alike cfg u v -> alike cfg v w -> alike cfg u w).
Proof. exact alike_equivalence. Qed.
Print Assumptions C81_equivalence.

(** Every piece has exactly one effect on every stack. *)
Theorem C81_determined : forall (cfg : config) (u : list byte) (st : list f32),
  straight u -> exists r, works cfg u st r /\ forall r', works cfg u st r' -> r' = r.
Proof. exact works_determined. Qed.
Print Assumptions C81_determined.

(** The code of an expression does the same as that of another with the same value; in particular, as a number does. *)
Theorem C81_folded : forall (cfg : config) (c c' : list byte) (a a' : expression),
  expression_encoding c a -> expression_encoding c' a' -> evaluate a = evaluate a' -> alike cfg c c'.
Proof. exact expressions_alike. Qed.
Print Assumptions C81_folded.

(** Some pieces that do the same. *)
Theorem C81_identities : forall (cfg : config) (u v : list byte), identity u v -> alike cfg u v.
Proof. exact identity_alike. Qed.
Print Assumptions C81_identities.

(** Something has to follow: at the very end numbers are an error, and operators are not. *)
Theorem C81_at_end : forall (cfg : config), exists u v,
  alike cfg u v /\ ~ seen_alike cfg (new_program u [] []) (new_program v [] []).
Proof. exact end_matters. Qed.
Print Assumptions C81_at_end.

(** The sizes of the masks have to be right: the bytes after a mask operator may belong to the mask. *)
Theorem C81_masks : forall (cfg : config), exists k code code',
  replaced cfg k code code' /\ ~ seen_alike cfg (new_program code [] []) (new_program code' [] []).
Proof. exact masks_matter. Qed.
Print Assumptions C81_masks.

(** A glyph with a mask and a subroutine; a constant is folded, operands are exchanged, and a sign is dropped. *)
Example C81_case : seen_alike dev_profile (new_program verbose_code [] verbose_local) (new_program terse_code [] terse_local).
Proof.
  apply (C81_rewritten dev_profile 1).
  - reflexivity.
  - apply (masks_ok_sound dev_profile 1 20). vm_compute. reflexivity.
  - exact (sample_code dev_profile).
  - constructor.
  - exact (sample_local dev_profile).
Qed.
Example C81_case_shows : exists ops q, run dev_profile 20 (new_program terse_code [] terse_local) = Ok (ops, q) /\
  map fst ops = [T2_HStemHM; T2_HintMask; T2_RMoveTo; T2_HLineTo] /\ terse_code <> verbose_code /\ terse_local <> verbose_local.
Proof.
  eexists _, _. split; [vm_compute; reflexivity|]. split; [reflexivity|]. split; discriminate.
Qed.
Example C81_case_folded : expression_encoding ([x8d] ++ [x8e] ++ t2_bytes T2_Add) (Add (Number (f32_of_i32 2)) (Number (f32_of_i32 3))) /\
  expression_encoding [x90] (Number (f32_of_i32 5)) /\
  evaluate (Add (Number (f32_of_i32 2)) (Number (f32_of_i32 3))) = evaluate (Number (f32_of_i32 5)).
Proof.
  split; [|split].
  - apply encode_add; apply encode_number; apply number_sample; vm_compute; reflexivity.
  - apply encode_number; apply number_sample; vm_compute; reflexivity.
  - vm_compute. reflexivity.
Qed.
Example C81_case_identity : identity ([x8d] ++ [x8e] ++ t2_bytes T2_Roll) (t2_bytes T2_Exch).
Proof.
  apply (roll_exch _ (f32_of_i32 2) _ (f32_of_i32 3) 3); try (apply number_sample; vm_compute; reflexivity);
    try (apply integral_of_i32; reflexivity). reflexivity.
Qed.
Example C81_case_alike : alike dev_profile ([x8d] ++ [x8e] ++ t2_bytes T2_Roll) (t2_bytes T2_Exch).
Proof. apply C81_identities, C81_case_identity. Qed.

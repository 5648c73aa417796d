(** BoundFacts: how large the numbers of character strings are. *)
From Coq Require Import Reals Lra.
From Verif Require Import Base Float T2Number BaseFacts SpecProgram FloatFacts T2NumberFacts.
From Flocq Require Import Core.
Local Open Scope Z_scope.

Lemma nearest_bound r k : -100 <= k -> (Rabs r <= bpow radix2 k)%R -> (Rabs (nearest r) <= bpow radix2 k)%R.
Proof.
  intros K B. apply abs_round_le_generic; [auto with typeclass_instances..| |exact B].
  { apply FLT_exp_valid. reflexivity. }
  apply generic_format_bpow. unfold FLT_exp. lia.
Qed.

Lemma rounded_bound r s x k : -100 <= k < 128 -> (Rabs r <= bpow radix2 k)%R -> rounded r s x ->
  finite x /\ (Rabs (value x) <= bpow radix2 k)%R.
Proof.
  intros K B [_ R]. apply nearest_bound in B; [|lia]. rewrite Rlt_bool_true in R.
  - destruct R as (-> & F & _). auto.
  - apply Rle_lt_trans with (1 := B). apply bpow_lt. lia.
Qed.

Lemma t2_number_bound e x : t2_number e x -> finite x /\ (Rabs (value x) <= bpow radix2 15)%R.
Proof.
  intros (r & D & R). apply rational_of in D as (v & Hv & ->).
  apply (rounded_bound _ _ _ 15) in R; auto; [lia|].
  change (IZR v / 65536)%R with (IZR v * bpow radix2 (-16))%R.
  rewrite Rabs_mult, (Rabs_pos_eq (bpow radix2 (-16))) by apply bpow_ge_0.
  replace (bpow radix2 15) with (bpow radix2 31 * bpow radix2 (-16))%R by (rewrite <- bpow_plus; reflexivity).
  apply Rmult_le_compat_r; [apply bpow_ge_0|]. rewrite <- abs_IZR.
  change (bpow radix2 31) with (IZR (2 ^ 31)). apply IZR_le. lia.
Qed.

Lemma t2_number_small e x v : t2_number e x -> integral x v -> - 2 ^ 15 <= v <= 2 ^ 15.
Proof.
  intros N (_ & _ & V). apply t2_number_bound in N as (_ & B). rewrite V, <- abs_IZR in B.
  change (bpow radix2 15) with (IZR (2 ^ 15)) in B. apply le_IZR in B. lia.
Qed.

(** T2OperatorFacts: proofs about the operators of character strings. *)
From Verif Require Import Base C1Operation T2Operation BaseFacts SpecBytes SpecT2Operator.

Lemma t2_lookup_code_in {A} code (arms : list (Z * A)) v :
  lookup_code code arms = Some v -> In (code, v) arms.
Proof.
  induction arms as [|[k w] arms IH]; simpl; [discriminate|].
  destruct (Z.eqb_spec code k) as [->|]; auto. intros E. injection E as <-. auto.
Qed.

Lemma t2_operator_from_code o : t2_operator_from (t2_code o) = Ok o.
Proof. destruct o; reflexivity. Qed.

Lemma t2_operator_codes_spec : Forall (fun p => fst p = t2_code (snd p)) t2_operator_codes.
Proof. repeat constructor. Qed.

Lemma t2_operator_from_iff code o : t2_operator_from code = Ok o <-> code = t2_code o.
Proof.
  split.
  - unfold t2_operator_from. destruct (lookup_code code t2_operator_codes) eqn:E; [|discriminate].
    intros H. injection H as ->. apply t2_lookup_code_in in E.
    pose proof t2_operator_codes_spec as F. rewrite Forall_forall in F. apply (F _ E).
  - intros ->. apply t2_operator_from_code.
Qed.

Lemma t2_operator_from_error code :
  t2_operator_from code = Err Other <-> forall o, code <> t2_code o.
Proof.
  split.
  - intros H o ->. rewrite t2_operator_from_code in H. discriminate.
  - intros H. unfold t2_operator_from. destruct (lookup_code code t2_operator_codes) as [o|] eqn:E; auto.
    exfalso. apply (H o). apply t2_operator_from_iff. unfold t2_operator_from. rewrite E. reflexivity.
Qed.

Lemma t2_code_inj a b : t2_code a = t2_code b -> a = b.
Proof.
  intros H. pose proof (t2_operator_from_code a) as A. rewrite H, t2_operator_from_code in A. congruence.
Qed.

Lemma t2_operator_from_settled code : settled (t2_operator_from code).
Proof. unfold t2_operator_from. destruct (lookup_code code t2_operator_codes); exact I. Qed.

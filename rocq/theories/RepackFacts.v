(** RepackFacts: font sets can be written again, in the order of SpecFile. *)
From Coq Require Import Reals.
From Verif Require Import Base Float C1Number C1Operation C1Index C1Glyphs C1FontSet BaseFacts
  SpecNumber NumberFacts SpecOperation OperationFacts SpecIndex IndexFacts SpecGlyphs GlyphFacts
  SpecFontSet FontSetFacts LayoutFacts SpecFile FileFacts LiteralFacts SpecSize SizeFacts SpecRepack.
Local Open Scope list_scope.
Local Open Scope Z_scope.

(** ** Dictionaries *)

Lemma entry_last t o v : last_occurrence (rev t) o v <-> entry t o v.
Proof.
  split.
  - intros (b & a & E & N). exists (rev a), (rev b).
    assert (Q : t = rev (b ++ (o, v) :: a)) by (rewrite <- E, rev_involutive; reflexivity).
    rewrite rev_app_distr in Q. cbn in Q. rewrite <- app_assoc in Q. split; [exact Q|].
    intros w I. apply in_rev in I. exact (N w I).
  - intros (b & a & -> & N). exists (rev a), (rev b). rewrite rev_app_distr. cbn. rewrite <- app_assoc.
    split; auto. intros w I. apply in_rev in I. exact (N w I).
Qed.

Definition keeping (o : operator) (op : operator * list number) : bool := negb (operator_eqb (fst op) o).

Lemma keeping_true o o' (v : list number) : o' <> o -> keeping o (o', v) = true.
Proof. intros N. unfold keeping, operator_eqb. cbn. destruct (operator_eq_dec o' o); [contradiction|reflexivity]. Qed.

Lemma in_kept o o' v t : o' <> o -> (In (o', v) (filter (keeping o) t) <-> In (o', v) t).
Proof. intros N. rewrite filter_In, keeping_true by auto. tauto. Qed.

Lemma absent_kept o t : absent (filter (keeping o) t) o.
Proof.
  intros v I. apply filter_In in I as [_ I]. unfold keeping, operator_eqb in I. cbn in I.
  destruct (operator_eq_dec o o); [discriminate|contradiction].
Qed.

Lemma entry_kept o o' v t : o' <> o -> (entry (filter (keeping o) t) o' v <-> entry t o' v).
Proof.
  intros N. rewrite <- !entry_iff. induction t as [|(u & w) t IH]; [reflexivity|]. cbn [filter].
  destruct (keeping o (u, w)) eqn:K.
  - cbn. destruct (operator_eqb o' u); [reflexivity|exact IH].
  - rewrite IH. cbn. assert (operator_eqb o' u = false) as ->; [|reflexivity].
    unfold keeping, operator_eqb in *. cbn in K. destruct (operator_eq_dec u o) as [->|]; [|discriminate].
    destruct (operator_eq_dec o' o); congruence.
Qed.

Lemma table_kept o o' v t : o' <> o -> (entry (table (rev (filter (keeping o) t))) o' v <-> entry t o' v).
Proof. intros N. rewrite table_entry, entry_last. apply entry_kept, N. Qed.

Lemma operands_kept o o' v t : o' <> o -> operand_list t o' v -> operand_list (table (rev (filter (keeping o) t))) o' v.
Proof.
  intros N [H|[H D]]; [left; apply table_kept; auto|]. right. split; auto. apply table_absent.
  intros w I. apply in_rev in I. apply in_kept in I; auto. exact (H _ I).
Qed.

Definition storables (t : list (operator * list number)) : Prop := Forall (fun op => Forall storable (snd op)) t.

Lemma data_storable chunk t : dictionary_data chunk t -> storables t.
Proof.
  intros (e & ops & cut & _ & E & _ & ->).
  assert (S : storables ops).
  { refine (each_all operation_encoding _ _ _ _ E). intros e' (o & ns) (es & _ & X).
    exact (each_all _ _ _ _ operand_storable X). }
  unfold table. apply Forall_rev in S. revert S. generalize (rev ops). clear.
  induction l as [|(o & v) l IH]; intros S; [constructor|]. cbn. inversion S as [|? ? S1 S2]; subst. constructor; [exact S1|].
  specialize (IH S2). apply Forall_forall. intros x I. apply filter_In in I as [I _]. exact (proj1 (Forall_forall _ _) IH x I).
Qed.

Lemma each_short {A} (enc : list byte -> A -> Prop) (P : A -> Prop) (size : A -> nat) xs :
  (forall x, P x -> exists e, enc e x /\ (length e <= size x)%nat) -> Forall P xs ->
  exists es, each enc es xs /\ (length es <= list_sum (map size xs))%nat.
Proof.
  intros H. induction 1 as [|x xs Px _ (es & IH & L)]; [exists []; split; [constructor|cbn; lia]|].
  destruct (H x Px) as (e & E & Le). exists (e ++ es). split; [constructor; auto|]. rewrite app_length. cbn [map].
  change (list_sum (size x :: map size xs)) with (size x + list_sum (map size xs))%nat. lia.
Qed.

Lemma sum_constant {A} (c : nat) (xs : list A) : list_sum (map (fun _ => c) xs) = (c * length xs)%nat.
Proof.
  induction xs as [|x xs IH]; [cbn; lia|]. cbn [map length].
  change (list_sum (c :: map (fun _ => c) xs)) with (c + list_sum (map (fun _ => c) xs))%nat. lia.
Qed.

Lemma operator_length o : (length (operator_bytes o) <= 2)%nat.
Proof. destruct o; cbn; lia. Qed.

Lemma written_again t : storables t -> exists e, dictionary_encoding e t /\ (length e <= 60 * count_operations t)%nat.
Proof.
  intros H0. destruct (each_short operation_encoding (fun op => Forall storable (snd op))
    (fun op => 60 * S (length (snd op)))%nat t) as (e & E & L); auto.
  - intros (o & ns) H. cbn [snd] in *. destruct (each_short operand_encoding storable (fun _ => 60%nat) ns storable_short H) as (es & E & L).
    exists (es ++ operator_bytes o). split; [exists es; auto|]. rewrite sum_constant in L. rewrite app_length.
    pose proof (operator_length o). lia.
  - exists e. split; auto. unfold count_operations. clear - L.
    assert (Q : list_sum (map (fun op : operator * list number => (60 * S (length (snd op)))%nat) t) =
      (60 * list_sum (map (fun op => S (length (snd op))) t))%nat); [|lia].
    clear L. induction t as [|x t IH]; [reflexivity|]. cbn [map].
    change (list_sum ?l) with (fold_right Nat.add O l) in *. cbn [fold_right]. rewrite IH. lia.
Qed.

Lemma storables_kept o t : storables t -> storables (rev (filter (keeping o) t)).
Proof.
  intros H. apply Forall_rev. apply Forall_forall. intros x I. apply filter_In in I as [I _].
  exact (proj1 (Forall_forall _ _) H x I).
Qed.

(** A dictionary without an operator, and one with everything. *)
Lemma source_without o t : storables t -> exists d, dictionary_valid d /\ meant d = rev (filter (keeping o) t) /\
  (length (written d) <= 60 * count_operations t)%nat.
Proof.
  intros H. destruct (written_again _ (storables_kept o t H)) as (e & E & L).
  exists {| written := e; meant := rev (filter (keeping o) t) |}. split; [exact E|]. split; [reflexivity|].
  cbn [written]. rewrite count_rev in L. pose proof (count_filter (keeping o) t). lia.
Qed.

Lemma source_same t : storables t -> exists d, dictionary_valid d /\ meant d = rev t /\
  (length (written d) <= 60 * count_operations t)%nat.
Proof.
  intros H. destruct (written_again (rev t) (Forall_rev H)) as (e & E & L).
  exists {| written := e; meant := rev t |}. rewrite count_rev in L. auto.
Qed.

(** ** Indices *)

Lemma index_weight_data x : (length (data x) + length (concat (data x)) <= index_weight x)%nat.
Proof. unfold index_weight. lia. Qed.

Lemma four_byte_weight x : (length (four_byte_index (data x)) <= 7 + 4 * index_weight x)%nat.
Proof.
  pose proof (four_byte_length (data x)) as L. pose proof (index_weight_data x). destruct (data x) as [|c l]; [lia|].
  assert (Q : (length (four_byte_index (c :: l)) = 7 + 4 * length (c :: l) + length (concat (c :: l)))%nat) by lia. lia.
Qed.

Lemma index_short e x : index_encoding e x -> short (data x).
Proof. intros H. apply index_count in H. unfold short. lia. Qed.

(** ** Private dictionaries *)

Lemma same_tail os base tail : (forall o w, In (o, w) tail -> In o os) -> same_but os (table base) (table (base ++ tail)).
Proof.
  intros H o N v. symmetry. apply (inner_entry [] base tail); [intros w []|]. intros w I. exact (N (H o w I)).
Qed.

Lemma same_but_trans os a b c : same_but os a b -> same_but os b c -> same_but os a c.
Proof. intros H K o N v. rewrite (H o N v). apply K, N. Qed.

Lemma same_kept o t : same_but [o] t (table (rev (filter (keeping o) t))).
Proof. intros o' N v. symmetry. apply table_kept. intros ->. apply N. left. reflexivity. Qed.

Lemma same_again os t : same_but os t (table (rev t)).
Proof. intros o _ v. rewrite table_entry, entry_last. reflexivity. Qed.

Lemma same_wider os os' a b : incl os os' -> same_but os a b -> same_but os' a b.
Proof. intros I H o N. apply H. intros J. exact (N (I o J)). Qed.

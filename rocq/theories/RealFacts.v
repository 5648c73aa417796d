(** RealFacts: the numbers read from dictionaries against the real numbers. *)
From Coq Require Import Reals.
From Verif Require Import Base Float C1Number BaseFacts SpecNumber NumberFacts SpecRounding FloatFacts.

Lemma decimal_f32_rounded d : rounded (decimal_value d) (negative d) (decimal_f32 d).
Proof. apply f32_of_decimal_correct. apply decimal_integer_nonneg. Qed.

Lemma read_real_rounded e d r :
  real_encoding e d ->
  exists x, read_number (e ++ r) = Ok (Real x, r) /\ rounded (decimal_value d) (negative d) x.
Proof.
  intros H. exists (decimal_f32 d). split.
  - apply read_real_complete. assumption.
  - apply decimal_f32_rounded.
Qed.

Lemma read_real_iff s x r :
  read_number s = Ok (Real x, r) <->
  exists e d, s = e ++ r /\ real_encoding e d /\ rounded (decimal_value d) (negative d) x.
Proof.
  split.
  - intros H. apply read_real_sound in H as (e & d & -> & E & ->).
    exists e, d. repeat split; auto; try apply E; apply decimal_f32_rounded.
  - intros (e & d & -> & E & R). rewrite (read_real_complete _ _ _ E).
    rewrite (rounded_unique _ _ _ _ R (decimal_f32_rounded d)). reflexivity.
Qed.

Lemma read_integer_iff s v r :
  read_number s = Ok (Integer v, r) <-> exists e, s = e ++ r /\ integer_encoding e v.
Proof.
  split.
  - apply read_integer_sound.
  - intros (e & -> & H). apply read_integer_complete. assumption.
Qed.

Lemma read_number_or_error s : (exists n r, read_number s = Ok (n, r)) \/ (exists k, read_number s = Err k).
Proof.
  pose proof (read_number_settled s) as H.
  destruct (read_number s) as [[n r]|k| |]; try contradiction; eauto.
Qed.

Lemma read_real_not_literal s :
  (forall e d r, s = e ++ r -> ~ real_encoding e d) ->
  hd_error s = Some x1e -> exists k, read_number s = Err k.
Proof.
  intros N H. destruct (read_number_or_error s) as [(n & r & E)|?]; auto. exfalso.
  destruct s as [|b t]; [discriminate|]. injection H as ->. destruct n as [v|x].
  - apply read_integer_sound in E as (e & E & I).
    assert (B : bz x1e = 30) by reflexivity.
    destruct I; simpl in E; injection E as E ?; try discriminate E; subst b0; lia.
  - apply read_real_iff in E as (e & d & E & D & _). eapply N; eauto.
Qed.

Lemma read_number_cut e1 e2 :
  e2 <> [] ->
  (exists v, integer_encoding (e1 ++ e2) v) \/ (exists d, real_encoding (e1 ++ e2) d) ->
  read_number e1 = Err UnexpectedEof.
Proof.
  intros N [[v H]|[d H]].
  - apply (read_number_eof e1 e2 (Integer v)); auto.
  - apply (read_number_eof e1 e2 (Real (decimal_f32 d))); auto. exists d. auto.
Qed.

Lemma read_integer_round_trip v r :
  - 2 ^ 31 <= v < 2 ^ 31 ->
  read_number (shortest v ++ r) = Ok (Integer v, r) /\
  read_number (x1d :: bytes32 v ++ r) = Ok (Integer v, r) /\
  (forall e, integer_encoding e v -> (length (shortest v) <= length e)%nat).
Proof.
  intros H. repeat split.
  - apply read_integer_complete, shortest_encoding, H.
  - apply (read_integer_complete (x1d :: bytes32 v)), five_bytes_encoding, H.
  - intros e. apply shortest_minimal.
Qed.

Lemma read_offset_bad size s : ~ (1 <= size <= 4) -> read_offset size s = Err Other.
Proof.
  intros H. unfold read_offset.
  destruct (Z.eqb_spec size 1); [lia|]. destruct (Z.eqb_spec size 2); [lia|].
  destruct (Z.eqb_spec size 3); [lia|]. destruct (Z.eqb_spec size 4); [lia|]. reflexivity.
Qed.

Lemma string_id_spec n v : (forall w, n = Integer w -> w <= 65535) ->
  string_id_of_number n = Ok v <-> n = Integer v /\ 0 <= v.
Proof.
  intros B. destruct n as [w|x]; simpl.
  - specialize (B w eq_refl). destruct (Z.leb_spec 0 w).
    + unfold as_u16. rewrite Z.mod_small by lia. split.
      * intros E. injection E as <-. auto.
      * intros [E _]. injection E as <-. auto.
    + split; [discriminate|]. intros [E L]. injection E as <-. lia.
  - split; [discriminate|]. intros [E _]. discriminate.
Qed.

Lemma string_id_error n :
  string_id_of_number n = Err Other <-> forall v, n = Integer v -> v < 0.
Proof.
  destruct n as [w|x]; simpl.
  - destruct (Z.leb_spec 0 w); split; try discriminate; auto.
    + intros H'. specialize (H' w eq_refl). lia.
    + intros _ v E. injection E as <-. lia.
  - split; auto. discriminate.
Qed.

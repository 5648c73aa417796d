(** IndexFacts: proofs about indices. *)
From Verif Require Import Base Float C1Number C1Operation C1Index BaseFacts SpecNumber NumberFacts
  RealFacts SpecIndex.

(** ** Integers as bytes *)

Lemma be_bytes_length n v : length (be_bytes n v) = n.
Proof. induction n; simpl; congruence. Qed.

Lemma big_endian_app a b :
  big_endian (a ++ b) = big_endian a * 256 ^ Z.of_nat (length b) + big_endian b.
Proof.
  unfold big_endian. rewrite fold_left_app.
  assert (G : forall b x, fold_left (fun acc b => acc * 256 + bz b) b x =
    x * 256 ^ Z.of_nat (length b) + fold_left (fun acc b => acc * 256 + bz b) b 0).
  { clear. induction b as [|c b IH]; intros x; cbn [fold_left length].
    - rewrite Z.pow_0_r. lia.
    - rewrite IH. rewrite (IH (0 * 256 + bz c)). rewrite Nat2Z.inj_succ, Z.pow_succ_r by lia. ring. }
  apply G.
Qed.

Lemma big_endian_cons c b : big_endian (c :: b) = bz c * 256 ^ Z.of_nat (length b) + big_endian b.
Proof.
  change (c :: b) with ([c] ++ b). rewrite big_endian_app. unfold big_endian at 1. simpl. reflexivity.
Qed.

Lemma big_endian_range e : 0 <= big_endian e < 256 ^ Z.of_nat (length e).
Proof.
  induction e as [|c e IH].
  - unfold big_endian. simpl. lia.
  - rewrite big_endian_cons. cbn [length]. rewrite Nat2Z.inj_succ, Z.pow_succ_r by lia.
    pose proof (bz_range c). nia.
Qed.

Lemma big_endian_be_bytes n v : big_endian (be_bytes n v) = v mod 256 ^ Z.of_nat n.
Proof.
  induction n as [|n IH].
  - unfold big_endian. simpl. rewrite Z.mod_1_r. reflexivity.
  - cbn [be_bytes]. rewrite big_endian_cons, be_bytes_length, IH, bz_zb_mod.
    rewrite Nat2Z.inj_succ, Z.pow_succ_r by lia.
    pose proof (Z.pow_pos_nonneg 256 (Z.of_nat n) ltac:(lia) ltac:(lia)).
    rewrite (Z.mul_comm 256). rewrite Z.rem_mul_r by lia. ring.
Qed.

Lemma be_bytes_add n v k : be_bytes n (k * 256 ^ Z.of_nat n + v) = be_bytes n v.
Proof.
  assert (G : forall n v w, v mod 256 ^ Z.of_nat n = w mod 256 ^ Z.of_nat n ->
    be_bytes n v = be_bytes n w).
  { clear. induction n as [|n IH]; intros v w H; auto. cbn [be_bytes].
    rewrite Nat2Z.inj_succ, Z.pow_succ_r in H by lia.
    pose proof (Z.pow_pos_nonneg 256 (Z.of_nat n) ltac:(lia) ltac:(lia)).
    rewrite (Z.mul_comm 256), !Z.rem_mul_r in H by lia.
    pose proof (Z.mod_pos_bound v (256 ^ Z.of_nat n) ltac:(lia)).
    pose proof (Z.mod_pos_bound w (256 ^ Z.of_nat n) ltac:(lia)).
    assert (E : v mod 256 ^ Z.of_nat n = w mod 256 ^ Z.of_nat n).
    { apply (f_equal (fun z => z mod 256 ^ Z.of_nat n)) in H.
      rewrite !(Z.mul_comm (256 ^ Z.of_nat n)), !Z.mod_add, !Z.mod_mod in H by lia. exact H. }
    rewrite (IH v w E). f_equal. rewrite E in H. apply bz_inj. rewrite !bz_zb_mod. nia. }
  apply G. rewrite Z.add_comm. apply Z.mod_add.
  pose proof (Z.pow_pos_nonneg 256 (Z.of_nat n) ltac:(lia) ltac:(lia)). lia.
Qed.

Lemma be_bytes_big_endian e : be_bytes (length e) (big_endian e) = e.
Proof.
  induction e as [|c e IH]; auto. cbn [length be_bytes]. rewrite big_endian_cons.
  pose proof (big_endian_range e). rewrite Z.div_add_l, Z.div_small by lia.
  rewrite Z.add_0_r, zb_bz, be_bytes_add, IH. reflexivity.
Qed.

(** ** Offsets *)

Definition offset_encoding (size : Z) (e : list byte) (v : Z) : Prop :=
  1 <= size <= 4 /\ Z.of_nat (length e) = size /\ v = big_endian e.

Lemma offset_encoding_iff size e v : offset_encoding size e v <->
  1 <= size <= 4 /\ 0 <= v < 256 ^ size /\ e = be_bytes (Z.to_nat size) v.
Proof.
  split.
  - intros (S & L & ->). repeat split; try lia.
    + apply big_endian_range.
    + rewrite <- L. apply big_endian_range.
    + rewrite <- L, Nat2Z.id. symmetry. apply be_bytes_big_endian.
  - intros (S & V & ->). repeat split; try lia.
    + rewrite be_bytes_length. lia.
    + rewrite big_endian_be_bytes, Z2Nat.id by lia. rewrite Z.mod_small; lia.
Qed.

Lemma read_offset_sound size : sound (read_offset size) (offset_encoding size).
Proof.
  intros s v r H. apply read_offset_iff in H as (S & e & E & L & V). exists e. split; auto.
  repeat split; auto; lia.
Qed.

Lemma read_offset_complete size : complete (read_offset size) (offset_encoding size).
Proof.
  intros e v r (S & L & V). apply read_offset_iff. split; auto. exists e. auto.
Qed.

Lemma each_offsets size : 1 <= size <= 4 -> forall e vs,
  each (offset_encoding size) e vs <->
  Forall (fun v => 0 <= v < 256 ^ size) vs /\ e = flat_map (be_bytes (Z.to_nat size)) vs.
Proof.
  intros S e vs. split.
  - induction 1 as [|e v es vs H E [IH1 IH2]]; [split; auto|].
    apply offset_encoding_iff in H as (_ & V & ->). simpl. split; [constructor; auto|]. congruence.
  - intros (F & ->). induction F as [|v vs V F IH]; [constructor|]. simpl. constructor; auto.
    apply offset_encoding_iff. auto.
Qed.

(** ** Elements *)

Lemma offsets_of_head first chunks : exists rest, offsets_of first chunks = first :: rest.
Proof. destruct chunks; simpl; eauto. Qed.

Lemma offsets_of_length first chunks : length (offsets_of first chunks) = S (length chunks).
Proof. revert first. induction chunks as [|c chunks IH]; intros; simpl; auto. Qed.

Lemma offsets_of_bound chunks : forall first,
  Forall (fun o => first <= o <= first + Z.of_nat (length (concat chunks))) (offsets_of first chunks).
Proof.
  induction chunks as [|c chunks IH]; intros first; simpl; constructor; auto; try lia.
  eapply Forall_impl; [|apply IH]. simpl. intros o. rewrite app_length. lia.
Qed.

Lemma offsets_of_last chunks : forall first d,
  last (offsets_of first chunks) d = first + Z.of_nat (length (concat chunks)).
Proof.
  induction chunks as [|c chunks IH]; intros first d.
  - simpl. lia.
  - cbn [offsets_of]. destruct (offsets_of_head (first + Z.of_nat (length c)) chunks) as (rest & E).
    rewrite E. change (last (first :: (first + Z.of_nat (length c)) :: rest) d)
      with (last ((first + Z.of_nat (length c)) :: rest) d).
    rewrite <- E, IH. cbn [concat]. rewrite app_length. lia.
Qed.

Lemma take_chunk cfg n s : 0 <= n < 2 ^ 32 ->
  take_vec cfg 1 take_byte n s =
  if n <=? Z.of_nat (length s) then Ok (firstn (Z.to_nat n) s, skipn (Z.to_nat n) s)
  else Err UnexpectedEof.
Proof. intros H. apply take_vec_byte; unfold isize_max; lia. Qed.

Lemma read_elements_cons cfg o1 o2 offs s :
  read_elements cfg (o1 :: o2 :: offs) s =
  if o2 <? o1 then Err Other
  else
    let* (chunk, s1) := take_vec cfg 1 take_byte (o2 - o1) s in
    let* (chunks, s2) := read_elements cfg (o2 :: offs) s1 in
    Ok (chunk :: chunks, s2).
Proof. reflexivity. Qed.

Lemma read_elements_complete cfg chunks : forall first r,
  Z.of_nat (length (concat chunks)) < 2 ^ 32 ->
  read_elements cfg (offsets_of first chunks) (concat chunks ++ r) = Ok (chunks, r).
Proof.
  induction chunks as [|c chunks IH]; intros first r L; auto.
  cbn [offsets_of concat] in *. rewrite app_length in L.
  destruct (offsets_of_head (first + Z.of_nat (length c)) chunks) as (rest & E).
  rewrite E. rewrite read_elements_cons, <- E.
  destruct (Z.ltb_spec (first + Z.of_nat (length c)) first); [lia|].
  replace (first + Z.of_nat (length c) - first) with (Z.of_nat (length c)) by lia.
  rewrite take_chunk by lia. rewrite <- app_assoc, app_length.
  destruct (Z.leb_spec (Z.of_nat (length c)) (Z.of_nat (length c + length (concat chunks ++ r)))); [|lia].
  rewrite Nat2Z.id, firstn_app, firstn_all, Nat.sub_diag, firstn_O, app_nil_r.
  rewrite skipn_app, skipn_all, Nat.sub_diag, skipn_O. cbn [bind app].
  rewrite IH by lia. reflexivity.
Qed.

Lemma read_elements_sound cfg offs : forall s chunks r,
  Forall (fun v => 0 <= v < 2 ^ 32) offs -> offs <> [] ->
  read_elements cfg offs s = Ok (chunks, r) ->
  s = concat chunks ++ r /\ offs = offsets_of (hd 0 offs) chunks.
Proof.
  induction offs as [|o1 offs IH]; intros s chunks r F N H; [congruence|].
  destruct offs as [|o2 offs].
  { cbn in H. injection H as <- <-. auto. }
  inversion F as [|? ? V1 F']; subst. inversion F' as [|? ? V2 _]; subst.
  rewrite read_elements_cons in H. destruct (Z.ltb_spec o2 o1); [discriminate|].
  rewrite take_chunk in H by lia.
  destruct (Z.leb_spec (o2 - o1) (Z.of_nat (length s))); [|discriminate].
  cbn [bind] in H. inv_ok H. destruct a as [chunks' s']. injection H as <- <-.
  apply IH in H2 as [E1 E2]; auto; [|discriminate].
  cbn [concat offsets_of hd] in *. split.
  - rewrite <- app_assoc, <- E1. symmetry. apply firstn_skipn.
  - rewrite firstn_length_le by lia. f_equal.
    replace (o1 + Z.of_nat (Z.to_nat (o2 - o1))) with o2 by lia. exact E2.
Qed.

Lemma read_elements_settled cfg offs : forall s,
  Forall (fun v => 0 <= v < 2 ^ 32) offs -> settled (read_elements cfg offs s).
Proof.
  induction offs as [|o1 offs IH]; intros s F; [exact I|].
  destruct offs as [|o2 offs]; [exact I|].
  inversion F as [|? ? V1 F']; subst. inversion F' as [|? ? V2 _]; subst.
  rewrite read_elements_cons. destruct (Z.ltb_spec o2 o1); [exact I|].
  apply settled_bind.
  - rewrite take_chunk by lia. destruct (o2 - o1 <=? Z.of_nat (length s)); exact I.
  - intros [c s1] _. apply settled_bind; [apply IH; auto|]. intros [cs s2] _. exact I.
Qed.

(** ** Indices *)

Lemma pow_256_4 size : 1 <= size <= 4 -> 256 ^ size <= 2 ^ 32.
Proof.
  intros H. change 256 with (2 ^ 8). rewrite <- Z.pow_mul_r by lia. apply Z.pow_le_mono_r; lia.
Qed.

Lemma count_bytes n : 0 <= n < 2 ^ 16 ->
  exists b1 b0, be_bytes 2 n = [b1; b0] /\ bz b1 * 2 ^ 8 + bz b0 = n.
Proof.
  intros H. exists (zb (n / 256 ^ 1)), (zb (n / 256 ^ 0)). split; [reflexivity|].
  rewrite !bz_zb_mod. rewrite Z.pow_0_r, Z.div_1_r, Z.pow_1_r. change (2 ^ 8) with 256.
  rewrite (Z.mod_small (n / 256)).
  - pose proof (Z.div_mod n 256). lia.
  - split; [apply Z.div_pos; lia|]. apply Z.div_lt_upper_bound; lia.
Qed.

Lemma bytes_count b1 b0 : be_bytes 2 (bz b1 * 2 ^ 8 + bz b0) = [b1; b0].
Proof.
  change [b1; b0] with (firstn 2 [b1; b0]).
  replace (bz b1 * 2 ^ 8 + bz b0) with (big_endian [b1; b0]) by apply be2.
  apply (be_bytes_big_endian [b1; b0]).
Qed.

Lemma read_index_complete cfg : complete (read_index cfg) index_encoding.
Proof.
  intros e x r (size & chunks & (C & F) & -> & ->).
  destruct chunks as [|c chunks]; [reflexivity|]. destruct F as [F|[S F]]; [discriminate|].
  set (all := c :: chunks) in *.
  change (index_bytes size all) with
    (be_bytes 2 (Z.of_nat (length all)) ++ [zb size]
     ++ flat_map (be_bytes (Z.to_nat size)) (offsets_of 1 all) ++ concat all).
  change (index_value size all) with
    {| count := Z.of_nat (length all); offset_size := size;
       offsets := offsets_of 1 all; data := all |}.
  destruct (count_bytes (Z.of_nat (length all))) as (b1 & b0 & -> & E); [lia|].
  unfold read_index. cbn [app take_u16 bind]. rewrite E.
  assert (L : 0 < Z.of_nat (length all)) by (unfold all; simpl length; lia).
  destruct (Z.eqb_spec (Z.of_nat (length all)) 0); [lia|]. cbn [take_u8 bind].
  rewrite bz_zb by lia. rewrite <- app_assoc.
  assert (B : Forall (fun v => 0 <= v < 256 ^ size) (offsets_of 1 all)).
  { eapply Forall_impl; [|apply offsets_of_bound]. cbv beta. lia. }
  replace (Z.to_nat (Z.of_nat (length all) + 1)) with (length (offsets_of 1 all))
    by (rewrite offsets_of_length; lia).
  rewrite (take_n_complete _ _ (read_offset_complete size)).
  2:{ apply each_offsets; auto. }
  cbn [bind]. destruct (offsets_of_head 1 all) as (rest & Eo). rewrite Eo at 1.
  rewrite read_elements_complete. { reflexivity. }
  pose proof (pow_256_4 size S). lia.
Qed.

Lemma read_index_sound cfg : sound (read_index cfg) index_encoding.
Proof.
  intros s x r H. unfold read_index in H. inv_ok H. destruct a as [n s1].
  apply take_u16_ok in H0 as (b1 & b0 & -> & ->).
  pose proof (bz_range b1). pose proof (bz_range b0).
  destruct (Z.eqb_spec (bz b1 * 2 ^ 8 + bz b0) 0) as [E|E].
  { injection H as <- <-. exists [b1; b0]. split; auto. exists 0, []. repeat split; auto.
    cbn [index_bytes]. rewrite <- (bytes_count b1 b0), E. reflexivity. }
  inv_ok H. destruct a as [size s2]. apply take_u8_ok in H2 as (b & -> & ->).
  inv_ok H. destruct a as [offs s3].
  apply (take_n_sound _ _ (read_offset_sound (bz b))) in H2 as (L & e & -> & Eo).
  assert (S : 1 <= bz b <= 4).
  { destruct Eo as [|e1 v es vs (S & _) _]; auto. simpl in L. lia. }
  apply each_offsets in Eo as (B & ->); auto.
  destruct offs as [|[|[| |]|] rest]; try discriminate.
  inv_ok H. destruct a as [chunks s4]. injection H as <- <-.
  apply read_elements_sound in H2 as (-> & Eo); [|  |discriminate].
  2:{ eapply Forall_impl; [|exact B]. simpl. pose proof (pow_256_4 _ S). lia. }
  cbn [hd] in Eo. rewrite Eo in *. rewrite offsets_of_length in L.
  assert (N : Z.of_nat (length chunks) = bz b1 * 2 ^ 8 + bz b0) by lia.
  destruct chunks as [|c chunks]; [simpl in N; lia|].
  set (all := c :: chunks) in *.
  exists (index_bytes (bz b) all). split.
  - change (index_bytes (bz b) all) with
      (be_bytes 2 (Z.of_nat (length all)) ++ [zb (bz b)]
       ++ flat_map (be_bytes (Z.to_nat (bz b))) (offsets_of 1 all) ++ concat all).
    rewrite N, bytes_count, zb_bz.
    cbn [app]. rewrite <- !app_assoc. reflexivity.
  - exists (bz b), all. split; [|split; [reflexivity|]].
    + split; [lia|]. right. split; auto.
      pose proof (offsets_of_last all 1 0) as La.
      assert (I : In (last (offsets_of 1 all) 0) (offsets_of 1 all)).
      { rewrite (app_removelast_last 0) at 2; [apply in_or_app; right; left; reflexivity|].
        destruct (offsets_of_head 1 all) as (t & ->). discriminate. }
      rewrite Forall_forall in B. specialize (B _ I). lia.
    + change (index_value (bz b) all) with
        {| count := Z.of_nat (length all); offset_size := bz b;
           offsets := offsets_of 1 all; data := all |}.
      rewrite N. reflexivity.
Qed.

Lemma read_index_iff cfg s x r : read_index cfg s = Ok (x, r) <->
  exists size chunks, index_fits size chunks /\
    s = index_bytes size chunks ++ r /\ x = index_value size chunks.
Proof.
  split.
  - intros H. apply read_index_sound in H as (e & -> & size & chunks & F & -> & ->). eauto 10.
  - intros (size & chunks & F & -> & ->). apply read_index_complete. exists size, chunks. auto.
Qed.

Lemma read_index_settled cfg : total (read_index cfg).
Proof.
  intros s. unfold read_index. apply settled_bind.
  { destruct s as [|? [|? ?]]; exact I. }
  intros [n s1] Hn. destruct (n =? 0); [exact I|]. apply settled_bind.
  { destruct s1; exact I. }
  intros [size s2] _. apply settled_bind.
  { apply take_n_total. intros s'. apply read_offset_settled. }
  intros [offs s3] Ho.
  apply (take_n_sound _ _ (read_offset_sound size)) in Ho as (_ & e & _ & Eo).
  assert (B : Forall (fun v => 0 <= v < 2 ^ 32) offs).
  { clear - Eo. induction Eo as [|e v es vs H E IH]; constructor; auto.
    apply offset_encoding_iff in H as (S & V & _). pose proof (pow_256_4 size S). lia. }
  destruct offs as [|[|[| |]|] rest]; try exact I.
  apply settled_bind; [apply read_elements_settled; auto|]. intros [cs s4] _. exact I.
Qed.

(** *** Truncation *)

Lemma read_elements_eof cfg chunks : forall first s u,
  Z.of_nat (length (concat chunks)) < 2 ^ 32 -> u <> [] -> concat chunks = s ++ u ->
  read_elements cfg (offsets_of first chunks) s = Err UnexpectedEof.
Proof.
  induction chunks as [|c chunks IH]; intros first s u L U E; cbn [concat] in E, L.
  { symmetry in E. apply app_eq_nil in E as [_ E]. congruence. }
  rewrite app_length in L. cbn [offsets_of].
  destruct (offsets_of_head (first + Z.of_nat (length c)) chunks) as (rest & Eo).
  rewrite Eo. rewrite read_elements_cons, <- Eo.
  destruct (Z.ltb_spec (first + Z.of_nat (length c)) first); [lia|].
  replace (first + Z.of_nat (length c) - first) with (Z.of_nat (length c)) by lia.
  rewrite take_chunk by lia.
  destruct (Z.leb_spec (Z.of_nat (length c)) (Z.of_nat (length s))); [|reflexivity].
  cbn [bind]. rewrite Nat2Z.id.
  apply app_eq_app in E as (l & [[Ec Eu]|[Es Eu]]).
  - assert (l = []) as ->.
    { apply length_zero_iff_nil. subst c. rewrite app_length in *. lia. }
    rewrite app_nil_r in Ec. subst c. cbn [app] in Eu. rewrite skipn_all.
    rewrite (IH _ [] u); auto. lia.
  - subst s. rewrite skipn_app, skipn_all, Nat.sub_diag, skipn_O. cbn [app].
    rewrite (IH _ l u); auto. lia.
Qed.

Lemma take_offsets_eof size vs : 1 <= size <= 4 -> forall s u,
  u <> [] -> flat_map (be_bytes (Z.to_nat size)) vs = s ++ u ->
  Forall (fun v => 0 <= v < 256 ^ size) vs ->
  take_n (read_offset size) (length vs) s = Err UnexpectedEof.
Proof.
  intros S. induction vs as [|v vs IH]; intros s u U E F; cbn [flat_map] in E.
  { symmetry in E. apply app_eq_nil in E as [_ E]. congruence. }
  inversion F as [|? ? V F']; subst. cbn [length take_n].
  apply app_eq_app in E as (l & [[Ec Eu]|[Es Eu]]).
  - destruct l as [|b l].
    + rewrite app_nil_r in Ec. rewrite <- (app_nil_r s), <- Ec.
      rewrite (read_offset_complete size _ v); [|apply offset_encoding_iff; auto]. cbn [bind].
      rewrite (IH [] u); auto.
    + rewrite read_offset_eof; auto.
      apply (f_equal (@length byte)) in Ec. rewrite be_bytes_length, app_length in Ec. simpl in Ec. lia.
  - subst s. rewrite (read_offset_complete size _ v); [|apply offset_encoding_iff; auto]. cbn [bind].
    rewrite (IH l u); auto.
Qed.

Lemma read_index_eof cfg : eof (read_index cfg) index_encoding.
Proof.
  intros e1 e2 x (size & chunks & (C & F) & E & _) N.
  destruct chunks as [|c chunks].
  { cbn [index_bytes] in E. destruct e1 as [|a [|b e1]]; try reflexivity.
    injection E as -> -> E. apply app_eq_nil in E as [_ E]. congruence. }
  destruct F as [F|[S F]]; [discriminate|].
  set (all := c :: chunks) in *.
  change (index_bytes size all) with
    (be_bytes 2 (Z.of_nat (length all)) ++ [zb size]
     ++ flat_map (be_bytes (Z.to_nat size)) (offsets_of 1 all) ++ concat all) in E.
  destruct (count_bytes (Z.of_nat (length all))) as (b1 & b0 & Eb & V); [lia|].
  rewrite Eb in E.
  destruct e1 as [|a1 [|a0 [|sz e1]]]; try reflexivity.
  - cbn [app] in E. injection E as -> -> E. unfold read_index. cbn [take_u16 bind]. rewrite V.
    destruct (Z.eqb_spec (Z.of_nat (length all)) 0); [unfold all in *; simpl length in *; lia|reflexivity].
  - cbn [app] in E. injection E as -> -> -> E. unfold read_index. cbn [take_u16 bind]. rewrite V.
    destruct (Z.eqb_spec (Z.of_nat (length all)) 0); [unfold all in *; simpl length in *; lia|].
    cbn [take_u8 bind]. rewrite bz_zb by lia.
    replace (Z.to_nat (Z.of_nat (length all) + 1)) with (length (offsets_of 1 all))
      by (rewrite offsets_of_length; lia).
    assert (B : Forall (fun v => 0 <= v < 256 ^ size) (offsets_of 1 all)).
    { eapply Forall_impl; [|apply offsets_of_bound]. cbv beta. lia. }
    symmetry in E. apply app_eq_app in E as (l & [[Ec Eu]|[Es Eu]]).
    + destruct l as [|b l].
      * rewrite app_nil_r in Ec. rewrite <- (app_nil_r e1), <- Ec.
        rewrite (take_n_complete _ _ (read_offset_complete size)).
        2:{ apply each_offsets; auto. }
        cbn [bind]. destruct (offsets_of_head 1 all) as (rest & Eo). rewrite Eo at 1.
        rewrite (read_elements_eof _ _ _ _ e2); auto.
        pose proof (pow_256_4 size S). lia.
      * rewrite (take_offsets_eof _ _ S _ (b :: l)); auto. discriminate.
    + subst e1. rewrite (take_n_complete _ _ (read_offset_complete size)).
      2:{ apply each_offsets; auto. }
      cbn [bind]. destruct (offsets_of_head 1 all) as (rest & Eo). rewrite Eo at 1.
      rewrite (read_elements_eof _ _ _ _ e2); auto.
      pose proof (pow_256_4 size S). lia.
Qed.

Lemma index_encoding_consumes : consumes index_encoding.
Proof.
  intros e x (size & chunks & _ & -> & _). destruct chunks; cbn [index_bytes be_bytes app]; discriminate.
Qed.

(** *** Consistency *)

Lemma offsets_of_nth chunks : forall first i, (i < length chunks)%nat ->
  nth (S i) (offsets_of first chunks) 0 =
  nth i (offsets_of first chunks) 0 + Z.of_nat (length (nth i chunks [])).
Proof.
  induction chunks as [|c chunks IH]; intros first i L; [simpl in L; lia|].
  cbn [offsets_of]. destruct i as [|i].
  - cbn [nth]. destruct (offsets_of_head (first + Z.of_nat (length c)) chunks) as (rest & E).
    rewrite E. reflexivity.
  - cbn [nth]. apply IH. simpl in L. lia.
Qed.

Lemma read_index_consistent cfg s x r : read_index cfg s = Ok (x, r) ->
  count x = Z.of_nat (length (data x)) /\
  (data x <> [] ->
    length (offsets x) = S (length (data x)) /\
    nth 0 (offsets x) 0 = 1 /\
    (forall i, (i < length (data x))%nat ->
       nth i (offsets x) 0 <= nth (S i) (offsets x) 0 /\
       Z.of_nat (length (nth i (data x) [])) = nth (S i) (offsets x) 0 - nth i (offsets x) 0) /\
    exists header,
      Z.of_nat (length header) = 3 + offset_size x * (count x + 1) /\
      s = header ++ concat (data x) ++ r) /\
  (data x = [] -> offsets x = [] /\ exists header, length header = 2%nat /\ s = header ++ r).
Proof.
  intros H. apply read_index_iff in H as (size & chunks & (C & F) & -> & ->).
  destruct chunks as [|c chunks].
  { cbn [index_value count data offsets]. repeat split; try congruence.
    exists [x00; x00]. split; reflexivity. }
  destruct F as [F|[S F]]; [discriminate|].
  set (all := c :: chunks) in *.
  change (index_value size all) with
    {| count := Z.of_nat (length all); offset_size := size;
       offsets := offsets_of 1 all; data := all |}.
  cbn [count offset_size offsets data]. split; auto. split; [|discriminate]. intros _.
  split; [apply offsets_of_length|]. split.
  { destruct (offsets_of_head 1 all) as (rest & ->). reflexivity. }
  split.
  { intros i L. rewrite (offsets_of_nth all 1 i L). lia. }
  change (index_bytes size all) with
    (be_bytes 2 (Z.of_nat (length all)) ++ [zb size]
     ++ flat_map (be_bytes (Z.to_nat size)) (offsets_of 1 all) ++ concat all).
  exists (be_bytes 2 (Z.of_nat (length all)) ++ [zb size]
          ++ flat_map (be_bytes (Z.to_nat size)) (offsets_of 1 all)). split.
  - rewrite !app_length, be_bytes_length.
    assert (G : forall vs, length (flat_map (be_bytes (Z.to_nat size)) vs) = (length vs * Z.to_nat size)%nat).
    { induction vs as [|v vs IH]; simpl; auto. rewrite app_length, be_bytes_length. lia. }
    rewrite G, offsets_of_length. simpl (length [_]). nia.
  - rewrite <- !app_assoc. reflexivity.
Qed.

Lemma read_index_rejects cfg s :
  (forall size chunks r, index_fits size chunks -> s <> index_bytes size chunks ++ r) ->
  exists k, read_index cfg s = Err k.
Proof.
  intros H. pose proof (read_index_settled cfg s) as T.
  destruct (read_index cfg s) as [[x r]|k| |] eqn:E; try contradiction; eauto.
  exfalso. apply read_index_iff in E as (size & chunks & F & E & _). eapply H; eauto.
Qed.

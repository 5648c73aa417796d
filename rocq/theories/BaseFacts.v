(** BaseFacts: lemmas about Base. *)
From Verif Require Import Base SpecBytes.

(** ** Outcomes *)

Lemma bind_ok {A B} (m : outcome A) (k : A -> outcome B) b :
  bind m k = Ok b -> exists a, m = Ok a /\ k a = Ok b.
Proof. destruct m; simpl; intros H; try discriminate. eauto. Qed.

Lemma bind_err {A B} (m : outcome A) (k : A -> outcome B) e :
  bind m k = Err e -> m = Err e \/ exists a, m = Ok a /\ k a = Err e.
Proof. destruct m; simpl; intros H; try discriminate; [right; eauto | left; congruence]. Qed.

Lemma bind_assoc {A B C} (m : outcome A) (k : A -> outcome B) (h : B -> outcome C) :
  bind (bind m k) h = bind m (fun a => bind (k a) h).
Proof. destruct m; reflexivity. Qed.

(** Take apart an equation [bind .. = Ok ..]. *)
Ltac inv_ok H :=
  match type of H with
  | bind ?m ?k = Ok ?b =>
      let a := fresh "a" in let Ha := fresh "H" in
      apply bind_ok in H; destruct H as [a [Ha H]]; cbv beta in H
  end.

Lemma settled_bind {A B} (m : outcome A) (k : A -> outcome B) :
  settled m -> (forall a, m = Ok a -> settled (k a)) -> settled (bind m k).
Proof. destruct m; simpl; intros H K; auto. Qed.

(** ** Bytes *)

Lemma bz_range b : 0 <= bz b < 256.
Proof.
  unfold bz. pose proof (Byte.to_N_bounded b). lia.
Qed.

Lemma bz_inj a b : bz a = bz b -> a = b.
Proof.
  unfold bz. intros H. assert (E : Byte.to_N a = Byte.to_N b) by lia.
  assert (O : Byte.of_N (Byte.to_N a) = Byte.of_N (Byte.to_N b)) by (rewrite E; reflexivity).
  rewrite !Byte.of_to_N in O. congruence.
Qed.

Lemma bz_zb z : 0 <= z < 256 -> bz (zb z) = z.
Proof.
  intros H. unfold zb, bz. rewrite Z.mod_small by lia.
  destruct (Byte.of_N (Z.to_N z)) eqn:E.
  - apply Byte.to_of_N in E. rewrite E. lia.
  - apply Byte.of_N_None_iff in E. lia.
Qed.

Lemma zb_bz b : zb (bz b) = b.
Proof. apply bz_inj. apply bz_zb. apply bz_range. Qed.

(** Every statement about a byte can be decided by looking at 256 cases. *)
Lemma byte_forall (P : byte -> Prop) :
  (forall z, 0 <= z < 256 -> P (zb z)) -> forall b, P b.
Proof. intros H b. rewrite <- (zb_bz b). apply H. apply bz_range. Qed.

(** ** Readers *)

Lemma take_u8_app b r : take_u8 (b :: r) = Ok (bz b, r).
Proof. reflexivity. Qed.

Lemma take_u8_ok s v r : take_u8 s = Ok (v, r) <-> exists b, s = b :: r /\ v = bz b.
Proof.
  destruct s as [|b s]; simpl; split.
  - discriminate.
  - intros [b [H _]]. discriminate.
  - intros H. inversion H; subst. eauto.
  - intros [b' [H E]]. inversion H; subst. reflexivity.
Qed.

Lemma take_byte_ok s v r : take_byte s = Ok (v, r) <-> s = v :: r.
Proof.
  destruct s as [|b s]; simpl; split; try discriminate; intros H; inversion H; subst; reflexivity.
Qed.

Lemma take_u16_ok s v r :
  take_u16 s = Ok (v, r) <-> exists b1 b0, s = b1 :: b0 :: r /\ v = bz b1 * 2 ^ 8 + bz b0.
Proof.
  split.
  - destruct s as [|b1 [|b0 s]]; simpl; try discriminate. intros H. inversion H; subst. eauto.
  - intros (b1 & b0 & -> & ->). reflexivity.
Qed.

Lemma take_u32_ok s v r :
  take_u32 s = Ok (v, r) <->
  exists b3 b2 b1 b0, s = b3 :: b2 :: b1 :: b0 :: r /\
    v = bz b3 * 2 ^ 24 + bz b2 * 2 ^ 16 + bz b1 * 2 ^ 8 + bz b0.
Proof.
  split.
  - destruct s as [|b3 [|b2 [|b1 [|b0 s]]]]; cbn [take_u32]; try discriminate.
    intros H. inversion H; subst. eauto 10.
  - intros (b3 & b2 & b1 & b0 & -> & ->). reflexivity.
Qed.

(** *** Repetition *)

Lemma each_app {A} (enc : list byte -> A -> Prop) e1 x1 e2 x2 :
  each enc e1 x1 -> each enc e2 x2 -> each enc (e1 ++ e2) (x1 ++ x2).
Proof.
  induction 1; simpl; auto. intros. rewrite <- app_assoc. constructor; auto.
Qed.

Lemma each_impl {A} (enc enc' : list byte -> A -> Prop) e xs :
  (forall e x, enc e x -> enc' e x) -> each enc e xs -> each enc' e xs.
Proof. induction 2; constructor; auto. Qed.

Section Readers.
  Context {A : Type} (rd : reader A) (enc : list byte -> A -> Prop).

  Definition sound : Prop :=
    forall s v r, rd s = Ok (v, r) -> exists e, s = e ++ r /\ enc e v.
  Definition complete : Prop :=
    forall e v r, enc e v -> rd (e ++ r) = Ok (v, r).
  (** Cut short, an encoding is an unexpected end of file. *)
  Definition eof : Prop :=
    forall e1 e2 v, enc (e1 ++ e2) v -> e2 <> [] -> rd e1 = Err UnexpectedEof.
  Definition total : Prop := forall s, settled (rd s).
  Definition consumes : Prop := forall e v, enc e v -> e <> [].

  Lemma take_n_sound : sound -> forall n s xs r,
    take_n rd n s = Ok (xs, r) -> length xs = n /\ exists e, s = e ++ r /\ each enc e xs.
  Proof.
    intros Hs. induction n as [|n IH]; simpl; intros s xs r H.
    - inversion H; subst. split; auto. exists []. split; auto. constructor.
    - inv_ok H. destruct a as [x s1]. inv_ok H. destruct a as [ys s2].
      inversion H; subst. apply Hs in H0 as (e & -> & He).
      apply IH in H1 as (Hl & es & -> & Hes).
      split. { simpl. congruence. }
      exists (e ++ es). split. { rewrite app_assoc. reflexivity. }
      constructor; auto.
  Qed.

  Lemma take_n_complete : complete -> forall xs e r,
    each enc e xs -> take_n rd (length xs) (e ++ r) = Ok (xs, r).
  Proof.
    intros Hc xs e r H. revert r. induction H; intros r; simpl; auto.
    rewrite <- app_assoc, (Hc _ _ _ H). cbn [bind]. rewrite IHeach. reflexivity.
  Qed.

  Lemma take_n_total : total -> forall n s, settled (take_n rd n s).
  Proof.
    intros Ht. induction n as [|n IH]; intros s; simpl; auto.
    apply settled_bind; [apply Ht|]. intros [x s1] _.
    apply settled_bind; [apply IH|]. intros [xs s2] _. exact I.
  Qed.

  (** A loop that asks for more values than there are bytes ends in an error. *)
  Lemma take_n_many : sound -> consumes -> forall n s,
    (length s < n)%nat -> forall x, take_n rd n s <> Ok x.
  Proof.
    intros Hs Hc. induction n as [|n IH]; intros s Hl x H; [lia|].
    simpl in H. inv_ok H. destruct a as [y s1]. inv_ok H. destruct a as [ys s2].
    apply Hs in H0 as (e & -> & He). apply Hc in He.
    rewrite app_length in Hl. destruct e as [|b e]; [congruence|]. simpl in Hl.
    eapply (IH s1); [lia|]. eassumption.
  Qed.
End Readers.

Lemma take_n_more {A} (rd : reader A) n m s :
  (n <= m)%nat -> (forall x, take_n rd n s <> Ok x) -> take_n rd m s = take_n rd n s.
Proof.
  revert m s. induction n as [|n IH]; intros m s Hl H.
  - exfalso. eapply H. reflexivity.
  - destruct m as [|m]; [lia|]. simpl. destruct (rd s) as [[x s1]| | |] eqn:E; auto. cbn [bind].
    rewrite (IH m s1); auto; [lia|]. intros [ys s2] H'.
    eapply (H (x :: ys, s2)). simpl. rewrite E. cbn [bind]. rewrite H'. reflexivity.
Qed.

(** The cut in [take_vec] is harmless: the loop of [count] rounds does the same. *)
Lemma take_vec_loop {A} cfg size (rd : reader A) enc count s :
  sound rd enc -> consumes enc -> 0 <= count ->
  take_vec cfg size rd count s =
  if preallocates cfg && (isize_max <? count * size) then Panic CapacityOverflow
  else take_n rd (Z.to_nat count) s.
Proof.
  intros Hs Hc H0. unfold take_vec.
  destruct (preallocates cfg && (isize_max <? count * size)); auto.
  destruct (Z.leb_spec count (Z.of_nat (length s) + 1)).
  - rewrite Z.min_l by lia. reflexivity.
  - rewrite Z.min_r by lia. symmetry. apply take_n_more; [lia|].
    eapply take_n_many; eauto. lia.
Qed.

Lemma take_byte_sound : sound take_byte (fun e b => e = [b]).
Proof. intros s v r H. apply take_byte_ok in H. subst. exists [v]. auto. Qed.

Lemma take_byte_complete : complete take_byte (fun e b => e = [b]).
Proof. intros e v r ->. reflexivity. Qed.

Lemma take_byte_total : total take_byte.
Proof. intros [|]; simpl; auto. Qed.

Lemma each_byte e bs : each (fun e b => e = [b]) e bs <-> e = bs.
Proof.
  split.
  - induction 1; subst; auto.
  - intros ->. induction bs as [|b bs IH]; [constructor|].
    change (b :: bs) with ([b] ++ bs) at 1. constructor; auto.
Qed.

(** [take_vec] on chunks of bytes. *)
Lemma take_n_byte n s :
  take_n take_byte n s =
  if (n <=? length s)%nat then Ok (firstn n s, skipn n s) else Err UnexpectedEof.
Proof.
  revert s. induction n as [|n IH]; intros s; simpl; auto.
  destruct s as [|b s]; simpl; auto. rewrite IH. destruct (n <=? length s)%nat; auto.
Qed.

Lemma take_vec_byte cfg count s :
  0 <= count -> count <= isize_max ->
  take_vec cfg 1 take_byte count s =
  if count <=? Z.of_nat (length s) then Ok (firstn (Z.to_nat count) s, skipn (Z.to_nat count) s)
  else Err UnexpectedEof.
Proof.
  intros H0 H1. erewrite take_vec_loop; [|apply take_byte_sound| |auto].
  2:{ intros e v ->. discriminate. }
  replace (isize_max <? count * 1) with false by (symmetry; apply Z.ltb_ge; lia).
  rewrite andb_false_r, take_n_byte.
  destruct (Nat.leb_spec (Z.to_nat count) (length s)), (Z.leb_spec count (Z.of_nat (length s)));
    auto; lia.
Qed.

(** ** Random access *)

Lemma rest_at_split data position :
  0 <= position <= Z.of_nat (length data) -> rest_at data position = skipn (Z.to_nat position) data.
Proof.
  intros H. unfold rest_at. destruct (Z.leb_spec (Z.of_nat (length data)) position); auto.
  symmetry. apply skipn_all2. lia.
Qed.

Lemma take_n_eof {A} (rd : reader A) enc : complete rd enc -> eof rd enc -> forall xs e,
  each enc e xs -> forall e1 e2, e = e1 ++ e2 -> e2 <> [] ->
  take_n rd (length xs) e1 = Err UnexpectedEof.
Proof.
  intros Hc He xs e H. induction H as [|e x es xs H E IH]; intros e1 e2 Eq N.
  { symmetry in Eq. apply app_eq_nil in Eq as [_ ->]. congruence. }
  cbn [length take_n]. apply app_eq_app in Eq as (l & [[-> Eu]|[-> Eu]]).
  - destruct l as [|b l].
    + rewrite app_nil_r in H. rewrite <- (app_nil_r e1). rewrite (Hc _ _ _ H). cbn [bind].
      rewrite (IH [] es); auto. simpl in Eu. congruence.
    + rewrite (He e1 (b :: l) x); auto. discriminate.
  - rewrite (Hc _ _ _ H). cbn [bind]. rewrite (IH l e2); auto.
Qed.

Lemma each_consumes_length {A} (enc : list byte -> A -> Prop) e xs :
  consumes enc -> each enc e xs -> (length xs <= length e)%nat.
Proof.
  intros C. induction 1 as [|e x es xs H E IH]; auto.
  apply C in H. rewrite app_length. destruct e; [congruence|]. simpl. lia.
Qed.

(** [take_vec] when the count is not absurd. *)
Lemma take_vec_sound {A} cfg size (rd : reader A) enc count s xs r :
  sound rd enc -> consumes enc -> 0 <= count ->
  take_vec cfg size rd count s = Ok (xs, r) ->
  Z.of_nat (length xs) = count /\ exists e, s = e ++ r /\ each enc e xs.
Proof.
  intros Hs Hc H0 H. rewrite (take_vec_loop _ _ _ _ _ _ Hs Hc H0) in H.
  destruct (preallocates cfg && (isize_max <? count * size)); [discriminate|].
  apply (take_n_sound _ _ Hs) in H as [L E]. split; [lia|auto].
Qed.

Lemma take_vec_complete {A} cfg size (rd : reader A) enc count e xs r :
  sound rd enc -> complete rd enc -> consumes enc -> count * size <= isize_max ->
  count = Z.of_nat (length xs) -> each enc e xs ->
  take_vec cfg size rd count (e ++ r) = Ok (xs, r).
Proof.
  intros Hs Hc Hn B -> E. rewrite (take_vec_loop _ _ _ _ _ _ Hs Hn) by lia.
  replace (isize_max <? Z.of_nat (length xs) * size) with false by (symmetry; apply Z.ltb_ge; lia).
  rewrite andb_false_r, Nat2Z.id. apply (take_n_complete _ _ Hc _ _ _ E).
Qed.

Lemma take_vec_total {A} cfg size (rd : reader A) count s :
  total rd -> count * size <= isize_max -> settled (take_vec cfg size rd count s).
Proof.
  intros Ht B. unfold take_vec.
  replace (isize_max <? count * size) with false by (symmetry; apply Z.ltb_ge; lia).
  rewrite andb_false_r. apply take_n_total, Ht.
Qed.

Lemma take_vec_eof {A} cfg size (rd : reader A) enc count e1 e2 xs :
  sound rd enc -> complete rd enc -> eof rd enc -> consumes enc -> count * size <= isize_max ->
  count = Z.of_nat (length xs) -> each enc (e1 ++ e2) xs -> e2 <> [] ->
  take_vec cfg size rd count e1 = Err UnexpectedEof.
Proof.
  intros Hs Hc He Hn B -> E N. rewrite (take_vec_loop _ _ _ _ _ _ Hs Hn) by lia.
  replace (isize_max <? Z.of_nat (length xs) * size) with false by (symmetry; apply Z.ltb_ge; lia).
  rewrite andb_false_r, Nat2Z.id. eapply take_n_eof; eauto.
Qed.

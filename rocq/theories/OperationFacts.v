(** OperationFacts: proofs about dictionary data. *)
From Coq Require Import Reals.
From Verif Require Import Base Float C1Number C1Operation BaseFacts SpecNumber NumberFacts
  SpecRounding FloatFacts RealFacts SpecOperation.

(** ** Operator codes *)

Lemma operator_from_code o : operator_from (operator_code o) = Ok o.
Proof. destruct o; reflexivity. Qed.

Lemma lookup_code_in {A} code (arms : list (Z * A)) v :
  lookup_code code arms = Some v -> In (code, v) arms.
Proof.
  induction arms as [|[k w] arms IH]; simpl; [discriminate|].
  destruct (Z.eqb_spec code k) as [->|]; auto. intros E. injection E as <-. auto.
Qed.

Lemma operator_codes_spec : Forall (fun p => fst p = operator_code (snd p)) operator_codes.
Proof. repeat constructor. Qed.

Lemma operator_from_iff code o : operator_from code = Ok o <-> code = operator_code o.
Proof.
  split.
  - unfold operator_from. destruct (lookup_code code operator_codes) eqn:E; [|discriminate].
    intros H. injection H as ->. apply lookup_code_in in E.
    pose proof operator_codes_spec as F. rewrite Forall_forall in F. apply (F _ E).
  - intros ->. apply operator_from_code.
Qed.

Lemma operator_from_error code :
  operator_from code = Err Other <-> forall o, code <> operator_code o.
Proof.
  split.
  - intros H o ->. rewrite operator_from_code in H. discriminate.
  - intros H. unfold operator_from. destruct (lookup_code code operator_codes) as [o|] eqn:E; auto.
    exfalso. apply (H o). apply operator_from_iff. unfold operator_from. rewrite E. reflexivity.
Qed.

Lemma operator_code_inj a b : operator_code a = operator_code b -> a = b.
Proof.
  intros H. pose proof (operator_from_code a) as A. rewrite H, operator_from_code in A. congruence.
Qed.

Lemma operator_from_settled code : settled (operator_from code).
Proof. unfold operator_from. destruct (lookup_code code operator_codes); exact I. Qed.

(** ** Operands *)

Lemma operand_encoding_iff e n : operand_encoding e n <-> number_encoding e n.
Proof.
  destruct n as [v|x]; simpl; [tauto|]. split; intros (d & E & R); exists d; split; auto.
  - apply (rounded_unique _ _ _ _ R), decimal_f32_rounded.
  - subst. apply decimal_f32_rounded.
Qed.

Lemma read_operand_sound : sound read_number operand_encoding.
Proof.
  intros s v r H. apply read_number_sound in H as (e & E & N). exists e. split; auto.
  apply operand_encoding_iff, N.
Qed.

Lemma read_operand_complete : complete read_number operand_encoding.
Proof. intros e v r H. apply read_number_complete, operand_encoding_iff, H. Qed.

Lemma operand_first e n : operand_encoding e n ->
  exists b t, e = b :: t /\ starts_operand (bz b) = true.
Proof.
  intros H. apply operand_encoding_iff, number_encoding_first in H as (b & t & -> & H).
  exists b, t. split; auto. unfold starts_operand.
  destruct H as [-> | [-> | [-> | H]]]; auto.
  destruct (Z.leb_spec 32 (bz b)), (Z.leb_spec (bz b) 254); lia.
Qed.

Lemma parse_loop_eof_inv s : forall buffer, parse_loop buffer s = Err UnexpectedEof ->
  exists t, spells (nibbles s) t.
Proof.
  induction s as [|b s IH]; intros buffer H. { exists []. constructor. }
  cbn [parse_loop] in H. rewrite high_nibble, low_nibble in H. rewrite nibbles_cons.
  destruct (on_nibble (bz b / 16)) as [t1| |] eqn:E1; try discriminate.
  destruct (on_nibble (bz b mod 16)) as [t2| |] eqn:E2; try discriminate.
  apply on_nibble_push in E1; [|apply high_bound]. apply on_nibble_push in E2; [|apply low_bound].
  apply IH in H as (t & T). exists (t1 ++ t2 ++ t). repeat constructor; auto.
Qed.

Lemma read_number_eof_iff s : s <> [] ->
  read_number s = Err UnexpectedEof <-> cut_number s.
Proof.
  intros N. split.
  - intros H. pose proof (read_number_cases s) as C. destruct s as [|b t]; [congruence|].
    destruct C as [[R C]|[[R C]|[[R C]|[[-> C]|[[-> C]|[[-> C]|[R C]]]]]]]; rewrite C in H;
      try discriminate.
    + destruct t as [|b1 t]; [|discriminate]. left. split; auto. eexists [x00], _.
      split; [discriminate|]. apply two_bytes_positive. lia.
    + destruct t as [|b1 t]; [|discriminate]. left. split; auto. eexists [x00], _.
      split; [discriminate|]. apply two_bytes_negative. lia.
    + left. split; auto. destruct t as [|b1 [|b2 t]]; [| |discriminate].
      * eexists [x00; x00], _. split; [discriminate|]. apply three_bytes.
      * eexists [x00], _. split; [discriminate|]. apply three_bytes.
    + left. split; auto. destruct t as [|b1 [|b2 [|b3 [|b4 t]]]]; [| | | |discriminate].
      * eexists [x00; x00; x00; x00], _. split; [discriminate|]. apply five_bytes.
      * eexists [x00; x00; x00], _. split; [discriminate|]. apply five_bytes.
      * eexists [x00; x00], _. split; [discriminate|]. apply five_bytes.
      * eexists [x00], _. split; [discriminate|]. apply five_bytes.
    + right. apply bind_err in H as [H|([x r] & _ & H)]; [|discriminate].
      unfold parse in H. apply bind_err in H as [H|([x r] & _ & H)].
      * apply parse_loop_eof_inv in H as (u & U). eauto.
      * destruct (parse_f32 x); discriminate.
  - intros [[_ (u & v & U & H)]|(body & u & -> & H)].
    + apply (read_number_eof s u (Integer v)); auto.
    + change (read_number (x1e :: body)) with (let* (x, s2) := parse body in Ok (Real x, s2)).
      unfold parse. rewrite (parse_loop_eof _ _ _ H). reflexivity.
Qed.

Lemma cut_number_first p : cut_number p -> exists b t, p = b :: t /\ starts_operand (bz b) = true.
Proof.
  intros [[N (u & v & U & H)]|(body & u & -> & H)].
  - destruct p as [|b p]; [congruence|]. exists b, p. split; auto.
    apply (operand_first _ (Integer v)) in H as (b' & t & E & S). simpl in E. congruence.
  - exists x1e, body. split; reflexivity.
Qed.

(** ** One operation *)

Lemma operator_bytes_cases o :
  (exists b, operator_bytes o = [b] /\ bz b = operator_code o /\ bz b <> 12 /\
     starts_operand (bz b) = false) \/
  (exists b, operator_bytes o = [x0c; b] /\ 12 * 2 ^ 8 + bz b = operator_code o).
Proof.
  destruct o; first [ left; eexists; split; [reflexivity|]; repeat split; cbv; discriminate
                    | right; eexists; split; reflexivity ].
Qed.

Lemma read_operation_operator fuel acc o r :
  read_operation_loop (S fuel) acc (operator_bytes o ++ r) = Ok ((o, acc), r).
Proof.
  destruct (operator_bytes_cases o) as [(b & -> & E & N & S)|(b & -> & E)].
  - cbn [read_operation_loop app peek_u8 take_u8 bind]. rewrite S.
    destruct (Z.eqb_spec (bz b) 12); [contradiction|]. cbn [bind].
    rewrite E, operator_from_code. reflexivity.
  - cbn [read_operation_loop app peek_u8 take_u8 bind].
    change (starts_operand (bz x0c)) with false. change (bz x0c =? 12) with true.
    cbn [take_u16 bind]. change (bz x0c) with 12. rewrite E, operator_from_code. reflexivity.
Qed.

Lemma loop_operands es ns : each operand_encoding es ns -> forall fuel acc r,
  (length (es ++ r) < fuel)%nat ->
  exists fuel', (length r < fuel')%nat /\
    read_operation_loop fuel acc (es ++ r) = read_operation_loop fuel' (acc ++ ns) r.
Proof.
  induction 1 as [|e x es xs H E IH]; intros fuel acc r L.
  - exists fuel. rewrite app_nil_r. split; auto.
  - destruct fuel as [|fuel]; [lia|].
    pose proof (operand_first _ _ H) as (b & t & He & S).
    rewrite <- app_assoc in *. rewrite app_length in L.
    destruct (IH fuel (acc ++ [x]) r) as (fuel' & L' & E').
    { rewrite He in L. simpl in L. lia. }
    exists fuel'. split; auto. rewrite <- app_assoc in E'. cbn [app] in E'. rewrite <- E'.
    cbn [read_operation_loop].
    assert (P : peek_u8 (e ++ es ++ r) = Ok (bz b)) by (rewrite He; reflexivity).
    rewrite P. cbn [bind]. rewrite S, (read_operand_complete _ _ _ H). reflexivity.
Qed.

Lemma read_operation_complete : complete read_operation operation_encoding.
Proof.
  intros e [o ns] r (es & E & H). cbn [fst snd] in *. subst e. unfold read_operation.
  rewrite <- app_assoc.
  destruct (loop_operands _ _ H (S (length (es ++ operator_bytes o ++ r))) [] (operator_bytes o ++ r))
    as (fuel & L & ->); [lia|].
  destruct fuel as [|fuel]; [lia|]. apply read_operation_operator.
Qed.

Lemma starts_operand_not_eof b t : starts_operand (bz b) = true -> forall x r,
  read_number (b :: t) = Ok (x, r) -> (length r < length (b :: t))%nat.
Proof.
  intros _ x r H. apply read_operand_sound in H as (e & E & N).
  apply operand_first in N as (b' & t' & -> & _). rewrite E, app_length. simpl. lia.
Qed.

(** What one round of the loop can do on a byte that starts no operand. *)
Lemma read_operation_operator_inv fuel acc b t o ns r :
  starts_operand (bz b) = false ->
  read_operation_loop (S fuel) acc (b :: t) = Ok ((o, ns), r) ->
  ns = acc /\ b :: t = operator_bytes o ++ r.
Proof.
  intros S H. cbn [read_operation_loop peek_u8 take_u8 bind] in H. rewrite S in H.
  destruct (Z.eqb_spec (bz b) 12) as [E|E].
  - inv_ok H. destruct a as [code r']. apply take_u16_ok in H0 as (b1 & b0 & E' & ->).
    injection E' as <- ->. inv_ok H. injection H as -> -> ->. split; auto.
    apply operator_from_iff in H0. unfold operator_bytes. rewrite <- H0, E.
    pose proof (bz_range b0).
    destruct (Z.ltb_spec (12 * 2 ^ 8 + bz b0) 256); [lia|].
    assert (Z1 : zb ((12 * 2 ^ 8 + bz b0) / 256) = b).
    { change (2 ^ 8) with 256. rewrite Z.div_add_l, Z.div_small by lia. rewrite <- E, Z.add_0_r.
      apply zb_bz. }
    assert (Z2 : zb (12 * 2 ^ 8 + bz b0) = b0).
    { apply bz_inj. rewrite bz_zb_mod. change (2 ^ 8) with 256. rewrite Z.add_comm, Z.mod_add by lia.
      apply Z.mod_small. lia. }
    rewrite Z1, Z2. reflexivity.
  - cbn [take_u8 bind] in H. inv_ok H. injection H as -> -> ->. split; auto.
    apply operator_from_iff in H0. unfold operator_bytes. rewrite <- H0.
    pose proof (bz_range b). destruct (Z.ltb_spec (bz b) 256); [|lia].
    rewrite zb_bz. reflexivity.
Qed.

Lemma read_operation_loop_sound fuel : forall acc s o ns r,
  read_operation_loop fuel acc s = Ok ((o, ns), r) ->
  exists es xs, ns = acc ++ xs /\ s = (es ++ operator_bytes o) ++ r /\ each operand_encoding es xs.
Proof.
  induction fuel as [|fuel IH]; intros acc s o ns r H; [discriminate|].
  destruct s as [|b t]; [discriminate|].
  destruct (starts_operand (bz b)) eqn:S.
  - cbn [read_operation_loop peek_u8 take_u8 bind] in H. rewrite S in H.
    inv_ok H. destruct a as [x r']. apply read_operand_sound in H0 as (e & E & N).
    apply IH in H as (es & xs & -> & -> & Es). rewrite E.
    exists (e ++ es), (x :: xs). rewrite <- !app_assoc. repeat split; auto. constructor; auto.
  - apply read_operation_operator_inv in H as [-> E]; auto.
    exists [], []. rewrite app_nil_r. repeat split; auto. constructor.
Qed.

Lemma read_operation_sound : sound read_operation operation_encoding.
Proof.
  intros s [o ns] r H. apply read_operation_loop_sound in H as (es & xs & -> & -> & E).
  exists (es ++ operator_bytes o). split; auto. exists es. split; auto.
Qed.

Lemma read_operation_loop_settled fuel : forall acc s,
  (length s < fuel)%nat -> settled (read_operation_loop fuel acc s).
Proof.
  induction fuel as [|fuel IH]; intros acc s L; [lia|].
  destruct s as [|b t]; [exact I|].
  cbn [read_operation_loop peek_u8 take_u8 bind].
  destruct (starts_operand (bz b)) eqn:S.
  - apply settled_bind; [apply read_number_settled|]. intros [x r] H. apply IH.
    apply starts_operand_not_eof in H; auto. lia.
  - apply settled_bind.
    + destruct (bz b =? 12); [destruct t|]; exact I.
    + intros [code r] _. apply settled_bind; [apply operator_from_settled|]. intros; exact I.
Qed.

Lemma read_operation_settled : total read_operation.
Proof. intros s. apply read_operation_loop_settled. lia. Qed.

Lemma read_operation_loop_eof_inv fuel : forall acc s,
  read_operation_loop fuel acc s = Err UnexpectedEof -> cut_operation s.
Proof.
  induction fuel as [|fuel IH]; intros acc s H; [discriminate|].
  destruct s as [|b t].
  { exists [], [], []. repeat split; auto. constructor. }
  cbn [read_operation_loop peek_u8 take_u8 bind] in H.
  destruct (starts_operand (bz b)) eqn:S.
  - apply bind_err in H as [H|([x r] & E & H)].
    + apply read_number_eof_iff in H; [|discriminate].
      exists [], [], (b :: t). repeat split; auto. constructor.
    + apply IH in H as (e & ns & p & -> & N & P).
      apply read_operand_sound in E as (e1 & -> & N1).
      exists (e1 ++ e), (x :: ns), p. rewrite <- app_assoc. repeat split; auto. constructor; auto.
  - destruct (Z.eqb_spec (bz b) 12) as [E|E].
    + assert (b = x0c) as -> by (apply bz_inj; assumption).
      apply bind_err in H as [H|([code r] & _ & H)].
      * destruct t; [|discriminate]. exists [], [], [x0c]. repeat split; auto. constructor.
      * apply bind_err in H as [H|(o & _ & H)]; [|discriminate].
        unfold operator_from in H. destruct (lookup_code code operator_codes); discriminate.
    + cbn [bind] in H. apply bind_err in H as [H|(o & _ & H)]; [|discriminate].
      unfold operator_from in H. destruct (lookup_code (bz b) operator_codes); discriminate.
Qed.

Lemma read_operation_eof_iff s : read_operation s = Err UnexpectedEof <-> cut_operation s.
Proof.
  split.
  - apply read_operation_loop_eof_inv.
  - intros (e & ns & p & -> & N & P). unfold read_operation.
    destruct (loop_operands _ _ N (S (length (e ++ p))) [] p) as (fuel & L & ->); [lia|].
    destruct fuel as [|fuel]; [lia|]. destruct P as [->|[->|C]]; try reflexivity.
    pose proof (cut_number_first _ C) as (b & t & E & S).
    assert (p <> []) by (rewrite E; discriminate).
    apply read_number_eof_iff in C; auto. cbn [read_operation_loop].
    assert (P : peek_u8 p = Ok (bz b)) by (rewrite E; reflexivity). rewrite P. cbn [bind].
    rewrite S, C. reflexivity.
Qed.

(** A proper prefix of a sequence of operands is made of operands and a cut one. *)
Lemma operands_prefix es ns : each operand_encoding es ns -> forall t u,
  es = t ++ u ->
  exists e ms p, t = e ++ p /\ each operand_encoding e ms /\ (p = [] \/ cut_number p).
Proof.
  induction 1 as [|e x es xs H E IH]; intros t u T.
  - symmetry in T. apply app_eq_nil in T as [-> ->]. exists [], [], []. repeat split; auto. constructor.
  - apply app_eq_app in T as (l & [[Ht Hu]|[He Hu]]).
    + subst e. destruct t as [|b t].
      { exists [], [], []. repeat split; auto. constructor. }
      destruct l as [|c l].
      { exists (b :: t), [x], []. rewrite !app_nil_r in *. repeat split; auto.
        pose proof (each_cons operand_encoding _ _ _ _ H (each_nil _)) as X.
        rewrite app_nil_r in X. exact X. }
      exists [], [], (b :: t). split; auto. split; [constructor|]. right.
      apply read_number_eof_iff; [discriminate|].
      apply operand_encoding_iff in H. eapply (read_number_eof _ (c :: l)); eauto. discriminate.
    + subst t. destruct (IH l u Hu) as (e' & ms & p & -> & M & P).
      exists (e ++ e'), (x :: ms), p. rewrite <- app_assoc. repeat split; auto. constructor; auto.
Qed.

Lemma operation_prefix t u op : u <> [] -> operation_encoding (t ++ u) op -> cut_operation t.
Proof.
  intros U (es & E & N).
  symmetry in E. apply app_eq_app in E as (l & [[He Hb]|[Ht Hb]]).
  - subst es. pose proof (operands_prefix _ _ N t l eq_refl) as N'.
    destruct N' as (e & ms & p & -> & M & P). exists e, ms, p. repeat split; auto. tauto.
  - subst t. destruct (operator_bytes_cases (fst op)) as [(b & Eb & _)|(b & Eb & _)]; rewrite Eb in Hb.
    + destruct l as [|b' [|]]; simpl in Hb; try congruence.
      exists es, (snd op), []. repeat split; auto.
    + destruct l as [|b' [|b'' [|]]]; simpl in Hb; try congruence.
      * exists es, (snd op), []. repeat split; auto.
      * injection Hb as <- Hb. exists es, (snd op), [x0c]. repeat split; auto.
Qed.

(** ** Maps *)

Lemma operator_eqb_eq a b : operator_eqb a b = true <-> a = b.
Proof. unfold operator_eqb. destruct (operator_eq_dec a b); split; auto; discriminate. Qed.

Lemma map_get_filter o o' m :
  map_get (filter (fun kv => negb (operator_eqb o (fst kv))) m) o' =
  if operator_eqb o o' then None else map_get m o'.
Proof.
  induction m as [|[k v] m IH]; simpl.
  - destruct (operator_eqb o o'); reflexivity.
  - destruct (operator_eqb o k) eqn:K; simpl.
    + apply operator_eqb_eq in K as <-. rewrite IH.
      unfold operator_eqb. destruct (operator_eq_dec o o'), (operator_eq_dec o' o); congruence.
    + rewrite IH. destruct (operator_eqb o' k) eqn:K'; auto.
      apply operator_eqb_eq in K' as ->. rewrite K. reflexivity.
Qed.

Lemma map_get_insert o v m o' :
  map_get (map_insert o v m) o' = if operator_eqb o o' then Some v else map_get m o'.
Proof.
  unfold map_insert. cbn [map_get]. rewrite map_get_filter. unfold operator_eqb.
  destruct (operator_eq_dec o' o), (operator_eq_dec o o'); congruence.
Qed.

(** The map after a sequence of insertions. *)
Definition inserted (ops : list (operator * list number)) (m : operations) : operations :=
  fold_left (fun m op => map_insert (fst op) (snd op) m) ops m.

Lemma inserted_app a b m : inserted (a ++ b) m = inserted b (inserted a m).
Proof. apply fold_left_app. Qed.

Lemma map_get_inserted ops o : forall v,
  map_get (inserted ops []) o = Some v <-> last_occurrence ops o v.
Proof.
  induction ops as [|[k w] ops IH] using rev_ind; intros v.
  - split; [discriminate|]. intros (a & b & E & _). destruct a; discriminate.
  - rewrite inserted_app. cbn [inserted fold_left fst snd]. rewrite map_get_insert.
    destruct (operator_eqb k o) eqn:K.
    + apply operator_eqb_eq in K as ->. split.
      * intros E. injection E as <-. exists ops, []. split; auto.
      * intros (a & b & E & N). destruct b as [|[k' w'] b _] using rev_ind.
        -- apply app_inj_tail in E as [-> E]. congruence.
        -- rewrite app_comm_cons, app_assoc in E. apply app_inj_tail in E as [-> E].
           injection E as <- <-. exfalso. apply (N w). apply in_or_app. right. left. reflexivity.
    + assert (k <> o) by (intros ->; rewrite (proj2 (operator_eqb_eq o o) eq_refl) in K; discriminate).
      fold (inserted ops []). rewrite IH. split; intros (a & b & E & N).
      * exists a, (b ++ [(k, w)]). subst ops. rewrite <- app_assoc. split; auto.
        intros u I. apply in_app_or in I as [I|[I|[]]]; [eapply N; eauto|]. congruence.
      * destruct b as [|[k' w'] b _] using rev_ind.
        { apply app_inj_tail in E as [_ E]. congruence. }
        rewrite app_comm_cons, app_assoc in E. apply app_inj_tail in E as [-> E].
        exists a, b. split; auto. intros u I. apply (N u). apply in_or_app. auto.
Qed.

Lemma last_occurrence_exists ops o v : In (o, v) ops -> exists w, last_occurrence ops o w.
Proof.
  induction ops as [|[k w] ops IH]; intros []; [|].
  - injection H as -> ->.
    assert (D : (exists u, In (o, u) ops) \/ forall u, ~ In (o, u) ops).
    { clear. induction ops as [|[k w] ops IH]; [right; auto|].
      destruct (operator_eq_dec k o) as [->|N]; [left; exists w; left; reflexivity|].
      destruct IH as [[u U]|U]; [left; exists u; right; assumption|].
      right. intros u [I|I]; [congruence|]. eapply U; eauto. }
    destruct D as [[u U]|U].
    + clear IH. revert u U. induction ops as [|[k w] ops IH] using rev_ind; intros u U; [contradiction|].
      destruct (operator_eq_dec k o) as [->|N].
      * exists w, ((o, v) :: ops), []. split; auto.
      * apply in_app_or in U as [U|[U|[]]]; [|congruence].
        destruct (IH u U) as (x & a & b & E & N'). exists x, a, (b ++ [(k, w)]).
        rewrite app_comm_cons, E, <- app_assoc. split; auto.
        intros y I. apply in_app_or in I as [I|[I|[]]]; [eapply N'; eauto|congruence].
    + exists v, [], ops. split; auto.
  - destruct (IH H) as (u & a & b & -> & N). exists u, ((k, w) :: a), b. split; auto.
Qed.

Lemma map_get_inserted_none ops o :
  map_get (inserted ops []) o = None <-> forall v, ~ In (o, v) ops.
Proof.
  split.
  - intros H v I. apply last_occurrence_exists in I as (w & L). apply map_get_inserted in L. congruence.
  - intros H. destruct (map_get (inserted ops []) o) as [v|] eqn:E; auto.
    apply map_get_inserted in E as (a & b & -> & _). exfalso. apply (H v).
    apply in_or_app. right. left. reflexivity.
Qed.

(** ** Dictionaries *)

Lemma operation_nonempty : consumes operation_encoding.
Proof.
  intros e v (es & -> & _) E. apply app_eq_nil in E as [_ E].
  destruct (operator_bytes_cases (fst v)) as [(b & H & _)|(b & H & _)]; rewrite H in E; discriminate.
Qed.

Lemma read_operations_loop_complete ops e : dictionary_encoding e ops -> forall fuel m t,
  (length (e ++ t) < fuel)%nat ->
  exists fuel', (length t < fuel')%nat /\
  read_operations_loop fuel m (e ++ t) = read_operations_loop fuel' (inserted ops m) t.
Proof.
  induction 1 as [|e x es xs H E IH]; intros fuel m t L.
  - exists fuel. auto.
  - destruct fuel as [|fuel]; [lia|]. pose proof (operation_nonempty _ _ H) as NE.
    destruct (IH fuel (map_insert (fst x) (snd x) m) t) as (fuel' & L' & E').
    { rewrite !app_length in *. destruct e; [congruence|]. simpl in L. lia. }
    exists fuel'. split; auto. change (inserted (x :: xs) m) with (inserted xs (map_insert (fst x) (snd x) m)).
    rewrite <- E', <- app_assoc. cbn [read_operations_loop].
    rewrite (read_operation_complete _ _ _ H). destruct x as [o ns]. reflexivity.
Qed.

Lemma read_operations_complete e ops t : dictionary_encoding e ops -> cut_operation t ->
  read_operations (e ++ t) = Ok (inserted ops []).
Proof.
  intros H C. unfold read_operations.
  destruct (read_operations_loop_complete _ _ H (S (length (e ++ t))) [] t) as (fuel & L & ->); [lia|].
  destruct fuel as [|fuel]; [lia|]. cbn [read_operations_loop].
  apply read_operation_eof_iff in C. rewrite C. reflexivity.
Qed.

Lemma read_operations_loop_sound fuel : forall m s m',
  read_operations_loop fuel m s = Ok m' ->
  exists e ops t, s = e ++ t /\ dictionary_encoding e ops /\ cut_operation t /\ m' = inserted ops m.
Proof.
  induction fuel as [|fuel IH]; intros m s m' H; [discriminate|].
  cbn [read_operations_loop] in H. destruct (read_operation s) as [[[o ns] r]|[|]| |] eqn:E; try discriminate.
  - apply read_operation_sound in E as (e & -> & E). apply IH in H as (es & ops & t & -> & D & C & ->).
    exists (e ++ es), ((o, ns) :: ops), t. rewrite <- app_assoc. repeat split; auto. constructor; auto.
  - injection H as <-. apply read_operation_eof_iff in E.
    exists [], [], s. repeat split; auto. constructor.
Qed.

Lemma read_operations_sound s m : read_operations s = Ok m ->
  exists e ops t, s = e ++ t /\ dictionary_encoding e ops /\ cut_operation t /\ m = inserted ops [].
Proof. apply read_operations_loop_sound. Qed.

Lemma read_operations_loop_settled fuel : forall m s,
  (length s < fuel)%nat -> settled (read_operations_loop fuel m s).
Proof.
  induction fuel as [|fuel IH]; intros m s L; [lia|].
  cbn [read_operations_loop]. pose proof (read_operation_settled s) as T.
  destruct (read_operation s) as [[[o ns] r]|[|]| |] eqn:E; auto.
  apply read_operation_sound in E as (e & -> & E). apply operation_nonempty in E.
  apply IH. rewrite app_length in L. destruct e; [congruence|]. simpl in L. lia.
Qed.

Lemma read_operations_settled s : settled (read_operations s).
Proof. apply read_operations_loop_settled. lia. Qed.

(** An error is never the end of file. *)
Lemma read_operations_loop_err fuel : forall m s k,
  read_operations_loop fuel m s = Err k -> k = Other.
Proof.
  induction fuel as [|fuel IH]; intros m s k H; [discriminate|].
  cbn [read_operations_loop] in H. destruct (read_operation s) as [[[o ns] r]|[|]| |]; try discriminate.
  - eapply IH; eauto.
  - congruence.
Qed.

Lemma cut_operation_nil : cut_operation [].
Proof. exists [], [], []. repeat split; auto. constructor. Qed.

(** *** Corollaries *)

Lemma dictionary_reads e ops : dictionary_encoding e ops ->
  exists m, read_operations e = Ok m /\
    (forall o v, map_get m o = Some v <-> last_occurrence ops o v) /\
    (forall o, map_get m o = None <-> forall v, ~ In (o, v) ops).
Proof.
  intros H. exists (inserted ops []). split.
  - rewrite <- (app_nil_r e). apply read_operations_complete; auto. apply cut_operation_nil.
  - split; intros; [apply map_get_inserted|apply map_get_inserted_none].
Qed.

Lemma dictionary_split ops e : dictionary_encoding e ops -> forall e1 e2, e = e1 ++ e2 ->
  exists ops1 ops2 f t, ops = ops1 ++ ops2 /\ e1 = f ++ t /\
    dictionary_encoding f ops1 /\ dictionary_encoding (t ++ e2) ops2 /\
    (t = [] \/ exists op u, hd_error ops2 = Some op /\ u <> [] /\ operation_encoding (t ++ u) op).
Proof.
  induction 1 as [|e x es xs H E IH]; intros e1 e2 T.
  - symmetry in T. apply app_eq_nil in T as [-> ->]. exists [], [], [], [].
    repeat split; auto; constructor.
  - apply app_eq_app in T as (l & [[Ht Hu]|[He Hu]]).
    + subst e e2. destruct l as [|c l].
      * exists [x], xs, e1, []. rewrite !app_nil_r in *. repeat split; auto.
        rewrite <- (app_nil_r e1). constructor; auto. constructor.
      * exists [], (x :: xs), [], e1. split; [reflexivity|]. split; [reflexivity|].
        split; [constructor|]. split.
        { rewrite app_assoc. constructor; auto. }
        right. exists x, (c :: l). split; [reflexivity|]. split; [discriminate|assumption].
    + subst e1. destruct (IH l e2 Hu) as (ops1 & ops2 & f & t & -> & -> & D1 & D2 & P).
      exists (x :: ops1), ops2, (e ++ f), t. rewrite <- app_assoc. repeat split; auto.
      constructor; auto.
Qed.

Lemma dictionary_cut ops e1 e2 : dictionary_encoding (e1 ++ e2) ops ->
  exists ops1 ops2 f t, ops = ops1 ++ ops2 /\ e1 = f ++ t /\
    dictionary_encoding f ops1 /\ dictionary_encoding (t ++ e2) ops2 /\
    (t = [] \/ exists op u, hd_error ops2 = Some op /\ u <> [] /\ operation_encoding (t ++ u) op) /\
    exists m, read_operations e1 = Ok m /\ read_operations f = Ok m /\
      forall o v, map_get m o = Some v <-> last_occurrence ops1 o v.
Proof.
  intros H. destruct (dictionary_split _ _ H e1 e2 eq_refl)
    as (ops1 & ops2 & f & t & -> & -> & D1 & D2 & P).
  exists ops1, ops2, f, t. repeat split; auto. exists (inserted ops1 []). repeat split.
  - apply read_operations_complete; auto. destruct P as [->|(op & u & _ & U & O)].
    + apply cut_operation_nil.
    + eapply operation_prefix; eauto.
  - rewrite <- (app_nil_r f). apply read_operations_complete; auto. apply cut_operation_nil.
  - apply map_get_inserted.
  - apply map_get_inserted.
Qed.

Lemma dictionary_accepted s : (exists m, read_operations s = Ok m) <->
  exists e ops t, s = e ++ t /\ dictionary_encoding e ops /\ cut_operation t.
Proof.
  split.
  - intros (m & H). apply read_operations_sound in H as (e & ops & t & E & D & C & _). eauto 10.
  - intros (e & ops & t & -> & D & C). eexists. apply read_operations_complete; eauto.
Qed.

Lemma dictionary_rejected s : read_operations s = Err Other <->
  ~ exists e ops t, s = e ++ t /\ dictionary_encoding e ops /\ cut_operation t.
Proof.
  split.
  - intros H A. apply dictionary_accepted in A as (m & A). congruence.
  - intros H. pose proof (read_operations_settled s) as T.
    destruct (read_operations s) as [m|k| |] eqn:E; try contradiction.
    + exfalso. apply H. apply dictionary_accepted. eauto.
    + apply read_operations_loop_err in E. congruence.
Qed.

Lemma dictionary_result s m e ops t :
  read_operations s = Ok m -> s = e ++ t -> dictionary_encoding e ops -> cut_operation t ->
  (forall o v, map_get m o = Some v <-> last_occurrence ops o v) /\
  (forall o, map_get m o = None <-> forall v, ~ In (o, v) ops).
Proof.
  intros H -> D C. rewrite (read_operations_complete _ _ _ D C) in H. injection H as <-.
  split; intros; [apply map_get_inserted|apply map_get_inserted_none].
Qed.

Lemma lookup_reads e ops m : dictionary_encoding e ops -> read_operations e = Ok m ->
  (forall o v, last_occurrence ops o v ->
     operations_get m o = Some v /\ get_single m o = nth_error v 0 /\
     get_double m o = match v with a :: b :: _ => Some (a, b) | _ => None end) /\
  (forall o, (forall v, ~ In (o, v) ops) ->
     operations_get m o = operator_default o /\
     get_single m o = match operator_default o with Some v => nth_error v 0 | None => None end /\
     get_double m o =
       match operator_default o with Some (a :: b :: _) => Some (a, b) | _ => None end).
Proof.
  intros D H. destruct (dictionary_reads _ _ D) as (m' & H' & S & N).
  rewrite H in H'. injection H' as <-. unfold get_single, get_double, operations_get. split.
  - intros o v L. apply S in L. rewrite L. repeat split; destruct v as [|a [|b v]]; auto.
  - intros o A. apply N in A. rewrite A. destruct (operator_default o) as [[|a [|b v]]|]; auto.
Qed.

(** ** Defaults *)

Lemma literal_rounded m e : 0 <= m -> rounded (IZR m * powerRZ 10 e) false (f32_of_decimal false m e).
Proof.
  intros H. pose proof (f32_of_decimal_correct false m e H) as R.
  cbv iota in R. rewrite Rmult_1_l in R. exact R.
Qed.

Lemma zero_rounded : rounded (IZR 0 * powerRZ 10 0) false (f32_of_decimal false 0 (-1)).
Proof.
  change (f32_of_decimal false 0 (-1)) with (f32_of_decimal false 0 0). apply literal_rounded. lia.
Qed.

Lemma defaults_denote o :
  match specified_default o, operator_default o with
  | Some ls, Some ns => Forall2 denotes ls ns
  | None, None => True
  | _, _ => False
  end.
Proof.
  destruct o; cbn [specified_default operator_default]; try exact I; repeat constructor; cbn [denotes];
    try apply zero_rounded; apply literal_rounded; lia.
Qed.

(** ** Tables *)

Lemma key_eqb o k : (operator_code k =? operator_code o) = operator_eqb o k.
Proof.
  unfold operator_eqb. destruct (operator_eq_dec o k) as [->|N]; [apply Z.eqb_refl|].
  apply Z.eqb_neq. intros E. apply operator_code_inj in E. congruence.
Qed.

Lemma table_inserted ops : inserted ops [] = table ops.
Proof.
  induction ops as [|[o v] ops IH] using rev_ind; [reflexivity|].
  rewrite inserted_app. unfold table. rewrite rev_app_distr. cbn [inserted fold_left rev app first_occurrences fst snd].
  unfold map_insert. fold (inserted ops []). rewrite IH. f_equal. unfold table. apply filter_ext.
  intros [k w]. cbn [fst]. rewrite key_eqb. reflexivity.
Qed.

Lemma read_operations_iff s t : read_operations s = Ok t <-> dictionary_data s t.
Proof.
  split.
  - intros H. apply read_operations_sound in H as (e & ops & cut & -> & D & C & ->).
    exists e, ops, cut. rewrite table_inserted. auto.
  - intros (e & ops & cut & -> & D & C & ->). rewrite <- table_inserted. apply read_operations_complete; auto.
Qed.

Lemma dictionary_data_unique s t t' : dictionary_data s t -> dictionary_data s t' -> t = t'.
Proof. intros H H'. apply read_operations_iff in H, H'. congruence. Qed.

Lemma absent_iff t o : map_get t o = None <-> absent t o.
Proof.
  unfold absent. induction t as [|[k w] t IH]; cbn [map_get In]; [split; auto|].
  destruct (operator_eqb o k) eqn:E.
  - apply operator_eqb_eq in E as ->. split; [discriminate|]. intros H. exfalso. apply (H w). auto.
  - rewrite IH. split; intros H v; [|intros I; apply (H v); auto].
    intros [I|I]; [|apply (H v I)]. injection I as -> ->.
    rewrite (proj2 (operator_eqb_eq o o) eq_refl) in E. discriminate.
Qed.

Lemma entry_iff t o v : map_get t o = Some v <-> entry t o v.
Proof.
  unfold entry. split.
  - induction t as [|[k w] t IH]; cbn [map_get]; [discriminate|].
    destruct (operator_eqb o k) eqn:E; intros H.
    + apply operator_eqb_eq in E as ->. injection H as ->. exists [], t. split; auto.
    + destruct (IH H) as (before & after & -> & N). exists ((k, w) :: before), after. split; auto.
      intros u [I|I]; [|apply (N u I)]. injection I as -> ->.
      rewrite (proj2 (operator_eqb_eq o o) eq_refl) in E. discriminate.
  - intros (before & after & -> & N). induction before as [|[k w] before IH]; cbn [app map_get].
    + rewrite (proj2 (operator_eqb_eq o o) eq_refl). reflexivity.
    + destruct (operator_eqb o k) eqn:E.
      * apply operator_eqb_eq in E as ->. exfalso. apply (N w). left. reflexivity.
      * apply IH. intros u I. apply (N u). right. exact I.
Qed.

Lemma denotes_unique l a b : denotes l a -> denotes l b -> a = b.
Proof.
  destruct l, a, b; cbn [denotes]; try contradiction; [congruence|].
  intros A B. f_equal. eapply rounded_unique; eauto.
Qed.

Lemma all_denote_unique ls : forall a b, Forall2 denotes ls a -> Forall2 denotes ls b -> a = b.
Proof.
  induction ls as [|l ls IH]; intros a b A B; inversion A; inversion B; subst; auto.
  f_equal; eauto using denotes_unique.
Qed.

Lemma default_iff o v :
  operator_default o = Some v <-> exists ls, specified_default o = Some ls /\ Forall2 denotes ls v.
Proof.
  pose proof (defaults_denote o) as D.
  destruct (specified_default o) as [ls|], (operator_default o) as [w|]; try contradiction.
  - split.
    + intros H. injection H as <-. eauto.
    + intros (ls' & E & F). injection E as <-. f_equal. eauto using all_denote_unique.
  - split; [discriminate|]. intros (ls & E & _). discriminate.
Qed.

Lemma operand_list_iff t o v : operations_get t o = Some v <-> operand_list t o v.
Proof.
  unfold operations_get, operand_list. rewrite <- entry_iff, <- absent_iff, <- default_iff.
  destruct (map_get t o) as [w|]; split; intros H; auto.
  - destruct H as [H|[H _]]; congruence.
  - destruct H as [H|[_ H]]; congruence.
Qed.

Lemma operand_list_unique t o v w : operand_list t o v -> operand_list t o w -> v = w.
Proof. rewrite <- !operand_list_iff. congruence. Qed.

Lemma table_entry ops o v : entry (table ops) o v <-> last_occurrence ops o v.
Proof. rewrite <- entry_iff, <- table_inserted. apply map_get_inserted. Qed.

Lemma table_absent ops o : absent (table ops) o <-> forall v, ~ In (o, v) ops.
Proof. rewrite <- absent_iff, <- table_inserted. apply map_get_inserted_none. Qed.

Lemma lookup_operands e ops m o v : dictionary_encoding e ops -> read_operations e = Ok m ->
  operations_get m o = Some v <->
  (last_occurrence ops o v \/
   (forall w, ~ In (o, w) ops) /\
   exists literals, specified_default o = Some literals /\ Forall2 denotes literals v).
Proof.
  intros D H. rewrite operand_list_iff. unfold operand_list.
  assert (E : m = table ops).
  { apply read_operations_iff in H. eapply dictionary_data_unique; [exact H|].
    exists e, ops, []. rewrite app_nil_r. auto using cut_operation_nil. }
  rewrite E, table_entry, table_absent. reflexivity.
Qed.

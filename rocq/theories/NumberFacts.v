(** NumberFacts: proofs about dictionary numbers and offsets. *)
From Verif Require Import Base Float BaseFacts SpecNumber C1Number.

(** ** Integers *)

Lemma as_i16_signed v : 0 <= v < 2 ^ 16 -> as_i16 v = signed 16 v.
Proof.
  intros H. unfold as_i16, signed. change (2 ^ (16 - 1)) with (2 ^ 15).
  destruct (Z.ltb_spec v (2 ^ 15)).
  - rewrite Z.mod_small; lia.
  - replace (v + 2 ^ 15) with (v - 2 ^ 15 + 1 * 2 ^ 16) by lia.
    rewrite Z.mod_add, Z.mod_small; lia.
Qed.

Lemma as_i32_signed v : 0 <= v < 2 ^ 32 -> as_i32 v = signed 32 v.
Proof.
  intros H. unfold as_i32, signed. change (2 ^ (32 - 1)) with (2 ^ 31).
  destruct (Z.ltb_spec v (2 ^ 31)).
  - rewrite Z.mod_small; lia.
  - replace (v + 2 ^ 31) with (v - 2 ^ 31 + 1 * 2 ^ 32) by lia.
    rewrite Z.mod_add, Z.mod_small; lia.
Qed.

Lemma be2 b1 b0 : big_endian [b1; b0] = bz b1 * 2 ^ 8 + bz b0.
Proof. unfold big_endian. simpl. lia. Qed.

Lemma be3 b2 b1 b0 : big_endian [b2; b1; b0] = bz b2 * 2 ^ 16 + bz b1 * 2 ^ 8 + bz b0.
Proof. unfold big_endian. simpl fold_left. lia. Qed.

Lemma be4 b3 b2 b1 b0 :
  big_endian [b3; b2; b1; b0] = bz b3 * 2 ^ 24 + bz b2 * 2 ^ 16 + bz b1 * 2 ^ 8 + bz b0.
Proof. unfold big_endian. simpl fold_left. lia. Qed.

Lemma be2_range b1 b0 : 0 <= big_endian [b1; b0] < 2 ^ 16.
Proof. rewrite be2. pose proof (bz_range b1). pose proof (bz_range b0). lia. Qed.

Lemma be4_range b3 b2 b1 b0 : 0 <= big_endian [b3; b2; b1; b0] < 2 ^ 32.
Proof.
  rewrite be4. pose proof (bz_range b3). pose proof (bz_range b2).
  pose proof (bz_range b1). pose proof (bz_range b0). lia.
Qed.

(** Reduce the comparisons of a literal first byte. *)
Ltac first_byte :=
  repeat match goal with
         | |- context [(?a <=? bz ?b)] =>
             first [ replace (a <=? bz b) with true by (symmetry; apply Z.leb_le; lia)
                   | replace (a <=? bz b) with false by (symmetry; apply Z.leb_gt; lia) ]
         | |- context [(bz ?b <=? ?a)] =>
             first [ replace (bz b <=? a) with true by (symmetry; apply Z.leb_le; lia)
                   | replace (bz b <=? a) with false by (symmetry; apply Z.leb_gt; lia) ]
         end; cbn [andb bind].

Lemma read_integer_complete e v r :
  integer_encoding e v -> read_number (e ++ r) = Ok (Integer v, r).
Proof.
  intros H. destruct H; cbn [app]; unfold read_number; cbn [take_u8 bind].
  - first_byte. reflexivity.
  - first_byte. reflexivity.
  - first_byte. reflexivity.
  - cbn [take_u8 bind take_u16].
    change (bz x1c) with 28. cbn -[as_i16 Z.pow Z.mul].
    rewrite <- be2, as_i16_signed by apply be2_range. reflexivity.
  - cbn [take_u8 bind take_u32].
    change (bz x1d) with 29. cbn -[as_i32 Z.pow Z.mul].
    rewrite <- be4, as_i32_signed by apply be4_range. reflexivity.
Qed.

(** The cases of a first byte. *)
Lemma read_number_cases s :
  match s with
  | [] => read_number s = Err UnexpectedEof
  | b :: t =>
      (32 <= bz b <= 246 /\ read_number s = Ok (Integer (bz b - 139), t)) \/
      (247 <= bz b <= 250 /\
       read_number s = (let* (c, r) := take_u8 t in Ok (Integer ((bz b - 247) * 256 + c + 108), r))) \/
      (251 <= bz b <= 254 /\
       read_number s = (let* (c, r) := take_u8 t in Ok (Integer (- (bz b - 251) * 256 - c - 108), r))) \/
      (b = x1c /\ read_number s = (let* (w, r) := take_u16 t in Ok (Integer (as_i16 w), r))) \/
      (b = x1d /\ read_number s = (let* (w, r) := take_u32 t in Ok (Integer (as_i32 w), r))) \/
      (b = x1e /\ read_number s = (let* (x, r) := parse t in Ok (Real x, r))) \/
      ((bz b < 28 \/ bz b = 31 \/ bz b = 255) /\ read_number s = Err Other)
  end.
Proof.
  destruct s as [|b t]; [reflexivity|]. unfold read_number. cbn [take_u8 bind].
  pose proof (bz_range b).
  destruct ((32 <=? bz b) && (bz b <=? 246)) eqn:E1.
  { apply andb_true_iff in E1. left. split; [lia|reflexivity]. }
  destruct ((247 <=? bz b) && (bz b <=? 250)) eqn:E2.
  { apply andb_true_iff in E2. right; left. split; [lia|reflexivity]. }
  destruct ((251 <=? bz b) && (bz b <=? 254)) eqn:E3.
  { apply andb_true_iff in E3. do 2 right; left. split; [lia|reflexivity]. }
  destruct (Z.eqb_spec (bz b) 28).
  { do 3 right; left. split; [apply bz_inj; assumption|reflexivity]. }
  destruct (Z.eqb_spec (bz b) 29).
  { do 4 right; left. split; [apply bz_inj; assumption|reflexivity]. }
  destruct (Z.eqb_spec (bz b) 30).
  { do 5 right; left. split; [apply bz_inj; assumption|reflexivity]. }
  do 6 right. split; [|reflexivity].
  apply andb_false_iff in E1. apply andb_false_iff in E2. apply andb_false_iff in E3. lia.
Qed.

Lemma read_integer_sound s v r :
  read_number s = Ok (Integer v, r) -> exists e, s = e ++ r /\ integer_encoding e v.
Proof.
  intros H. pose proof (read_number_cases s) as C. destruct s as [|b t]; [congruence|].
  destruct C as [[R C]|[[R C]|[[R C]|[[-> C]|[[-> C]|[[-> C]|[R C]]]]]]]; rewrite C in H.
  - inversion H; subst. exists [b]. split; auto. constructor; auto.
  - inv_ok H. destruct a as [c t']. apply take_u8_ok in H0 as (b1 & -> & ->).
    inversion H; subst. exists [b; b1]. split; auto. constructor; auto.
  - inv_ok H. destruct a as [c t']. apply take_u8_ok in H0 as (b1 & -> & ->).
    inversion H; subst. exists [b; b1]. split; auto. constructor; auto.
  - inv_ok H. destruct a as [c t']. apply take_u16_ok in H0 as (b1 & b0 & -> & ->).
    inversion H; subst. exists [x1c; b1; b0]. split; auto.
    rewrite <- be2, as_i16_signed by apply be2_range. constructor.
  - inv_ok H. destruct a as [c t']. apply take_u32_ok in H0 as (b3 & b2 & b1 & b0 & -> & ->).
    inversion H; subst. exists [x1d; b3; b2; b1; b0]. split; auto.
    rewrite <- be4, as_i32_signed by apply be4_range. constructor.
  - inv_ok H. destruct a as [c t']. discriminate.
  - discriminate.
Qed.

(** Encodings denote 32-bit integers. *)
Lemma integer_encoding_range e v : integer_encoding e v -> - 2 ^ 31 <= v < 2 ^ 31.
Proof.
  intros H. destruct H.
  - lia.
  - pose proof (bz_range b1). lia.
  - pose proof (bz_range b1). lia.
  - pose proof (be2_range b1 b2). unfold signed.
    destruct (Z.ltb_spec (big_endian [b1; b2]) (2 ^ (16 - 1))); lia.
  - pose proof (be4_range b1 b2 b3 b4). unfold signed.
    destruct (Z.ltb_spec (big_endian [b1; b2; b3; b4]) (2 ^ (32 - 1))); lia.
Qed.

(** ** Encoders *)

Lemma bz_zb_mod z : bz (zb z) = z mod 256.
Proof.
  replace (zb z) with (zb (z mod 256)).
  - apply bz_zb. apply Z.mod_pos_bound. lia.
  - unfold zb. rewrite Z.mod_mod by lia. reflexivity.
Qed.

Lemma bytes16_value v : - 2 ^ 15 <= v < 2 ^ 15 -> signed 16 (big_endian (bytes16 v)) = v.
Proof.
  intros H. unfold bytes16. rewrite be2, !bz_zb_mod. unfold signed.
  change (2 ^ 8) with 256. change (2 ^ (16 - 1)) with 32768. change (2 ^ 16) with 65536.
  change (2 ^ 15) with 32768 in H.
  destruct (Z.ltb_spec (v / 256 mod 256 * 256 + v mod 256) 32768);
    pose proof (Z.div_mod v 256); pose proof (Z.div_mod (v / 256) 256);
    pose proof (Z.mod_pos_bound v 256); pose proof (Z.mod_pos_bound (v / 256) 256); lia.
Qed.

Lemma bytes32_value v : - 2 ^ 31 <= v < 2 ^ 31 -> signed 32 (big_endian (bytes32 v)) = v.
Proof.
  intros H. unfold bytes32. rewrite be4, !bz_zb_mod. unfold signed.
  change (2 ^ 8) with 256. change (2 ^ (32 - 1)) with 2147483648.
  change (2 ^ 32) with 4294967296. change (2 ^ 24) with (256 * (256 * 256)).
  change (2 ^ 16) with (256 * 256).
  change (2 ^ 31) with 2147483648 in H.
  rewrite <- !Z.div_div by lia.
  pose proof (Z.div_mod v 256); pose proof (Z.mod_pos_bound v 256).
  pose proof (Z.div_mod (v / 256) 256); pose proof (Z.mod_pos_bound (v / 256) 256).
  pose proof (Z.div_mod (v / 256 / 256) 256); pose proof (Z.mod_pos_bound (v / 256 / 256) 256).
  pose proof (Z.div_mod (v / 256 / 256 / 256) 256);
    pose proof (Z.mod_pos_bound (v / 256 / 256 / 256) 256).
  match goal with |- (if ?a <? ?b then _ else _) = _ => destruct (Z.ltb_spec a b) end; lia.
Qed.

Lemma five_bytes_encoding v :
  - 2 ^ 31 <= v < 2 ^ 31 -> integer_encoding (x1d :: bytes32 v) v.
Proof. intros H. rewrite <- (bytes32_value v H) at 2. constructor. Qed.

Lemma three_bytes_encoding v :
  - 2 ^ 15 <= v < 2 ^ 15 -> integer_encoding (x1c :: bytes16 v) v.
Proof. intros H. rewrite <- (bytes16_value v H) at 2. constructor. Qed.

Lemma shortest_encoding v : - 2 ^ 31 <= v < 2 ^ 31 -> integer_encoding (shortest v) v.
Proof.
  intros H. unfold shortest.
  destruct ((-107 <=? v) && (v <=? 107)) eqn:E1.
  { apply andb_true_iff in E1. rewrite <- (Z.add_simpl_r v 139) at 2.
    rewrite <- (bz_zb (v + 139)) at 2 by lia. apply one_byte. rewrite bz_zb; lia. }
  destruct ((108 <=? v) && (v <=? 1131)) eqn:E2.
  { apply andb_true_iff in E2.
    pose proof (Z.div_mod (v - 108) 256); pose proof (Z.mod_pos_bound (v - 108) 256).
    pose proof (two_bytes_positive (zb ((v - 108) / 256 + 247)) (zb (v - 108))) as T.
    rewrite bz_zb, bz_zb_mod in T by lia.
    match type of T with _ -> integer_encoding _ ?x => replace x with v in T by lia end.
    apply T. lia. }
  destruct ((-1131 <=? v) && (v <=? -108)) eqn:E3.
  { apply andb_true_iff in E3.
    pose proof (Z.div_mod (- v - 108) 256); pose proof (Z.mod_pos_bound (- v - 108) 256).
    pose proof (two_bytes_negative (zb ((- v - 108) / 256 + 251)) (zb (- v - 108))) as T.
    rewrite bz_zb, bz_zb_mod in T by lia.
    match type of T with _ -> integer_encoding _ ?x => replace x with v in T by lia end.
    apply T. lia. }
  destruct ((- 2 ^ 15 <=? v) && (v <? 2 ^ 15)) eqn:E4.
  { apply andb_true_iff in E4. apply three_bytes_encoding. lia. }
  apply five_bytes_encoding; assumption.
Qed.

Lemma shortest_minimal v e : integer_encoding e v -> (length (shortest v) <= length e)%nat.
Proof.
  intros H. pose proof (integer_encoding_range e v H) as R. unfold shortest.
  destruct ((-107 <=? v) && (v <=? 107)) eqn:E1.
  { destruct H; simpl; lia. }
  apply andb_false_iff in E1. rewrite !Z.leb_gt in E1.
  destruct ((108 <=? v) && (v <=? 1131)) eqn:E2.
  { destruct H; simpl; lia. }
  apply andb_false_iff in E2. rewrite !Z.leb_gt in E2.
  destruct ((-1131 <=? v) && (v <=? -108)) eqn:E3.
  { destruct H; simpl; lia. }
  apply andb_false_iff in E3. rewrite !Z.leb_gt in E3.
  destruct ((- 2 ^ 15 <=? v) && (v <? 2 ^ 15)) eqn:E4.
  { destruct H; try (simpl; lia).
    - pose proof (bz_range b1). lia.
    - pose proof (bz_range b1). lia. }
  apply andb_false_iff in E4. rewrite Z.leb_gt, Z.ltb_ge in E4.
  destruct H; try (simpl; lia).
  - pose proof (bz_range b1). lia.
  - pose proof (bz_range b1). lia.
  - exfalso. pose proof (be2_range b1 b2). unfold signed in *.
    destruct (Z.ltb_spec (big_endian [b1; b2]) (2 ^ (16 - 1))); lia.
Qed.

(** ** Offsets *)

Lemma read_offset_iff size s v r :
  read_offset size s = Ok (v, r) <->
  1 <= size <= 4 /\ exists e, s = e ++ r /\ Z.of_nat (length e) = size /\ v = big_endian e.
Proof.
  split.
  - unfold read_offset. intros H.
    destruct (Z.eqb_spec size 1) as [->|].
    { apply take_u8_ok in H as (b & -> & ->). split; [lia|]. exists [b]. auto. }
    destruct (Z.eqb_spec size 2) as [->|].
    { apply take_u16_ok in H as (b1 & b0 & -> & ->). split; [lia|]. exists [b1; b0].
      rewrite be2. auto. }
    destruct (Z.eqb_spec size 3) as [->|].
    { inv_ok H. destruct a as [[[v0 v1] v2] s']. inversion H; subst; clear H.
      destruct s as [|b2 [|b1 [|b0 s]]]; simpl in H0; try discriminate.
      inversion H0; subst. split; [lia|]. exists [b2; b1; b0]. rewrite be3. repeat split. }
    destruct (Z.eqb_spec size 4) as [->|].
    { apply take_u32_ok in H as (b3 & b2 & b1 & b0 & -> & ->). split; [lia|].
      exists [b3; b2; b1; b0]. rewrite be4. auto. }
    discriminate.
  - intros (Hs & e & -> & Hl & ->). unfold read_offset.
    destruct e as [|a [|b [|c [|d [|? ?]]]]]; simpl in Hl; try lia; subst size; cbn -[big_endian Z.pow Z.mul].
    + reflexivity.
    + rewrite be2. reflexivity.
    + rewrite be3. reflexivity.
    + rewrite be4. reflexivity.
Qed.

Lemma read_offset_settled size s : settled (read_offset size s).
Proof.
  unfold read_offset.
  repeat match goal with |- context [if ?c then _ else _] => destruct c end; try exact I;
    destruct s as [|a [|b [|c [|d ?]]]]; exact I.
Qed.

Lemma read_offset_eof size s :
  1 <= size <= 4 -> Z.of_nat (length s) < size -> read_offset size s = Err UnexpectedEof.
Proof.
  intros Hs Hl. unfold read_offset.
  destruct (Z.eqb_spec size 1); [destruct s; [reflexivity|simpl in Hl; lia]|].
  destruct (Z.eqb_spec size 2); [destruct s as [|? [|? ?]]; try reflexivity; simpl length in Hl; lia|].
  destruct (Z.eqb_spec size 3); [destruct s as [|? [|? [|? ?]]]; try reflexivity; simpl length in Hl; lia|].
  destruct (Z.eqb_spec size 4); [destruct s as [|? [|? [|? [|? ?]]]]; try reflexivity; simpl length in Hl; lia|].
  lia.
Qed.

(** ** Real numbers: text *)

Lemma digit_of_char d : digit_of (digit_char d) = Some (digit_value d).
Proof. destruct d; reflexivity. Qed.

Lemma digit_of_some c v : digit_of c = Some v -> exists d, c = digit_char d /\ v = digit_value d.
Proof.
  unfold digit_of. destruct ((48 <=? bz c) && (bz c <=? 57)) eqn:E; [|discriminate].
  apply andb_true_iff in E as [E1 E2]. apply Z.leb_le in E1, E2. intros H. inversion H; subst v.
  assert (D : bz c = 48 \/ bz c = 49 \/ bz c = 50 \/ bz c = 51 \/ bz c = 52 \/
              bz c = 53 \/ bz c = 54 \/ bz c = 55 \/ bz c = 56 \/ bz c = 57) by lia.
  destruct D as [D|[D|[D|[D|[D|[D|[D|[D|[D|D]]]]]]]]];
    [exists D0|exists D1|exists D2|exists D3|exists D4|exists D5|exists D6|exists D7|exists D8|exists D9];
    (split; [apply bz_inj; rewrite D; reflexivity | rewrite D; reflexivity]).
Qed.

(** The text does not start with a digit. *)
Definition no_digit (s : list byte) : Prop :=
  match s with [] => True | c :: _ => digit_of c = None end.

Lemma span_digits_app ds r :
  no_digit r -> span_digits (map digit_char ds ++ r) = (map digit_value ds, r).
Proof.
  intros H. induction ds as [|d ds IH].
  - simpl. destruct r as [|c r]; auto. simpl in *. rewrite H. reflexivity.
  - simpl. rewrite digit_of_char, IH. reflexivity.
Qed.

Lemma span_digits_inv s : forall vs r, span_digits s = (vs, r) ->
  exists ds, s = map digit_char ds ++ r /\ vs = map digit_value ds /\ no_digit r.
Proof.
  induction s as [|c s IH]; simpl; intros vs r H.
  - inversion H; subst. exists []. repeat split.
  - destruct (digit_of c) as [v|] eqn:E.
    + destruct (span_digits s) as [vs' r'] eqn:S. inversion H; subst.
      destruct (IH _ _ eq_refl) as (ds & -> & -> & N).
      apply digit_of_some in E as (d & -> & ->). exists (d :: ds). repeat split; auto.
    + inversion H; subst. exists []. repeat split; auto.
Qed.

Lemma digits_value_spec ds : digits_value (map digit_value ds) = decimal_integer ds.
Proof.
  unfold digits_value, decimal_integer. generalize 0.
  induction ds as [|d ds IH]; cbn [map fold_left]; intros acc; auto.
  rewrite IH. f_equal. ring.
Qed.

Lemma map_inv_nil {A B} (f : A -> B) l : map f l = [] -> l = [].
Proof. destruct l; simpl; congruence. Qed.

Lemma strip_sign_inv s neg r :
  strip_sign s = (neg, r) -> s = (if neg then [x2d] else []) ++ r.
Proof.
  destruct s as [|c s]; simpl.
  - intros H; inversion H; reflexivity.
  - destruct (Byte.eqb c x2d) eqn:E; intros H; inversion H; subst; auto.
    apply Byte.byte_dec_bl in E. subst. reflexivity.
Qed.

Lemma strip_sign_app (neg : bool) r :
  (neg = false -> match r with c :: _ => c <> x2d | [] => True end) ->
  strip_sign ((if neg then [x2d] else []) ++ r) = (neg, r).
Proof.
  destruct neg; simpl; intros H; auto.
  destruct r as [|c r]; simpl; auto. specialize (H eq_refl).
  destruct (Byte.eqb c x2d) eqn:E; auto. apply Byte.byte_dec_bl in E. congruence.
Qed.

(** What the code makes of a literal. *)
Definition decimal_f32 (d : decimal) : f32 := f32_of_decimal (negative d) (significand d) (scale d).

Lemma digit_char_no_minus ds r :
  match r with c :: _ => c <> x2d | [] => True end ->
  match map digit_char ds ++ r with c :: _ => c <> x2d | [] => True end.
Proof. destruct ds as [|d ds]; simpl; auto. intros _. destruct d; discriminate. Qed.

(** Nothing but an exponent follows. *)
Definition exponent_text (e : option (bool * list digit)) : list byte :=
  match e with
  | Some (minus, ds) => x65 :: (if minus then [x2d] else []) ++ map digit_char ds
  | None => []
  end.

Lemma exponent_no_digit e : no_digit (exponent_text e).
Proof. destruct e as [[m ds]|]; simpl; auto. Qed.

(** The tail of [parse_f32]: what follows the digits. *)
Lemma parse_exponent (sign : bool) (m shift : Z) s3 v :
  match s3 with
  | [] => Some (f32_of_decimal sign m (- shift))
  | c :: r =>
      if Byte.eqb c x65 then
        let (negative, r1) := strip_sign r in
        let (exponent, r2) := span_digits r1 in
        match exponent, r2 with
        | _ :: _, [] =>
            let e := digits_value exponent in
            Some (f32_of_decimal sign m ((if negative then - e else e) - shift))
        | _, _ => None
        end
      else None
  end = Some v <->
  exists e, s3 = exponent_text e /\ match e with Some (_, []) => False | _ => True end /\
    v = f32_of_decimal sign m
          (match e with
           | Some (minus, ds) => if minus then - decimal_integer ds else decimal_integer ds
           | None => 0
           end - shift).
Proof.
  split.
  - destruct s3 as [|c r].
    { intros H. inversion H; subst. exists None. repeat split. }
    destruct (Byte.eqb c x65) eqn:E; [|discriminate]. apply Byte.byte_dec_bl in E; subst c.
    destruct (strip_sign r) as [neg r1] eqn:S. apply strip_sign_inv in S. subst r.
    destruct (span_digits r1) as [vs r2] eqn:D.
    apply span_digits_inv in D as (ds & -> & -> & N).
    destruct ds as [|d ds]; [discriminate|]. cbn [map].
    destruct r2 as [|]; [|discriminate]. intros H. inversion H; subst v.
    exists (Some (neg, d :: ds)). split.
    { simpl. rewrite app_nil_r. reflexivity. }
    split; auto. change (digit_value d :: map digit_value ds) with (map digit_value (d :: ds)).
    rewrite digits_value_spec. reflexivity.
  - intros ([[neg ds]|] & -> & W & ->); [|reflexivity].
    simpl exponent_text. cbv iota beta. change (Byte.eqb x65 x65) with true. cbv iota.
    rewrite strip_sign_app.
    + rewrite <- (app_nil_r (map digit_char ds)), span_digits_app by exact I.
      destruct ds as [|d ds]; [contradiction|]. cbn [map].
      change (digit_value d :: map digit_value ds) with (map digit_value (d :: ds)).
      rewrite digits_value_spec. reflexivity.
    + intros _. rewrite <- (app_nil_r (map digit_char ds)). apply digit_char_no_minus. exact I.
Qed.

Lemma text_exponent d :
  text d = (if negative d then [x2d] else [])
    ++ map digit_char (whole d)
    ++ match fraction d with Some ds => x2e :: map digit_char ds | None => [] end
    ++ exponent_text (exponent d).
Proof. reflexivity. Qed.

(** [parse_f32] accepts exactly the texts of literals. *)
Lemma parse_f32_iff s v :
  parse_f32 s = Some v <-> exists d, well_formed d /\ s = text d /\ v = decimal_f32 d.
Proof.
  split.
  - unfold parse_f32. destruct (strip_sign s) as [sign s1] eqn:S. apply strip_sign_inv in S.
    destruct (span_digits s1) as [w s2] eqn:D1. apply span_digits_inv in D1 as (wd & -> & -> & N1).
    assert (F : exists fo s3,
      (match s2 with
       | c :: r => if Byte.eqb c x2e then span_digits r else ([], s2)
       | [] => ([], [])
       end) = (map digit_value (match fo with Some ds => ds | None => [] end), s3) /\
      s2 = match fo with Some ds => x2e :: map digit_char ds | None => [] end ++ s3).
    { destruct s2 as [|c r]; [exists None, []; auto|].
      destruct (Byte.eqb c x2e) eqn:E; [|exists None, (c :: r); auto].
      apply Byte.byte_dec_bl in E; subst c.
      destruct (span_digits r) as [fv s3] eqn:D2.
      apply span_digits_inv in D2 as (fd & -> & -> & N2). exists (Some fd), s3. auto. }
    destruct F as (fo & s3 & -> & ->).
    set (fd := match fo with Some ds => ds | None => [] end).
    rewrite <- map_app.
    destruct (map digit_value (wd ++ fd)) as [|v0 vs] eqn:E; [discriminate|].
    rewrite <- E. rewrite digits_value_spec, map_length. intros H.
    apply parse_exponent in H as (e & -> & We & ->).
    exists {| negative := sign; whole := wd; fraction := fo; exponent := e |}.
    split; [|split].
    + split; [|exact We]. simpl. unfold fraction_digits. simpl. fold fd.
      intros K. rewrite K in E. discriminate.
    + rewrite text_exponent. simpl. exact S.
    + reflexivity.
  - intros (d & [W1 W2] & -> & ->). destruct d as [sign wd fo e]. simpl in *.
    rewrite text_exponent. simpl. unfold parse_f32. rewrite strip_sign_app.
    2:{ intros _. destruct wd as [|w0 wd]; simpl.
        - destruct fo as [fd|]; simpl; [discriminate|]. destruct W1; reflexivity.
        - destruct w0; discriminate. }
    rewrite span_digits_app.
    2:{ destruct fo as [fd|]; simpl; auto. apply exponent_no_digit. }
    assert (F :
      (match (match fo with Some ds => x2e :: map digit_char ds | None => [] end ++ exponent_text e) with
       | c :: r => if Byte.eqb c x2e then span_digits r else ([], match fo with Some ds => x2e :: map digit_char ds | None => [] end ++ exponent_text e)
       | [] => ([], [])
       end) = (map digit_value (match fo with Some ds => ds | None => [] end), exponent_text e)).
    { destruct fo as [fd|].
      - simpl. change (Byte.eqb x2e x2e) with true. cbv iota.
        apply span_digits_app. apply exponent_no_digit.
      - simpl. destruct e as [[m ds]|]; reflexivity. }
    rewrite F. rewrite <- map_app.
    unfold fraction_digits in W1. simpl in W1.
    destruct (map digit_value (wd ++ match fo with Some ds => ds | None => [] end)) as [|v0 vs] eqn:E.
    { apply map_inv_nil in E. contradiction. }
    rewrite <- E. rewrite digits_value_spec, map_length.
    apply parse_exponent. exists e. split; auto.
Qed.

(** ** Real numbers: nibbles *)

Lemma high_nibble b : Z.shiftr (bz b) 4 = bz b / 16.
Proof. rewrite Z.shiftr_div_pow2 by lia. reflexivity. Qed.

Lemma low_nibble b : Z.land (bz b) 0x0f = bz b mod 16.
Proof. change 15 with (Z.ones 4). rewrite Z.land_ones by lia. reflexivity. Qed.

Lemma nibble_range n : 0 <= n < 16 ->
  n = 0 \/ n = 1 \/ n = 2 \/ n = 3 \/ n = 4 \/ n = 5 \/ n = 6 \/ n = 7 \/
  n = 8 \/ n = 9 \/ n = 10 \/ n = 11 \/ n = 12 \/ n = 13 \/ n = 14 \/ n = 15.
Proof. lia. Qed.

Lemma on_nibble_push n t : 0 <= n < 16 -> on_nibble n = Push t <-> nibble_text n t.
Proof.
  intros R. split.
  - intros H. pose proof (nibble_range n R) as D.
    repeat (destruct D as [->|D];
            [ cbv in H; inversion H;
              first [ exact (nibble_digit D0) | exact (nibble_digit D1) | exact (nibble_digit D2)
                    | exact (nibble_digit D3) | exact (nibble_digit D4) | exact (nibble_digit D5)
                    | exact (nibble_digit D6) | exact (nibble_digit D7) | exact (nibble_digit D8)
                    | exact (nibble_digit D9) | constructor ] | ]).
    subst n. cbv in H. inversion H.
  - intros H. destruct H as [d| | | |]; try reflexivity. destruct d; reflexivity.
Qed.

Lemma on_nibble_stop n : 0 <= n < 16 -> on_nibble n = Stop <-> n = 15.
Proof.
  intros R. split; [|intros ->; reflexivity].
  intros H. pose proof (nibble_range n R) as D.
  repeat (destruct D as [->|D]; [ cbv in H; discriminate | ]). assumption.
Qed.

Lemma on_nibble_reject n : 0 <= n < 16 -> on_nibble n = Reject <-> n = 13.
Proof.
  intros R. split; [|intros ->; reflexivity].
  intros H. pose proof (nibble_range n R) as D.
  repeat (destruct D as [->|D]; [ cbv in H; first [discriminate | reflexivity] | ]). subst. discriminate.
Qed.

Lemma nibble_text_bound n t : nibble_text n t -> 0 <= n < 15.
Proof. intros H. destruct H as [d| | | |]; try lia. destruct d; simpl; lia. Qed.

Lemma high_bound b : 0 <= bz b / 16 < 16.
Proof.
  pose proof (bz_range b). split; [apply Z.div_pos; lia|apply Z.div_lt_upper_bound; lia].
Qed.

Lemma low_bound b : 0 <= bz b mod 16 < 16.
Proof. apply Z.mod_pos_bound. lia. Qed.

Lemma nibbles_cons b bs : nibbles (b :: bs) = bz b / 16 :: bz b mod 16 :: nibbles bs.
Proof. reflexivity. Qed.

Lemma nibbles_app a b : nibbles (a ++ b) = nibbles a ++ nibbles b.
Proof. unfold nibbles. apply flat_map_app. Qed.

Lemma spells_cons_inv n ns u : spells (n :: ns) u ->
  exists t ts, u = t ++ ts /\ nibble_text n t /\ spells ns ts.
Proof. intros H. inversion H; subst. eauto. Qed.

Lemma spells_app a s b t : spells a s -> spells b t -> spells (a ++ b) (s ++ t).
Proof. induction 1; simpl; auto. intros. rewrite <- app_assoc. constructor; auto. Qed.

Lemma spells_app_inv a : forall b u, spells (a ++ b) u ->
  exists s t, u = s ++ t /\ spells a s /\ spells b t.
Proof.
  induction a as [|n a IH]; simpl; intros b u H.
  - exists [], u. repeat split; auto. constructor.
  - apply spells_cons_inv in H as (t & ts & -> & T & H). apply IH in H as (s & t' & -> & A & B).
    exists (t ++ s), t'. rewrite app_assoc. repeat split; auto. constructor; auto.
Qed.

Lemma parse_loop_complete body : forall ns pad t buffer r,
  nibbles body = ns ++ 15 :: pad -> (length pad <= 1)%nat -> spells ns t ->
  parse_loop buffer (body ++ r) = Ok (buffer ++ t, r).
Proof.
  induction body as [|b body IH]; intros ns pad t buffer r E P S.
  { destruct ns; discriminate. }
  rewrite nibbles_cons in E. cbn [app parse_loop]. rewrite high_nibble, low_nibble.
  destruct ns as [|n1 ns].
  { simpl in E. inversion E as [[E1 E2]].
    assert (body = []) by (subst pad; destruct body; [reflexivity|simpl in P; lia]). subst body.
    inversion S; subst. rewrite E1, app_nil_r. reflexivity. }
  simpl in E. injection E as E1 E2. subst n1. apply spells_cons_inv in S as (t0 & ts & -> & T0 & S).
  rewrite (proj2 (on_nibble_push _ t0 (high_bound b))) by assumption.
  destruct ns as [|n2 ns].
  { simpl in E2. injection E2 as E3 E4.
    assert (body = []) by (subst pad; destruct body; [reflexivity|simpl in P; lia]). subst body.
    inversion S; subst. rewrite E3, app_nil_r. reflexivity. }
  simpl in E2. injection E2 as E3 E4. subst n2. apply spells_cons_inv in S as (t1 & us & -> & T1 & S).
  rewrite (proj2 (on_nibble_push _ t1 (low_bound b))) by assumption.
  rewrite (IH _ _ _ _ _ E4 P S). rewrite <- !app_assoc. reflexivity.
Qed.

Lemma parse_loop_sound s : forall buffer out r,
  parse_loop buffer s = Ok (out, r) ->
  exists body ns pad t, s = body ++ r /\ nibbles body = ns ++ 15 :: pad /\
    (length pad <= 1)%nat /\ spells ns t /\ out = buffer ++ t.
Proof.
  induction s as [|b s IH]; intros buffer out r H; [discriminate|].
  cbn [parse_loop] in H. rewrite high_nibble, low_nibble in H.
  destruct (on_nibble (bz b / 16)) as [t1| |] eqn:E1; [|  |discriminate].
  2:{ inversion H; subst. apply on_nibble_stop in E1; [|apply high_bound].
      exists [b], [], [bz b mod 16], []. rewrite nibbles_cons, E1, app_nil_r.
      repeat split; auto. constructor. }
  apply on_nibble_push in E1; [|apply high_bound].
  destruct (on_nibble (bz b mod 16)) as [t2| |] eqn:E2; [| |discriminate].
  2:{ inversion H; subst. apply on_nibble_stop in E2; [|apply low_bound].
      exists [b], [bz b / 16], [], t1. rewrite nibbles_cons, E2.
      repeat split; auto. rewrite <- (app_nil_r t1). constructor; auto. constructor. }
  apply on_nibble_push in E2; [|apply low_bound].
  apply IH in H as (body & ns & pad & t & -> & N & P & S & ->).
  exists (b :: body), (bz b / 16 :: bz b mod 16 :: ns), pad, (t1 ++ t2 ++ t).
  rewrite nibbles_cons, N. repeat split; auto.
  - constructor; auto. constructor; auto.
  - rewrite <- !app_assoc. reflexivity.
Qed.

Lemma parse_loop_eof s : forall t buffer,
  spells (nibbles s) t -> parse_loop buffer s = Err UnexpectedEof.
Proof.
  induction s as [|b s IH]; intros t buffer S; auto.
  rewrite nibbles_cons in S. apply spells_cons_inv in S as (t0 & ts & -> & T0 & S).
  apply spells_cons_inv in S as (t1 & us & -> & T1 & S).
  cbn [parse_loop]. rewrite high_nibble, low_nibble.
  rewrite (proj2 (on_nibble_push _ t0 (high_bound b))) by assumption.
  rewrite (proj2 (on_nibble_push _ t1 (low_bound b))) by assumption.
  eapply IH. eassumption.
Qed.

Lemma parse_loop_settled s : forall buffer, settled (parse_loop buffer s).
Proof.
  induction s as [|b s IH]; intros buffer; simpl; auto.
  destruct (on_nibble (Z.shiftr (bz b) 4)); try exact I.
  destruct (on_nibble (Z.land (bz b) 15)); try exact I. apply IH.
Qed.

(** ** Numbers *)

Lemma read_real_sound s x r :
  read_number s = Ok (Real x, r) ->
  exists e d, s = e ++ r /\ real_encoding e d /\ x = decimal_f32 d.
Proof.
  intros H. pose proof (read_number_cases s) as C. destruct s as [|b t]; [congruence|].
  destruct C as [[R C]|[[R C]|[[R C]|[[-> C]|[[-> C]|[[-> C]|[R C]]]]]]]; rewrite C in H;
    try discriminate; inv_ok H; destruct a as [y t']; try discriminate.
  inversion H; subst; clear H. unfold parse in H0. inv_ok H0. destruct a as [buffer t''].
  destruct (parse_f32 buffer) as [v|] eqn:E; [|discriminate]. inversion H0; subst; clear H0.
  apply parse_f32_iff in E as (d & W & -> & ->).
  apply parse_loop_sound in H as (body & ns & pad & t0 & -> & N & P & S & T). simpl in T. subst t0.
  exists (x1e :: body), d. repeat split; auto; try apply W. exists body, ns, pad. auto.
Qed.

Lemma read_real_complete e d r :
  real_encoding e d -> read_number (e ++ r) = Ok (Real (decimal_f32 d), r).
Proof.
  intros (W & body & ns & pad & -> & N & P & S).
  change (read_number ((x1e :: body) ++ r))
    with (let* (x, s2) := parse (body ++ r) in Ok (Real x, s2)).
  unfold parse. rewrite (parse_loop_complete _ _ _ _ [] r N P S). cbn [bind app].
  rewrite (proj2 (parse_f32_iff (text d) (decimal_f32 d))) by eauto. reflexivity.
Qed.

Lemma read_number_settled s : settled (read_number s).
Proof.
  pose proof (read_number_cases s) as C. destruct s as [|b t]; [exact I|].
  destruct C as [[R C]|[[R C]|[[R C]|[[-> C]|[[-> C]|[[-> C]|[R C]]]]]]]; rewrite C;
    try exact I; apply settled_bind; try (intros [? ?] _; exact I).
  - destruct t; exact I.
  - destruct t; exact I.
  - destruct t as [|? [|? ?]]; exact I.
  - destruct t as [|? [|? [|? [|? ?]]]]; exact I.
  - unfold parse. apply settled_bind; [apply parse_loop_settled|]. intros [buffer r] _.
    destruct (parse_f32 buffer); exact I.
Qed.

(** A number and one of its encodings. *)
Definition number_encoding (e : list byte) (n : number) : Prop :=
  match n with
  | Integer v => integer_encoding e v
  | Real x => exists d, real_encoding e d /\ x = decimal_f32 d
  end.

Lemma read_number_sound : sound read_number number_encoding.
Proof.
  intros s [v|x] r H.
  - apply read_integer_sound. assumption.
  - apply read_real_sound in H as (e & d & -> & E & ->). exists e. split; auto. exists d. auto.
Qed.

Lemma read_number_complete : complete read_number number_encoding.
Proof.
  intros e [v|x] r H.
  - apply read_integer_complete. assumption.
  - destruct H as (d & E & ->). apply read_real_complete. assumption.
Qed.

Lemma number_encoding_first e n : number_encoding e n ->
  exists b t, e = b :: t /\ (bz b = 28 \/ bz b = 29 \/ bz b = 30 \/ 32 <= bz b <= 254).
Proof.
  destruct n as [v|x].
  - intros H. destruct H; eexists; eexists; (split; [reflexivity|]); try lia;
      [left|right; left]; reflexivity.
  - intros (d & (W & body & ns & pad & -> & N) & _). exists x1e, body.
    split; [reflexivity|]. right; right; left; reflexivity.
Qed.

Lemma read_number_eof : eof read_number number_encoding.
Proof.
  intros e1 e2 [v|x] H N.
  - remember (e1 ++ e2) as e eqn:E. destruct H.
    all: destruct e1 as [|c0 e1]; [reflexivity|]; injection E as <- E.
    all: repeat (destruct e1 as [|? e1];
                 [ | simpl in E; first [ discriminate E | injection E as ? E ] ]).
    all: try (simpl in E; subst e2; congruence).
    all: unfold read_number; cbn [take_u8 bind]; try (first_byte; reflexivity); reflexivity.
  - destruct H as (d & (W & body & ns & pad & E & NB & P & S) & ->).
    destruct e1 as [|c e1]; [reflexivity|]. simpl in E. injection E as -> E. subst body.
    change (read_number (x1e :: e1)) with (let* (x, s2) := parse e1 in Ok (Real x, s2)).
    unfold parse.
    assert (exists t, spells (nibbles e1) t) as (t & T).
    { rewrite nibbles_app in NB. destruct e2 as [|c e2]; [congruence|].
      rewrite nibbles_cons in NB.
      assert (L : exists k, ns = nibbles e1 ++ k).
      { apply (f_equal (@rev Z)) in NB as NB'.
        assert (LL : (length (nibbles e1) <= length ns)%nat).
        { apply (f_equal (@length Z)) in NB. rewrite !app_length in NB. simpl in NB. lia. }
        exists (skipn (length (nibbles e1)) ns).
        rewrite <- (firstn_skipn (length (nibbles e1)) ns) at 1. f_equal.
        apply (f_equal (firstn (length (nibbles e1)))) in NB.
        rewrite firstn_app, Nat.sub_diag, firstn_O, app_nil_r, firstn_all in NB.
        rewrite firstn_app in NB.
        replace (length (nibbles e1) - length ns)%nat with 0%nat in NB by lia.
        rewrite firstn_O, app_nil_r in NB. congruence. }
      destruct L as (k & ->). apply spells_app_inv in S as (s & t & _ & S1 & _). eauto. }
    rewrite (parse_loop_eof _ _ _ T). reflexivity.
Qed.

(** ** Rejection and packing of real numbers *)

Lemma parse_loop_reject body : forall ns pad t buffer r,
  nibbles body = ns ++ 13 :: pad -> spells ns t ->
  parse_loop buffer (body ++ r) = Err Other.
Proof.
  induction body as [|b body IH]; intros ns pad t buffer r E S.
  { destruct ns; discriminate. }
  rewrite nibbles_cons in E. cbn [app parse_loop]. rewrite high_nibble, low_nibble.
  destruct ns as [|n1 ns].
  { simpl in E. injection E as E1 E2. rewrite E1. reflexivity. }
  simpl in E. injection E as E1 E2. subst n1. apply spells_cons_inv in S as (t0 & ts & -> & T0 & S).
  rewrite (proj2 (on_nibble_push _ t0 (high_bound b))) by assumption.
  destruct ns as [|n2 ns].
  { simpl in E2. injection E2 as E3 E4. rewrite E3. reflexivity. }
  simpl in E2. injection E2 as E3 E4. subst n2. apply spells_cons_inv in S as (t1 & us & -> & T1 & S).
  rewrite (proj2 (on_nibble_push _ t1 (low_bound b))) by assumption.
  eapply IH; eassumption.
Qed.

Lemma read_real_reject body ns pad t r :
  nibbles body = ns ++ 13 :: pad -> spells ns t ->
  read_number (x1e :: body ++ r) = Err Other.
Proof.
  intros N S. change (read_number (x1e :: body ++ r))
    with (let* (x, s2) := parse (body ++ r) in Ok (Real x, s2)).
  unfold parse. rewrite (parse_loop_reject _ _ _ _ [] r N S). reflexivity.
Qed.

(** The nibbles of a literal, in the specification's own way. *)
Definition literal_nibbles (d : decimal) : list Z :=
  (if negative d then [0xe] else [])
  ++ map digit_value (whole d)
  ++ match fraction d with Some ds => 0xa :: map digit_value ds | None => [] end
  ++ match exponent d with
     | Some (minus, ds) => (if minus then 0xc else 0xb) :: map digit_value ds
     | None => []
     end.

Lemma spells_digits ds : spells (map digit_value ds) (map digit_char ds).
Proof.
  induction ds as [|d ds IH]; simpl; [constructor|].
  change (digit_char d :: map digit_char ds) with ([digit_char d] ++ map digit_char ds).
  constructor; auto. constructor.
Qed.

Lemma spells_one n t ns ts : nibble_text n t -> spells ns ts -> spells (n :: ns) (t ++ ts).
Proof. constructor; auto. Qed.

Lemma literal_nibbles_spell d : spells (literal_nibbles d) (text d).
Proof.
  unfold literal_nibbles, text. repeat apply spells_app.
  - destruct (negative d); [|constructor]. apply (spells_one 14 [x2d] [] []); constructor.
  - apply spells_digits.
  - destruct (fraction d) as [ds|]; [|constructor].
    apply (spells_one 10 [x2e]); [constructor|apply spells_digits].
  - destruct (exponent d) as [[[|] ds]|]; [| |constructor].
    + apply (spells_one 12 [x65; x2d]); [constructor|apply spells_digits].
    + apply (spells_one 11 [x65]); [constructor|apply spells_digits].
Qed.

(** Bytes out of nibbles. *)
Fixpoint pack (ns : list Z) : list byte :=
  match ns with
  | a :: b :: rest => zb (a * 16 + b) :: pack rest
  | [a] => [zb (a * 16 + 15)]
  | [] => []
  end.

Lemma nibbles_pack ns : Forall (fun n => 0 <= n < 16) ns -> exists pad,
  nibbles (pack ns) = ns ++ pad /\ (length pad <= 1)%nat.
Proof.
  assert (S : forall a b, 0 <= a < 16 -> 0 <= b < 16 ->
    bz (zb (a * 16 + b)) / 16 = a /\ bz (zb (a * 16 + b)) mod 16 = b).
  { intros a b Ha Hb. rewrite bz_zb by lia. split.
    - rewrite Z.div_add_l by lia. rewrite Z.div_small by lia. lia.
    - rewrite Z.add_comm, Z.mod_add by lia. apply Z.mod_small. lia. }
  assert (G : forall n ns, (length ns <= n)%nat -> Forall (fun n => 0 <= n < 16) ns -> exists pad,
    nibbles (pack ns) = ns ++ pad /\ (length pad <= 1)%nat).
  { clear ns. induction n as [|n IH]; intros ns L F.
    { destruct ns; [|simpl in L; lia]. exists []. split; auto. }
    destruct ns as [|a [|b ns]].
    - exists []. split; auto.
    - inversion F; subst. cbn [pack]. rewrite nibbles_cons.
      destruct (S a 15) as [-> ->]; try lia. exists [15]. split; auto.
    - inversion F as [|? ? Ha F']; subst. inversion F' as [|? ? Hb F'']; subst.
      cbn [pack]. rewrite nibbles_cons. destruct (S a b) as [-> ->]; auto.
      destruct (IH ns) as (pad & E & P); auto. { simpl in L. lia. }
      exists pad. rewrite E. split; auto. }
  intros F. eapply G; eauto.
Qed.

Lemma spells_bound ns t : spells ns t -> Forall (fun n => 0 <= n < 15) ns.
Proof. induction 1; constructor; auto. eapply nibble_text_bound; eauto. Qed.

(** Every well-formed literal has an encoding. *)
Lemma real_encodable d : well_formed d -> exists e, real_encoding e d.
Proof.
  intros W. pose proof (literal_nibbles_spell d) as S.
  destruct (nibbles_pack (literal_nibbles d ++ [15])) as (pad & E & P).
  { apply Forall_app. split.
    - eapply Forall_impl; [|eapply spells_bound; eauto]. simpl. lia.
    - repeat constructor; lia. }
  exists (x1e :: pack (literal_nibbles d ++ [15])). split; auto.
  exists (pack (literal_nibbles d ++ [15])), (literal_nibbles d), pad.
  rewrite E, <- app_assoc. repeat split; auto.
Qed.

Lemma decimal_integer_nonneg ds : 0 <= decimal_integer ds.
Proof.
  unfold decimal_integer. assert (G : forall acc, 0 <= acc ->
    0 <= fold_left (fun acc d => acc * 10 + digit_value d) ds acc).
  { induction ds as [|d ds IH]; cbn [fold_left]; intros acc H; auto.
    apply IH. destruct d; cbn [digit_value]; lia. }
  apply G. lia.
Qed.

Lemma string_id_iff n v : string_id_of_number n = Ok v <-> exists a, n = Integer a /\ 0 <= a /\ v = a mod 2 ^ 16.
Proof.
  unfold string_id_of_number, as_u16. destruct n as [a|x]; split.
  - destruct (Z.leb_spec 0 a); [|discriminate]. intros E. injection E as <-. eauto.
  - intros (b & E & N & ->). injection E as ->. destruct (Z.leb_spec 0 b); [reflexivity|lia].
  - discriminate.
  - intros (b & E & _). discriminate.
Qed.

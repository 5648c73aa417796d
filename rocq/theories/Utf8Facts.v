(** Utf8Facts: proofs about UTF-8. *)
From Verif Require Import Base Utf8 BaseFacts SpecUtf8 NumberFacts.

(** The encodings of scalar values in terms of bytes. *)
Inductive character : list byte -> Prop :=
| character1 a : bz a < 0x80 -> character [a]
| character2 a b : between 0xc2 0xdf (bz a) = true -> is_continuation b = true -> character [a; b]
| character3 a b c : second_of_three (bz a) (bz b) = true -> is_continuation c = true ->
    character [a; b; c]
| character4 a b c d : second_of_four (bz a) (bz b) = true -> is_continuation c = true ->
    is_continuation d = true -> character [a; b; c; d].

Ltac zify_bytes :=
  unfold second_of_three, second_of_four, is_continuation, between in *;
  repeat rewrite bz_zb in * by (Z.div_mod_to_equations; lia).

Lemma utf8_character v : scalar v -> character (utf8 v).
Proof.
  unfold scalar, utf8. intros H.
  destruct (Z.ltb_spec v 0x80). { constructor. rewrite bz_zb; lia. }
  destruct (Z.ltb_spec v 0x800).
  { constructor; zify_bytes; Z.div_mod_to_equations; lia. }
  destruct (Z.ltb_spec v 0x10000).
  { constructor; zify_bytes; Z.div_mod_to_equations; lia. }
  constructor; zify_bytes; Z.div_mod_to_equations; lia.
Qed.

Lemma zb_is z b : z = bz b -> zb z = b.
Proof. intros ->. apply zb_bz. Qed.

Lemma character_utf8 e : character e -> exists v, scalar v /\ utf8 v = e.
Proof.
  destruct 1 as [a H|a b H1 H2|a b c H1 H2|a b c d H1 H2 H3].
  - pose proof (bz_range a). exists (bz a). split; [unfold scalar; lia|]. unfold utf8.
    destruct (Z.ltb_spec (bz a) 0x80); [|lia]. rewrite zb_bz. reflexivity.
  - unfold between, is_continuation in *. exists ((bz a - 0xc0) * 64 + (bz b - 0x80)).
    unfold between in *. split; [unfold scalar; lia|]. unfold utf8.
    destruct (Z.ltb_spec ((bz a - 0xc0) * 64 + (bz b - 0x80)) 0x80); [lia|].
    destruct (Z.ltb_spec ((bz a - 0xc0) * 64 + (bz b - 0x80)) 0x800); [|lia].
    repeat f_equal; apply zb_is; Z.div_mod_to_equations; lia.
  - unfold second_of_three, is_continuation, between in *.
    exists ((bz a - 0xe0) * 4096 + (bz b - 0x80) * 64 + (bz c - 0x80)).
    split; [unfold scalar; lia|]. unfold utf8.
    destruct (Z.ltb_spec ((bz a - 0xe0) * 4096 + (bz b - 0x80) * 64 + (bz c - 0x80)) 0x80); [lia|].
    destruct (Z.ltb_spec ((bz a - 0xe0) * 4096 + (bz b - 0x80) * 64 + (bz c - 0x80)) 0x800); [lia|].
    destruct (Z.ltb_spec ((bz a - 0xe0) * 4096 + (bz b - 0x80) * 64 + (bz c - 0x80)) 0x10000); [|lia].
    repeat f_equal; apply zb_is; Z.div_mod_to_equations; lia.
  - unfold second_of_four, is_continuation, between in *.
    exists ((bz a - 0xf0) * 262144 + (bz b - 0x80) * 4096 + (bz c - 0x80) * 64 + (bz d - 0x80)).
    split; [unfold scalar; lia|]. unfold utf8.
    match goal with |- (if ?v <? _ then _ else _) = _ =>
      destruct (Z.ltb_spec v 0x80); [lia|]; destruct (Z.ltb_spec v 0x800); [lia|];
      destruct (Z.ltb_spec v 0x10000); [lia|] end.
    repeat f_equal; apply zb_is; Z.div_mod_to_equations; lia.
Qed.

Lemma begins_iff p : begins p <-> exists u, character (p ++ u).
Proof.
  split.
  - intros (v & u & S & E). exists u. rewrite <- E. apply utf8_character, S.
  - intros (u & C). apply character_utf8 in C as (v & S & E). exists v, u. auto.
Qed.

Lemma inspect_character e r : character e -> inspect (e ++ r) = (true, length e).
Proof.
  destruct 1 as [a H|a b H1 H2|a b c H1 H2|a b c d H1 H2 H3]; cbn [app inspect length].
  - destruct (Z.ltb_spec (bz a) 0x80); [reflexivity|lia].
  - unfold between in *. destruct (Z.ltb_spec (bz a) 0x80); [lia|]. rewrite H1, H2. reflexivity.
  - assert (A : between 0xe0 0xef (bz a) = true) by (unfold second_of_three, between in *; lia).
    assert (A' : between 0xc2 0xdf (bz a) = false) by (unfold between in *; lia).
    destruct (Z.ltb_spec (bz a) 0x80); [unfold between in *; lia|]. rewrite A, A', H1, H2. reflexivity.
  - assert (A : between 0xf0 0xf4 (bz a) = true) by (unfold second_of_four, between in *; lia).
    assert (A' : between 0xc2 0xdf (bz a) = false) by (unfold between in *; lia).
    assert (A'' : between 0xe0 0xef (bz a) = false) by (unfold between in *; lia).
    destruct (Z.ltb_spec (bz a) 0x80); [unfold between in *; lia|].
    rewrite A, A', A'', H1, H2, H3. reflexivity.
Qed.

Lemma inspect_true s n : inspect s = (true, n) -> character (firstn n s) /\ (n <= length s)%nat.
Proof.
  destruct s as [|a s1]; [discriminate|]. cbn [inspect].
  destruct (Z.ltb_spec (bz a) 0x80).
  { intros E. injection E as <-. simpl. split; [constructor; auto|lia]. }
  destruct (between 0xc2 0xdf (bz a)) eqn:B2.
  { destruct s1 as [|b s1]; [discriminate|]. destruct (is_continuation b) eqn:C; [|discriminate].
    intros E. injection E as <-. simpl. split; [constructor; auto|lia]. }
  destruct (between 0xe0 0xef (bz a)) eqn:B3.
  { destruct s1 as [|b s1]; [discriminate|]. destruct (second_of_three (bz a) (bz b)) eqn:C; [|discriminate].
    destruct s1 as [|c s1]; [discriminate|]. destruct (is_continuation c) eqn:C'; [|discriminate].
    intros E. injection E as <-. simpl. split; [constructor; auto|lia]. }
  destruct (between 0xf0 0xf4 (bz a)) eqn:B4; [|discriminate].
  destruct s1 as [|b s1]; [discriminate|]. destruct (second_of_four (bz a) (bz b)) eqn:C; [|discriminate].
  destruct s1 as [|c s1]; [discriminate|]. destruct (is_continuation c) eqn:C'; [|discriminate].
  destruct s1 as [|d s1]; [discriminate|]. destruct (is_continuation d) eqn:C''; [|discriminate].
  intros E. injection E as <-. simpl. split; [constructor; auto|lia].
Qed.

Lemma inspect_positive a s : (0 < snd (inspect (a :: s)))%nat.
Proof.
  cbn [inspect].
  repeat match goal with |- context [if ?c then _ else _] => destruct c
         | |- context [match ?l with [] => _ | _ :: _ => _ end] => destruct l end; simpl; lia.
Qed.

Ltac no_begin :=
  intros q r E L B; apply begins_iff in B as (u & B);
  remember (q ++ u) as w eqn:W; destruct B;
  repeat (destruct q as [|? q]; [try (simpl in L; lia)|]; cbn [app] in E, W; try discriminate W;
          try discriminate E; injection W as <- W; injection E as <- E; cbn [length] in L);
  try (simpl in L; lia);
  unfold second_of_three, second_of_four, is_continuation, between in *; try lia; try congruence.

(** What an ill-formed sequence looks like: the inspected part is the longest
    beginning of a character or a single byte. *)
Lemma inspect_false s n : s <> [] -> inspect s = (false, n) ->
  (0 < n <= length s)%nat /\
  (n = 1%nat \/ begins (firstn n s)) /\
  (forall q r, q ++ r = s -> (n < length q)%nat -> ~ begins q).
Proof.
  intros N. destruct s as [|a s1]; [congruence|]. clear N. cbn [inspect].
  destruct (Z.ltb_spec (bz a) 0x80); [discriminate|].
  assert (Big : forall b c d, second_of_three (bz a) (bz b) = true -> 
                is_continuation c = true -> d = c -> begins [a; b]).
  { intros b c d H1 H2 _. apply begins_iff. exists [c]. constructor; auto. }
  assert (K : is_continuation x80 = true) by reflexivity.
  destruct (between 0xc2 0xdf (bz a)) eqn:B2.
  { destruct s1 as [|b s1].
    - intros E. injection E as <-. split; [simpl; lia|]. split; [auto|].
      intros q r E L. apply (f_equal (@length byte)) in E. rewrite app_length in E. simpl in E. lia.
    - destruct (is_continuation b) eqn:C; [discriminate|].
      intros E. injection E as <-. split; [simpl; lia|]. split; [auto|]. no_begin. }
  destruct (between 0xe0 0xef (bz a)) eqn:B3.
  { destruct s1 as [|b s1].
    - intros E. injection E as <-. split; [simpl; lia|]. split; [auto|].
      intros q r E L. apply (f_equal (@length byte)) in E. rewrite app_length in E. simpl in E. lia.
    - destruct (second_of_three (bz a) (bz b)) eqn:C.
      + assert (Bg : begins [a; b]) by (apply begins_iff; exists [x80]; constructor; auto).
        destruct s1 as [|c s1].
        * intros E. injection E as <-. split; [simpl; lia|]. split; [auto|].
          intros q r E L. apply (f_equal (@length byte)) in E. rewrite app_length in E. simpl in E. lia.
        * destruct (is_continuation c) eqn:C'; [discriminate|].
          intros E. injection E as <-. split; [simpl; lia|]. split; [auto|]. clear Bg. no_begin.
      + intros E. injection E as <-. split; [simpl; lia|]. split; [auto|]. no_begin. }
  destruct (between 0xf0 0xf4 (bz a)) eqn:B4.
  { destruct s1 as [|b s1].
    - intros E. injection E as <-. split; [simpl; lia|]. split; [auto|].
      intros q r E L. apply (f_equal (@length byte)) in E. rewrite app_length in E. simpl in E. lia.
    - destruct (second_of_four (bz a) (bz b)) eqn:C.
      + assert (Bg : begins [a; b]) by (apply begins_iff; exists [x80; x80]; constructor; auto).
        destruct s1 as [|c s1].
        * intros E. injection E as <-. split; [simpl; lia|]. split; [auto|].
          intros q r E L. apply (f_equal (@length byte)) in E. rewrite app_length in E. simpl in E. lia.
        * destruct (is_continuation c) eqn:C'.
          -- assert (Bg' : begins [a; b; c]) by (apply begins_iff; exists [x80]; constructor; auto).
             destruct s1 as [|d s1].
             ++ intros E. injection E as <-. split; [simpl; lia|]. split; [auto|].
                intros q r E L. apply (f_equal (@length byte)) in E. rewrite app_length in E. simpl in E. lia.
             ++ destruct (is_continuation d) eqn:C''; [discriminate|].
                intros E. injection E as <-. split; [simpl; lia|]. split; [auto|]. clear Bg Bg'. no_begin.
          -- intros E. injection E as <-. split; [simpl; lia|]. split; [auto|]. clear Bg. no_begin.
      + intros E. injection E as <-. split; [simpl; lia|]. split; [auto|]. no_begin. }
  intros E. injection E as <-. split; [simpl; lia|]. split; [auto|]. no_begin.
Qed.

Lemma utf8_nonempty v : scalar v -> utf8 v <> [].
Proof. intros H. apply utf8_character in H. destruct H; discriminate. Qed.

Lemma inspect_utf8 v r : scalar v -> inspect (utf8 v ++ r) = (true, length (utf8 v)).
Proof. intros H. apply inspect_character, utf8_character, H. Qed.

(** ** Lossy decoding *)

Lemma lossy_loop_spec fuel : forall s, (length s <= fuel)%nat -> lossy s (lossy_loop fuel s).
Proof.
  induction fuel as [|fuel IH]; intros s L.
  { destruct s; [constructor|simpl in L; lia]. }
  destruct s as [|a s]; [constructor|]. set (t := a :: s) in *.
  change (lossy_loop (S fuel) t) with
    (let (valid, n) := inspect t in
     (if valid then firstn n t else replacement) ++ lossy_loop fuel (skipn n t)).
  destruct (inspect t) as [[|] n] eqn:E.
  - apply inspect_true in E as [C Ln]. apply character_utf8 in C as (v & S & V).
    rewrite <- (firstn_skipn n t) at 1. rewrite <- V. constructor; auto. apply IH.
    assert (n <> 0%nat).
    { intros ->. simpl in V. apply (utf8_nonempty v S V). }
    rewrite skipn_length. lia.
  - apply inspect_false in E as E'; [|discriminate]. destruct E' as (Ln & B & M).
    rewrite <- (firstn_skipn n t) at 1. change replacement with (utf8 0xfffd).
    assert (Lf : length (firstn n t) = n) by (apply firstn_length_le; lia).
    constructor.
    + intros Z. rewrite Z in Lf. simpl in Lf. lia.
    + rewrite firstn_skipn. intros v r S Ev. rewrite Ev, inspect_utf8 in E by assumption. discriminate.
    + rewrite Lf. assumption.
    + rewrite Lf, firstn_skipn. assumption.
    + apply IH. rewrite skipn_length. lia.
Qed.

Lemma from_utf8_lossy_spec s : lossy s (from_utf8_lossy s).
Proof. apply lossy_loop_spec. lia. Qed.

(** ** Validity *)

Lemma valid_loop_spec fuel : forall s, (length s <= fuel)%nat ->
  valid_loop fuel s = true <-> well_formed_utf8 s.
Proof.
  induction fuel as [|fuel IH]; intros s L.
  { destruct s; [|simpl in L; lia]. split; auto. intros _. exists []. split; auto. }
  destruct s as [|a s].
  { split; auto. intros _. exists []. split; auto. }
  set (t := a :: s) in *.
  change (valid_loop (S fuel) t) with
    (let (valid, n) := inspect t in valid && valid_loop fuel (skipn n t)).
  destruct (inspect t) as [[|] n] eqn:E.
  - apply inspect_true in E as E'. destruct E' as [C Ln]. apply character_utf8 in C as (v & S & V).
    assert (n <> 0%nat).
    { intros ->. simpl in V. apply (utf8_nonempty v S V). }
    cbn [andb]. rewrite IH by (rewrite skipn_length; lia). split.
    + intros (vs & F & Ev). exists (v :: vs). split; [constructor; auto|].
      cbn [flat_map]. rewrite V, <- Ev. symmetry. apply firstn_skipn.
    + intros (vs & F & Ev). destruct F as [|w vs W F].
      { discriminate Ev. }
      exists vs. split; auto. cbn [flat_map] in Ev.
      rewrite Ev, inspect_utf8 in E by assumption. injection E as <-.
      rewrite Ev, skipn_app, skipn_all, Nat.sub_diag, skipn_O. reflexivity.
  - cbn [andb]. split; [discriminate|]. intros (vs & F & Ev). destruct F as [|w vs W F].
    { discriminate Ev. }
    cbn [flat_map] in Ev. rewrite Ev, inspect_utf8 in E by assumption. discriminate.
Qed.

Lemma from_utf8_iff s t : from_utf8 s = Some t <-> t = s /\ well_formed_utf8 s.
Proof.
  unfold from_utf8. pose proof (valid_loop_spec (length s) s (le_n _)) as V.
  destruct (valid_loop (length s) s); split.
  - intros E. injection E as <-. split; auto. apply V. reflexivity.
  - intros [-> _]. reflexivity.
  - discriminate.
  - intros [_ W]. apply V in W. discriminate.
Qed.

Lemma scalar_replacement : scalar 0xfffd.
Proof. unfold scalar. lia. Qed.

Lemma lossy_well_formed s t : lossy s t -> well_formed_utf8 t.
Proof.
  induction 1 as [|v s t S L (vs & F & ->)|p s t N C B M L (vs & F & ->)].
  - exists []. split; auto.
  - exists (v :: vs). split; auto.
  - exists (0xfffd :: vs). split; auto. constructor; auto. apply scalar_replacement.
Qed.

Lemma character_prefix e1 e2 r1 r2 : character e1 -> character e2 -> e1 ++ r1 = e2 ++ r2 ->
  e1 = e2 /\ r1 = r2.
Proof.
  intros C1 C2 E. pose proof (inspect_character e1 r1 C1) as I1.
  pose proof (inspect_character e2 r2 C2) as I2. rewrite E, I2 in I1. injection I1 as L.
  apply app_eq_app in E as (l & [[A B]|[A B]]); subst.
  - rewrite app_length in L. destruct l; [|simpl in L; lia]. rewrite app_nil_r. auto.
  - rewrite app_length in L. destruct l; [|simpl in L; lia]. rewrite app_nil_r. auto.
Qed.

Lemma utf8_prefix v w r1 r2 : scalar v -> scalar w -> utf8 v ++ r1 = utf8 w ++ r2 ->
  utf8 v = utf8 w /\ r1 = r2.
Proof. intros; eapply character_prefix; eauto using utf8_character. Qed.

Lemma lossy_identity s t : lossy s t -> well_formed_utf8 s -> t = s.
Proof.
  induction 1 as [|v s t S L IH|p s t N C B M L IH]; intros (vs & F & E); auto.
  - destruct F as [|w vs W F].
    { apply app_eq_nil in E as [E _]. apply utf8_nonempty in E; tauto. }
    cbn [flat_map] in E. apply utf8_prefix in E as [_ E]; auto.
    rewrite IH; auto. exists vs. auto.
  - exfalso. destruct F as [|w vs W F].
    { apply app_eq_nil in E as [E _]. tauto. }
    eapply C; eauto.
Qed.

(** The lossy decoding is determined by the specification. *)
Lemma lossy_functional s t : lossy s t -> forall u, lossy s u -> t = u.
Proof.
  induction 1 as [|v s t S L IH|p s t N C B M L IH]; intros u U.
  - remember (@nil byte) as w eqn:Ew. destruct U as [|v' s' t' S' L'|p' s' t' N' C' B' M' L']; auto.
    + apply app_eq_nil in Ew as [E _]. apply utf8_nonempty in E; tauto.
    + apply app_eq_nil in Ew as [E _]. tauto.
  - remember (utf8 v ++ s) as w eqn:Ew. destruct U as [|v' s' t' S' L'|p' s' t' N' C' B' M' L'].
    + symmetry in Ew. apply app_eq_nil in Ew as [E _]. apply utf8_nonempty in E; tauto.
    + apply utf8_prefix in Ew as [-> ->]; auto. f_equal. auto.
    + exfalso. eapply C'; eauto.
  - remember (p ++ s) as w eqn:Ew. destruct U as [|v' s' t' S' L'|p' s' t' N' C' B' M' L'].
    + symmetry in Ew. apply app_eq_nil in Ew as [E _]. tauto.
    + exfalso. eapply C; eauto.
    + f_equal.
      assert (Lp : length p = length p').
      { destruct (lt_eq_lt_dec (length p) (length p')) as [[Lt|Eq]|Gt]; auto; exfalso.
        - destruct B' as [B'|B'].
          + destruct p; [congruence|]. simpl in Lt. lia.
          + eapply (M p' s'); eauto.
        - destruct B as [B|B].
          + destruct p'; [congruence|]. simpl in Gt. lia.
          + eapply (M' p s); eauto. }
      assert (s = s').
      { apply (f_equal (skipn (length p'))) in Ew. rewrite skipn_app, skipn_all, Nat.sub_diag, skipn_O in Ew.
        rewrite <- Lp in Ew. rewrite skipn_app, skipn_all, Nat.sub_diag, skipn_O in Ew. simpl in Ew. auto. }
      subst s'. auto.
Qed.

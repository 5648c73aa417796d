(** TapeFacts: proofs about the position at which font sets leave a tape. *)
From Verif Require Import Base Float C1Number C1Operation C1Index C1Glyphs C1FontSet C1Tape BaseFacts
  SpecNumber NumberFacts SpecOperation OperationFacts SpecIndex IndexFacts StringFacts SpecGlyphs GlyphFacts
  SpecFontSet FontSetFacts LayoutFacts SpecFile FileFacts SpecTape.
Local Open Scope list_scope.
Local Open Scope Z_scope.

(** ** Single reads *)

Lemma jump_jumped cfg tape p offset :
  jump cfg tape p offset = bind (jumped cfg p offset) (fun here => Ok (rest_at tape here)).
Proof. reflexivity. Qed.

Lemma jumped_iff cfg p offset place : 0 <= p ->
  jumped cfg p offset = Ok place <-> located (overflow_checks cfg) p offset place.
Proof.
  intros Hp. unfold jumped, add_u64, as_u64, located.
  assert (M : (p + offset mod 2 ^ 64) mod 2 ^ 64 = (p + offset) mod 2 ^ 64)
    by (rewrite Zplus_mod_idemp_r; reflexivity).
  pose proof (Z.mod_pos_bound offset (2 ^ 64) ltac:(lia)) as B.
  destruct (in_u64 (p + offset mod 2 ^ 64)) eqn:U; unfold in_u64 in U.
  - rewrite Z.mod_small in M by lia. rewrite M. split.
    + intros H. injection H as <-. split; auto. lia.
    + intros (-> & _). reflexivity.
  - destruct (overflow_checks cfg).
    + split; [discriminate|]. intros (_ & C). specialize (C eq_refl). lia.
    + rewrite M. split.
      * intros H. injection H as <-. split; auto. discriminate.
      * intros (-> & _). reflexivity.
Qed.

(** Forgetting where the tape stands. *)
Definition forget {A} (m : outcome (A * Z)) : outcome A := let* (a, _) := m in Ok a.

Lemma forget_bind {A B} (m : outcome A) (k : A -> outcome (B * Z)) :
  forget (bind m k) = bind m (fun a => forget (k a)).
Proof. destruct m; reflexivity. Qed.

Lemma forget_taken {A B} (rd : reader A) tape here (k : A * Z -> outcome (B * Z)) (h : A -> outcome B) :
  (forall a there, forget (k (a, there)) = h a) ->
  forget (bind (taken rd tape here) k) = bind (rd (rest_at tape here)) (fun xr => let '(a, _) := xr in h a).
Proof.
  intros H. rewrite forget_bind. unfold taken. destruct (rd (rest_at tape here)) as [[a r]| | |]; cbn; auto.
Qed.

Lemma bind_ext {A B} (m : outcome A) (k h : A -> outcome B) : (forall a, k a = h a) -> bind m k = bind m h.
Proof. intros H. destruct m; cbn; auto. Qed.

Lemma skipn_add {A} n m (l : list A) : skipn (n + m) l = skipn n (skipn m l).
Proof.
  revert l. induction m as [|m IH]; intros l; [rewrite Nat.add_0_r; reflexivity|].
  rewrite Nat.add_succ_r. destruct l as [|x l]; cbn [skipn]; [rewrite skipn_nil; reflexivity|apply IH].
Qed.

(** What is behind a value on the tape. *)
Lemma rest_at_behind tape here e r : 0 <= here -> rest_at tape here = e ++ r ->
  rest_at tape (here + Z.of_nat (length e)) = r.
Proof.
  intros H E. rewrite rest_at_skipn in * by lia.
  replace (Z.to_nat (here + Z.of_nat (length e))) with (length e + Z.to_nat here)%nat by lia.
  rewrite skipn_add, E, skipn_app, skipn_all, Nat.sub_diag. reflexivity.
Qed.

Lemma taken_iff {A} (rd : reader A) enc tape here a there : 0 <= here -> sound rd enc -> complete rd enc ->
  taken rd tape here = Ok (a, there) <->
  exists e, stands tape here e /\ enc e a /\ there = here + Z.of_nat (length e).
Proof.
  intros Hh Hs Hc. unfold taken. rewrite bind_iff. split.
  - intros ([x r] & R & H). injection H as -> <-. apply Hs in R as (e & E & X). exists e.
    rewrite E, app_length. split; [|split; auto; lia]. split; auto. exists r. rewrite <- E.
    symmetry. apply rest_at_skipn. assumption.
  - intros (e & (_ & r & E) & X & ->). exists (a, r). rewrite rest_at_skipn, E by assumption. split.
    + apply Hc, X.
    + rewrite app_length. repeat f_equal. lia.
Qed.

Lemma jumped_taken {A} cfg tape p offset (rd : reader A) enc a there : 0 <= p -> sound rd enc -> complete rd enc ->
  (exists here, jumped cfg p offset = Ok here /\ taken rd tape here = Ok (a, there)) <->
  exists e, behind (overflow_checks cfg) tape p offset e there /\ enc e a.
Proof.
  intros Hp Hs Hc. split.
  - intros (here & J & T). apply (jumped_iff _ _ _ _ Hp) in J. pose proof (located_nonneg _ _ _ _ J).
    apply (taken_iff _ _ _ _ _ _ H Hs Hc) in T as (e & S & X & E). exists e. split; auto. exists here. auto.
  - intros (e & (here & L & S & E) & X). pose proof (located_nonneg _ _ _ _ L). exists here.
    split; [apply jumped_iff; auto|]. apply (taken_iff _ enc); eauto.
Qed.

(** ** Agreement *)

Lemma private_agrees cfg tape p top : forget (private_taken cfg tape p top) = read_private cfg tape p top.
Proof.
  unfold private_taken, read_private. rewrite forget_bind. apply bind_ext. intros (size & offset).
  rewrite jump_jumped, bind_assoc, forget_bind. apply bind_ext. intros here. cbn [bind].
  apply forget_taken. intros chunk there. rewrite forget_bind. apply bind_ext. intros ops.
  rewrite forget_bind. apply bind_ext. intros [another|]; [|reflexivity].
  rewrite forget_bind. apply bind_ext. intros sum.
  rewrite jump_jumped, bind_assoc, forget_bind. apply bind_ext. intros here'. cbn [bind].
  apply forget_taken. reflexivity.
Qed.

Lemma forget_through {A B} (m : outcome (A * Z)) (k : A * Z -> outcome (B * Z)) (h : A -> outcome B) :
  (forall a there, forget (k (a, there)) = h a) -> forget (bind m k) = bind (forget m) h.
Proof. intros H. destruct m as [[a there]| | |]; cbn; auto. Qed.

Lemma through_same {A B} (m : outcome (A * Z)) (m' : outcome A) (k : A * Z -> outcome (B * Z)) (h : A -> outcome B) :
  forget m = m' -> (forall a there, forget (k (a, there)) = h a) -> forget (bind m k) = bind m' h.
Proof. intros <-. apply forget_through. Qed.

Lemma forget_one {A} (rd : reader A) tape here :
  forget (taken rd tape here) = bind (rd (rest_at tape here)) (fun xr => let '(a, _) := xr in Ok a).
Proof. unfold forget, taken. rewrite bind_assoc. apply bind_ext. intros (x & r). reflexivity. Qed.

Lemma privates_agree cfg tape p tops : forall here,
  forget (privates_taken cfg tape p here tops) = read_privates cfg tape p tops.
Proof.
  induction tops as [|top tops IH]; intros here; [reflexivity|]. cbn [privates_taken read_privates].
  rewrite <- private_agrees. apply forget_through. intros r there.
  rewrite <- (IH there). apply forget_through. reflexivity.
Qed.

Lemma cid_agrees cfg tape p top cs : forget (cid_taken cfg tape p top cs) = read_cid cfg tape p top cs.
Proof.
  unfold cid_taken, read_cid. destruct (operations_get top Op_ROS) as [[|a [|b [|c [|]]]]|]; try reflexivity.
  rewrite forget_bind. apply bind_ext. intros offset.
  rewrite jump_jumped, bind_assoc, forget_bind. apply bind_ext. intros here. cbn [bind].
  apply forget_taken. intros enc there.
  rewrite forget_bind. apply bind_ext. intros offset'.
  rewrite jump_jumped, bind_assoc, forget_bind. apply bind_ext. intros here'. cbn [bind].
  apply forget_taken. intros dictionaries there'.
  rewrite forget_bind. apply bind_ext. intros opss.
  rewrite <- (privates_agree cfg tape p opss there'). apply forget_through. intros rs last.
  rewrite forget_bind. apply bind_ext. intros r. rewrite forget_bind. apply bind_ext. intros o. reflexivity.
Qed.

Lemma record_agrees cfg tape p top cs : forget (record_taken cfg tape p top cs) = read_record cfg tape p top cs.
Proof.
  unfold record_taken, read_record. destruct (map_contains top Op_ROS).
  - rewrite <- cid_agrees. apply forget_through. reflexivity.
  - rewrite <- private_agrees. apply forget_through. reflexivity.
Qed.

Lemma font_agrees cfg tape p i ops g : forget (font_taken cfg tape p i ops g) = read_font cfg tape p i ops g.
Proof.
  unfold font_taken, read_font. rewrite forget_bind. apply bind_ext. intros offset.
  rewrite jump_jumped, bind_assoc, forget_bind. apply bind_ext. intros here. cbn [bind].
  rewrite forget_bind. apply bind_ext. intros format.
  apply forget_taken. intros cs there. rewrite forget_bind. apply bind_ext. intros set_offset.
  apply through_same.
  { destruct (set_offset =? 0); [reflexivity|]. destruct (set_offset =? 1); [reflexivity|].
    destruct (set_offset =? 2); [reflexivity|].
    rewrite jump_jumped, bind_assoc, forget_bind. apply bind_ext. intros here'. cbn [bind].
    destruct (nth_error (character_strings g ++ [cs]) i); [|reflexivity]. apply forget_one. }
  intros set there'. rewrite forget_bind. apply bind_ext. intros code.
  apply through_same.
  { destruct (code =? 0); [reflexivity|]. destruct (code =? 1); [reflexivity|].
    rewrite jump_jumped, bind_assoc, forget_bind. apply bind_ext. intros here'. cbn [bind]. apply forget_one. }
  intros enc there''. destruct (nth_error (character_strings g ++ [cs]) i); [|reflexivity].
  apply through_same; [apply record_agrees|]. reflexivity.
Qed.

Lemma fonts_agree cfg tape p opss : forall here i g,
  forget (fonts_taken cfg tape p here i opss g) = read_fonts cfg tape p i opss g.
Proof.
  induction opss as [|ops opss IH]; intros here i g; [reflexivity|]. cbn [fonts_taken read_fonts].
  apply through_same; [apply font_agrees|]. intros g' there. apply IH.
Qed.

(** A value read where the one before it ended. *)
Lemma forget_next {A B} (rd : reader A) enc tape here s (k : A * Z -> outcome (B * Z)) (h : A * list byte -> outcome B) :
  sound rd enc -> 0 <= here -> rest_at tape here = s ->
  (forall a there r, 0 <= there -> rest_at tape there = r -> forget (k (a, there)) = h (a, r)) ->
  forget (bind (taken rd tape here) k) = bind (rd s) h.
Proof.
  intros Hs Hh <- H. rewrite forget_bind. unfold taken.
  destruct (rd (rest_at tape here)) as [[a r]| | |] eqn:R; try reflexivity. cbn [bind]. apply H.
  - apply Hs in R as (e & E & _). rewrite E, app_length. lia.
  - apply Hs in R as (e & E & _). rewrite E, app_length.
    replace (here + _) with (here + Z.of_nat (length e)) by lia. apply rest_at_behind; assumption.
Qed.

Lemma font_set_agrees cfg tape p : 0 <= p -> forget (font_set_taken cfg tape p) = read_font_set cfg tape p.
Proof.
  intros Hp. unfold font_set_taken, read_font_set. apply forget_taken. intros h there.
  rewrite jump_jumped, bind_assoc, forget_bind.
  destruct (jumped cfg p (header_size h)) as [here| | |] eqn:J; try reflexivity. cbn [bind].
  apply jumped_iff in J; auto. apply located_nonneg in J.
  apply (forget_next _ index_encoding); auto using read_index_sound. intros names here1 s1 H1 E1.
  apply (forget_next _ index_encoding); auto using read_index_sound. intros dictionaries here2 s2 H2 E2.
  rewrite forget_bind. apply bind_ext. intros opss.
  apply (forget_next _ index_encoding); auto using read_index_sound. intros strings here3 s3 H3 E3.
  apply (forget_next _ index_encoding); auto using read_index_sound. intros subroutines here4 s4 H4 E4.
  apply through_same; [apply fonts_agree|]. reflexivity.
Qed.

Lemma count_agrees cfg tape p : forget (count_taken cfg tape p) = font_set_count cfg tape p.
Proof.
  unfold count_taken, font_set_count. apply forget_taken. intros h there.
  rewrite jump_jumped, bind_assoc, forget_bind. apply bind_ext. intros here. cbn [bind]. apply forget_one.
Qed.

(** ** Places *)

Lemma located_unique checks p offset a b : located checks p offset a -> located checks p offset b -> a = b.
Proof. intros (-> & _) (-> & _). reflexivity. Qed.

Lemma stands_same {A} (rd : reader A) enc tape place e e' x : complete rd enc ->
  stands tape place e -> stands tape place e' -> enc e x -> enc e' x -> length e = length e'.
Proof.
  intros Hc (_ & r & E) (_ & r' & E') X X'. apply (Hc _ _ r) in X. apply (Hc _ _ r') in X'.
  rewrite <- E in X. rewrite <- E' in X'. rewrite X in X'. injection X' as <-.
  rewrite E in E'. apply app_inv_tail in E'. congruence.
Qed.

Lemma behind_unique {A} (rd : reader A) enc checks tape p offset e e' x place place' : complete rd enc ->
  behind checks tape p offset e place -> behind checks tape p offset e' place' -> enc e x -> enc e' x ->
  place = place'.
Proof.
  intros Hc (s & L & S & ->) (s' & L' & S' & ->) X X'. pose proof (located_unique _ _ _ _ _ L L') as <-.
  rewrite (stands_same rd enc tape s e e' x); auto.
Qed.

Lemma behind_found checks tape p offset e place : behind checks tape p offset e place -> found checks tape p offset e.
Proof. intros (s & L & S & _). exists s. auto. Qed.

Section Tape.
Context (cfg : config) (tape : list byte) (p : Z).
Context (Hp : 0 <= p) (Ht : Z.of_nat (length tape) < 2 ^ 63).
Let checks := overflow_checks cfg.

Lemma private_unique top r a b : private_behind checks tape p top r a -> private_behind checks tape p top r b -> a = b.
Proof.
  intros (size & offset & O & H) (size' & offset' & O' & H').
  destruct (operands_unique _ _ _ _ _ _ O O') as [<- <-].
  destruct H as [(N & chunk & L & B)|(another & sum & e & S1 & S2 & B & X)],
    H' as [(N' & chunk' & L' & B')|(another' & sum' & e' & S1' & S2' & B' & X')].
  - destruct B as (s & Lo & St & ->), B' as (s' & Lo' & St' & ->). rewrite (located_unique _ _ _ _ _ Lo Lo'). lia.
  - exfalso. exact (operand_some _ _ _ S1' N).
  - exfalso. exact (operand_some _ _ _ S1 N').
  - pose proof (operand_unique _ _ _ _ S1 S1') as <-. destruct S2 as (-> & _), S2' as (-> & _).
    eapply (behind_unique (read_index cfg) index_encoding); eauto using read_index_complete.
Qed.

Lemma private_left top r place : bounded top -> private_taken cfg tape p top = Ok (r, place) ->
  private_behind checks tape p top r place.
Proof.
  intros Bt H. unfold private_taken in H.
  apply bind_iff in H as ([size offset] & D & H). apply need_double_iff in D.
  destruct (bounded_double _ _ _ _ Bt D) as [B1 B2]. exists size, offset. split; auto.
  apply bind_iff in H as (here & J & H). apply bind_iff in H as ([chunk there] & T & H).
  unfold taken in T. apply bind_iff in T as ([chunk' r'] & T & E). injection E as -> <-.
  assert (J' : jump cfg tape p offset = Ok (rest_at tape here)) by (rewrite jump_jumped, J; reflexivity).
  destruct (read_chunk cfg tape p Hp Ht _ _ _ _ _ B1 J' T) as (N & Es & L).
  apply jumped_iff in J; auto. pose proof (located_nonneg _ _ _ _ J) as N'.
  assert (B : behind checks tape p offset chunk (here + Z.of_nat (length chunk))).
  { exists here. split; auto. split; auto. split; auto. exists r'. rewrite <- rest_at_skipn by assumption. auto. }
  apply bind_iff in H as (ops & O & H). apply bind_iff in H as (another & An & H).
  apply try_single_iff in An. destruct another as [another|].
  - right. apply bind_iff in H as (sum & S & H). apply add_i32_iff in S.
    apply bind_iff in H as (here' & J2 & H). apply bind_iff in H as ([x there] & T2 & H). injection H as <- <-.
    assert (X : exists here, jumped cfg p sum = Ok here /\ taken (read_index cfg) tape here = Ok (x, there)) by eauto.
    apply (jumped_taken _ _ _ _ _ index_encoding) in X as (e & Be & X);
      auto using read_index_sound, read_index_complete.
    exists another, sum, e. auto.
  - left. injection H as <- <-. split; auto. exists chunk. split; auto.
    rewrite Es, app_length. replace (here + _) with (here + Z.of_nat (length chunk)) by lia. exact B.
Qed.

Lemma privates_left tops : Forall bounded tops -> forall here rs place,
  privates_taken cfg tape p here tops = Ok (rs, place) ->
  tops = [] /\ rs = [] /\ place = here \/
  exists others o last, combine tops rs = others ++ [(o, last)] /\ private_behind checks tape p o last place.
Proof.
  induction 1 as [|top tops B _ IH]; intros here rs place H; cbn [privates_taken] in H.
  { injection H as <- <-. auto. }
  right. apply bind_iff in H as ([r there] & R & H). apply bind_iff in H as ([rs' last] & Rs & H).
  injection H as <- <-. apply IH in Rs as [(-> & -> & ->)|(others & o & l & E & Pb)].
  - exists [], top, r. split; auto. apply private_left; auto.
  - exists ((top, r) :: others), o, l. split; auto. cbn [combine]. rewrite E. reflexivity.
Qed.

Lemma empty_index_encoding e x : index_encoding e x -> data x = [] -> e = [x00; x00].
Proof.
  intros (size & chunks & F & -> & ->) E. rewrite data_value in E. subst chunks. reflexivity.
Qed.

Lemma record_left top cs r place : bounded top -> 
  record_taken cfg tape p top cs = Ok (r, place) -> record_behind checks tape p top r place.
Proof.
  intros Bt H. unfold record_taken in H. destruct (map_contains top Op_ROS).
  - apply bind_iff in H as ([c there] & H & E). injection E as <- <-. cbn [record_behind].
    unfold cid_taken in H. destruct (operations_get top Op_ROS) as [[|a [|b [|d [|]]]]|]; try discriminate.
    apply bind_iff in H as (o1 & _ & H). apply bind_iff in H as (h1 & _ & H).
    apply bind_iff in H as ([enc h2] & _ & H). apply bind_iff in H as (array & A & H). apply need_single_iff in A.
    apply bind_iff in H as (h3 & J & H). apply bind_iff in H as ([dictionaries h4] & T & H).
    assert (X : exists here, jumped cfg p array = Ok here /\ taken (read_index cfg) tape here = Ok (dictionaries, h4))
      by eauto.
    apply (jumped_taken _ _ _ _ _ index_encoding) in X as (e & Be & X);
      auto using read_index_sound, read_index_complete.
    apply bind_iff in H as (opss & D & H). apply tables_iff in D.
    apply bind_iff in H as ([rs h5] & R & H). apply bind_iff in H as (i1 & _ & H). apply bind_iff in H as (i2 & _ & H).
    injection H as <- <-. cbn [cid_operations cid_records].
    apply privates_left in R as [(-> & -> & ->)|R]; [|left; exact R|eapply dictionaries_bounded; eauto].
    right. split; auto. exists array. split; auto. inversion D as [E|]. symmetry in E.
    rewrite <- (empty_index_encoding e dictionaries X) by assumption. exact Be.
  - apply bind_iff in H as ([r' there] & H & E). injection E as <- <-. apply private_left; auto.
Qed.

Lemma font_left i ops g g' place : bounded ops -> font_taken cfg tape p i ops g = Ok (g', place) ->
  exists r, records g' = records g ++ [r] /\ record_behind checks tape p ops r place.
Proof.
  intros B H. unfold font_taken in H.
  apply bind_iff in H as (o1 & _ & H). apply bind_iff in H as (h1 & _ & H). apply bind_iff in H as (fo & _ & H).
  apply bind_iff in H as ([cs h2] & _ & H). apply bind_iff in H as (o2 & _ & H).
  apply bind_iff in H as ([set h3] & _ & H). apply bind_iff in H as (o3 & _ & H).
  apply bind_iff in H as ([enc h4] & _ & H).
  destruct (nth_error (character_strings g ++ [cs]) i); try discriminate.
  apply bind_iff in H as ([r h5] & R & H). injection H as <- <-. exists r. split; auto.
  eapply record_left; eauto.
Qed.

Lemma fonts_left opss : Forall bounded opss -> forall here i g g' place,
  fonts_taken cfg tape p here i opss g = Ok (g', place) ->
  exists rs, records g' = records g ++ rs /\ length rs = length opss /\
    (opss = [] /\ place = here \/
     exists others top last, combine opss rs = others ++ [(top, last)] /\ record_behind checks tape p top last place).
Proof.
  induction 1 as [|ops opss B _ IH]; intros here i g g' place H; cbn [fonts_taken] in H.
  { injection H as <- <-. exists []. rewrite app_nil_r. auto. }
  apply bind_iff in H as ([g1 there] & F & H). apply font_left in F as (r & E & Rb); auto.
  apply IH in H as (rs & E' & L & H). exists (r :: rs). rewrite E', E, <- app_assoc. split; auto.
  split; [cbn; auto|]. right. destruct H as [(-> & ->)|(others & top & last & C & Rl)].
  - destruct rs; [|discriminate]. exists [], ops, r. auto.
  - exists ((ops, r) :: others), top, last. cbn [combine app]. rewrite C. auto.
Qed.

Lemma font_set_left f place : font_set_taken cfg tape p = Ok (f, place) -> font_set_behind checks tape p f place.
Proof.
  intros H. unfold font_set_taken in H.
  apply bind_iff in H as ([h h0] & _ & H). apply bind_iff in H as (here & J & H).
  apply jumped_iff in J; auto. pose proof (located_nonneg _ _ _ _ J) as N.
  apply bind_iff in H as ([names h1] & T1 & H).
  apply (taken_iff _ index_encoding) in T1 as (e1 & S1 & X1 & E1); auto using read_index_sound, read_index_complete.
  apply bind_iff in H as ([dictionaries h2] & T2 & H).
  apply (taken_iff _ index_encoding) in T2 as (e2 & S2 & X2 & E2); auto using read_index_sound, read_index_complete;
    [|lia].
  apply bind_iff in H as (opss & D & H). apply tables_iff in D.
  apply bind_iff in H as ([strings h3] & T3 & H).
  apply (taken_iff _ index_encoding) in T3 as (e3 & S3 & X3 & E3); auto using read_index_sound, read_index_complete;
    [|lia].
  apply bind_iff in H as ([subroutines h4] & T4 & H).
  apply (taken_iff _ index_encoding) in T4 as (e4 & S4 & X4 & E4); auto using read_index_sound, read_index_complete;
    [|lia].
  apply bind_iff in H as ([g last] & F & H). injection H as <- <-.
  apply fonts_left in F as (rs & E & L & F); [|eapply dictionaries_bounded; eauto]. cbn [records app] in E.
  unfold font_set_behind. cbn [fs_operations fs_records fs_names fs_strings fs_subroutines fs_header]. rewrite E.
  destruct F as [(-> & ->)|F]; [|left; exact F]. right. destruct rs; [|discriminate]. split; auto.
  exists e1, e2, e3, e4, dictionaries. repeat (split; [assumption|]). exists here. split; auto.
  split; [|rewrite !app_length; lia].
  assert (C : forall place e e', stands tape place e -> stands tape (place + Z.of_nat (length e)) e' ->
              stands tape place (e ++ e')).
  { clear. intros place e e' (N & r & E) (_ & r' & E'). split; auto. exists r'.
    replace (Z.to_nat (place + Z.of_nat (length e))) with (length e + Z.to_nat place)%nat in E' by lia.
    rewrite skipn_add, E, skipn_app, skipn_all, Nat.sub_diag in E'. cbn in E'. rewrite E, E', app_assoc. reflexivity. }
  subst h1 h2 h3. repeat (apply C; auto).
Qed.

Lemma last_of {A} (xs : list A) x ys y : xs ++ [x] = ys ++ [y] -> x = y.
Proof. intros H. apply app_inj_tail in H as [_ H]. exact H. Qed.

Lemma record_unique top r a b : record_behind checks tape p top r a -> record_behind checks tape p top r b -> a = b.
Proof.
  destruct r as [r|r]; cbn [record_behind]; [|apply private_unique].
  assert (N : forall l o x, combine (cid_operations r) (cid_records r) = l ++ [(o, x)] -> cid_records r = [] -> False).
  { intros l o x E Z. rewrite Z in E. destruct (cid_operations r), l; discriminate. }
  intros [(l & o & x & E & P)|(Z & array & O & B)] [(l' & o' & x' & E' & P')|(Z' & array' & O' & B')].
  - rewrite E in E'. apply last_of in E'. injection E' as <- <-. eapply private_unique; eauto.
  - exfalso. eauto.
  - exfalso. eauto.
  - pose proof (operand_unique _ _ _ _ O O') as <-. destruct B as (s & L & _ & ->), B' as (s' & L' & _ & ->).
    rewrite (located_unique _ _ _ _ _ L L'). reflexivity.
Qed.

Lemma font_set_unique f a b : font_set_behind checks tape p f a -> font_set_behind checks tape p f b -> a = b.
Proof.
  assert (N : forall l o x, combine (fs_operations f) (fs_records f) = l ++ [(o, x)] -> fs_records f = [] -> False).
  { intros l o x E Z. rewrite Z in E. destruct (fs_operations f), l; discriminate. }
  intros [(l & o & x & E & P)|(Z & e1 & e2 & e3 & e4 & d & X1 & X2 & X3 & X4 & s & L & (_ & t & S) & ->)]
    [(l' & o' & x' & E' & P')|(Z' & e1' & e2' & e3' & e4' & d' & X1' & X2' & X3' & X4' & s' & L' & (_ & t' & S') & ->)].
  - rewrite E in E'. apply last_of in E'. injection E' as <- <-. eapply record_unique; eauto.
  - exfalso. eauto.
  - exfalso. eauto.
  - rewrite <- (located_unique _ _ _ _ _ L L') in *. rewrite S in S'. rewrite <- !app_assoc in S'.
    assert (K : forall e x t e' x' t', index_encoding e x -> index_encoding e' x' -> e ++ t = e' ++ t' ->
                length e = length e' /\ t = t').
    { clear. intros e x t e' x' t' X X' E. apply (read_index_complete dev_profile _ _ t) in X.
      apply (read_index_complete dev_profile _ _ t') in X'. rewrite E, X' in X. injection X as _ ->.
      apply app_inv_tail in E. subst. auto. }
    destruct (K _ _ _ _ _ _ X1 X1' S') as [L1 S1]. destruct (K _ _ _ _ _ _ X2 X2' S1) as [L2 S2].
    destruct (K _ _ _ _ _ _ X3 X3' S2) as [L3 S3]. destruct (K _ _ _ _ _ _ X4 X4' S3) as [L4 _].
    rewrite !app_length. lia.
Qed.

Lemma font_set_taken_iff f place : font_set_taken cfg tape p = Ok (f, place) <->
  font_set_layout checks tape p f /\ font_set_behind checks tape p f place.
Proof.
  split.
  - intros H. split; [|apply font_set_left, H]. apply (font_set_iff_closed cfg tape p f Hp Ht).
    rewrite <- font_set_agrees, H by assumption. reflexivity.
  - intros (L & B). apply (font_set_iff_closed cfg tape p f Hp Ht) in L.
    rewrite <- font_set_agrees in L by assumption.
    destruct (font_set_taken cfg tape p) as [[f' there]| | |] eqn:E; try discriminate. injection L as ->.
    apply font_set_left in E. rewrite (font_set_unique _ _ _ B E). reflexivity.
Qed.
End Tape.

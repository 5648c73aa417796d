(** LayoutFacts: consequences of the layout of font sets. *)
From Verif Require Import Base Float C1Number C1Operation C1Index C1Glyphs C1FontSet BaseFacts
  SpecNumber NumberFacts SpecOperation OperationFacts SpecIndex IndexFacts StringFacts SpecGlyphs GlyphFacts
  SpecFontSet FontSetFacts.

Lemma located_forward checks p offset place : 0 <= p < 2 ^ 63 -> 0 <= offset < 2 ^ 31 ->
  located checks p offset place <-> place = p + offset.
Proof.
  intros Hp Ho. unfold located. rewrite !Z.mod_small by lia. split; [tauto|]. intros ->. split; lia.
Qed.

Lemma summed_forward checks a b sum : - 2 ^ 31 <= a + b < 2 ^ 31 ->
  summed checks a b sum <-> sum = a + b.
Proof.
  intros H. unfold summed, signed. change (2 ^ (32 - 1)) with (2 ^ 31).
  assert (E : (if (a + b) mod 2 ^ 32 <? 2 ^ 31 then (a + b) mod 2 ^ 32 else (a + b) mod 2 ^ 32 - 2 ^ 32) = a + b).
  { pose proof (Z.div_mod (a + b) (2 ^ 32) ltac:(lia)) as D.
    pose proof (Z.mod_pos_bound (a + b) (2 ^ 32) ltac:(lia)) as B.
    destruct (Z.ltb_spec ((a + b) mod 2 ^ 32) (2 ^ 31)); lia. }
  rewrite E. split; [tauto|]. intros ->. auto.
Qed.

Lemma summed_range checks a b sum : summed checks a b sum -> - 2 ^ 31 <= sum < 2 ^ 31.
Proof.
  intros (-> & _). unfold signed. change (2 ^ (32 - 1)) with (2 ^ 31).
  pose proof (Z.mod_pos_bound (a + b) (2 ^ 32) ltac:(lia)) as B.
  destruct (Z.ltb_spec ((a + b) mod 2 ^ 32) (2 ^ 31)); lia.
Qed.

Lemma summed_weaken a b sum : summed true a b sum -> forall checks, summed checks a b sum.
Proof. intros (-> & C) checks. split; auto. Qed.

(** ** Moving a font set to another tape *)

Lemma character_set_nonempty n : consumes (character_set_encoding n).
Proof. intros e c H. destruct H; discriminate. Qed.
Lemma any_encoding_nonempty : consumes any_encoding.
Proof. intros e c H. destruct H as [e x H|]; [destruct H|]; discriminate. Qed.
Lemma select_nonempty n : consumes (select_encoding n).
Proof. intros e c H. destruct H; discriminate. Qed.

Section Move.
Context (checks checks' : bool) (tape tape' : list byte) (p p' : Z) (G : Z -> Prop).
Context (Hc : checks' = true -> checks = true).
Context (Move : forall offset e, - 2 ^ 31 <= offset < 2 ^ 31 -> e <> [] \/ G offset ->
  found checks tape p offset e -> found checks' tape' p' offset e).

Definition good (top : operations) : Prop :=
  forall size offset, operands top Op_Private size offset -> G offset.

Lemma summed_move a b sum : summed checks a b sum -> summed checks' a b sum.
Proof. intros (-> & C). split; auto. Qed.

Lemma private_move top r : bounded top -> good top ->
  private_layout checks tape p top r -> private_layout checks' tape' p' top r.
Proof.
  intros B Gt (size & offset & chunk & O & F & L & D & S).
  exists size, offset, chunk. split; auto. split.
  { apply Move; auto; [eapply bounded_double; eauto|right; eapply Gt; eauto]. }
  split; auto. split; auto. destruct S as [S|(another & sum & e & S1 & S2 & S3 & S4)]; auto.
  right. exists another, sum, e. split; auto. split; [apply summed_move; auto|]. split; auto.
  apply Move; auto; [eapply summed_range; eauto|left; eapply index_encoding_consumes; eauto].
Qed.

Lemma privates_move tops rs : Forall bounded tops -> Forall good tops ->
  Forall2 (private_layout checks tape p) tops rs -> Forall2 (private_layout checks' tape' p') tops rs.
Proof.
  intros D Gs P. induction P as [|top r tops rs P Ps IH]; constructor.
  - inversion D; inversion Gs; subst. apply private_move; auto.
  - inversion D; inversion Gs; subst. auto.
Qed.

Lemma cid_move top n r : bounded top -> Forall good (cid_operations r) ->
  cid_layout checks tape p top n r -> cid_layout checks' tape' p' top n r.
Proof.
  intros B Gs (a & b & select & array & e & ds & ea & O & Na & Ra & Nb & Rb & S & F & X & A & Fa & Xa & D & P).
  exists a, b, select, array, e, ds, ea. repeat (split; [solve [auto]|]).
  split. { apply Move; auto; [eapply bounded_single; eauto|left; eapply select_nonempty; eauto]. }
  repeat (split; [solve [auto]|]).
  split. { apply Move; auto; [eapply bounded_single; eauto|left; eapply index_encoding_consumes; eauto]. }
  split; auto. split; auto. apply dictionaries_bounded in D. apply privates_move; auto.
Qed.

Definition good_record (top : operations) (r : record) : Prop :=
  match r with CharacterIDKeyed c => Forall good (cid_operations c) | CharacterNameKeyed _ => good top end.

Lemma font_move x : bounded (font_operations x) -> good_record (font_operations x) (font_record x) ->
  font_layout checks tape p x -> font_layout checks' tape' p' x.
Proof.
  intros B Gr (strings & set & code & e & S & T & F & X & Cs & C & E & En & R).
  exists strings, set, code, e. split; auto. split; auto. split.
  { apply Move; auto; [eapply bounded_single; eauto|left; eapply index_encoding_consumes; eauto]. }
  split; auto. split; auto. split.
  { unfold character_set_layout in *. destruct C as [C|[C|[C|(N & ec & C1 & C2)]]]; auto.
    do 3 right. split; auto. exists ec. split; auto.
    apply Move; auto; [eapply bounded_single; eauto|left; eapply character_set_nonempty; eauto]. }
  split; auto. split.
  { unfold encoding_layout in *. destruct En as [En|[En|(N & ec & C1 & C2)]]; auto.
    do 2 right. split; auto. exists ec. split; auto.
    apply Move; auto; [eapply bounded_single; eauto|left; eapply any_encoding_nonempty; eauto]. }
  unfold record_layout in *. destruct (font_record x) as [r|r]; destruct R as [R1 R2]; split; auto.
  - apply cid_move; auto.
  - apply private_move; auto.
Qed.

Lemma header_size_range e h : header_encoding e h -> 0 <= header_size h < 256.
Proof. intros (a & b & c & d & _ & ->). cbn. apply bz_range. Qed.

Lemma font_set_move f : (forall e, stands tape p e -> stands tape' p' e) ->
  Forall good (private_dictionaries f) ->
  font_set_layout checks tape p f -> font_set_layout checks' tape' p' f.
Proof.
  intros Hh Gd (eh & e1 & e2 & e3 & e4 & ds & xs & Xh & Sh & F & X1 & X2 & X3 & X4 & D & M1 & M2 & M3 & M4 & M5 & Xs).
  exists eh, e1, e2, e3, e4, ds, xs. split; auto. split; auto. split.
  { apply Move; auto.
    - apply header_size_range in Xh. lia.
    - left. intros E. apply app_eq_nil in E as [E _]. apply index_encoding_consumes in X1. congruence. }
  repeat (split; [solve [auto]|]).
  apply dictionaries_bounded in D. unfold private_dictionaries in Gd.
  rewrite M1 in D, Gd. rewrite M5 in Gd. clear - D Gd Xs Hc Move.
  induction Xs as [|x xs X Xs IH]; constructor.
  - inversion D; subst. apply font_move; auto.
    unfold good_record. cbn [map combine flat_map] in Gd. apply Forall_app in Gd as [Gd _].
    destruct (font_record x); auto. inversion Gd; auto.
  - inversion D; subst. apply IH; auto. cbn [map combine flat_map] in Gd.
    apply Forall_app in Gd as [_ Gd]. exact Gd.
Qed.

End Move.

(** Appending bytes. *)

Lemma stands_append tape post place e : stands tape place e -> stands (tape ++ post) place e.
Proof.
  intros (N & r & E). split; auto. rewrite skipn_app, E. exists (r ++ skipn (Z.to_nat place - length tape) post).
  rewrite <- app_assoc. reflexivity.
Qed.

Lemma found_append checks tape post p offset e :
  found checks tape p offset e -> found checks (tape ++ post) p offset e.
Proof. intros (place & L & S). exists place. split; auto. apply stands_append, S. Qed.

Lemma append_layout checks tape post p f :
  font_set_layout checks tape p f -> font_set_layout checks (tape ++ post) p f.
Proof.
  apply (font_set_move checks checks tape (tape ++ post) p p (fun _ => True)); auto.
  - intros offset e _ _. apply found_append.
  - intros e. apply stands_append.
  - apply Forall_forall. intros top _ size offset _. exact I.
Qed.

Lemma append_read cfg tape post p f : 0 <= p -> Z.of_nat (length (tape ++ post)) < 2 ^ 63 ->
  read_font_set cfg tape p = Ok f -> read_font_set cfg (tape ++ post) p = Ok f.
Proof.
  intros Hp Ht H. apply font_set_iff; auto. apply append_layout. apply font_set_iff; auto.
  rewrite app_length in Ht. lia.
Qed.

Lemma truncated_read cfg tape post p f g : 0 <= p -> Z.of_nat (length (tape ++ post)) < 2 ^ 63 ->
  read_font_set cfg (tape ++ post) p = Ok f -> read_font_set cfg tape p = Ok g -> g = f.
Proof. intros Hp Ht H1 H2. apply (append_read cfg tape post) in H2; auto. congruence. Qed.

(** Prepending bytes. *)

Lemma stands_prepend pre tape place e : stands tape place e ->
  stands (pre ++ tape) (Z.of_nat (length pre) + place) e.
Proof.
  intros (N & r & E). split; [lia|]. exists r. rewrite skipn_app, skipn_all2 by lia. cbn [app].
  replace (_ - _)%nat with (Z.to_nat place) by lia. exact E.
Qed.

Lemma found_prepend checks pre tape p offset e :
  0 <= p -> Z.of_nat (length pre) + p < 2 ^ 63 -> Z.of_nat (length tape) < 2 ^ 63 ->
  - 2 ^ 31 <= offset < 2 ^ 31 ->
  e <> [] \/ checks = false \/ ~ (offset < 0 <= Z.of_nat (length pre) + p + offset) ->
  found checks tape p offset e -> found checks (pre ++ tape) (Z.of_nat (length pre) + p) offset e.
Proof.
  intros Hp Hs Ht Ho C (place & (-> & L) & S). set (k := Z.of_nat (length pre)) in *.
  assert (Hk : 0 <= k) by lia.
  destruct (Z_lt_dec (p + offset) 0) as [N|N].
  - assert (E : (p + offset) mod 2 ^ 64 = p + offset + 2 ^ 64).
    { rewrite <- (Z_mod_plus_full (p + offset) 1), Z.mul_1_l. apply Z.mod_small. lia. }
    rewrite E in S. destruct S as (_ & r & S). rewrite skipn_all2 in S by lia.
    symmetry in S. apply app_eq_nil in S as [-> _].
    exists ((k + p + offset) mod 2 ^ 64). split.
    + split; auto. intros ->. destruct C as [C|[C|C]]; try congruence.
      replace (offset mod 2 ^ 64) with (offset + 2 ^ 64)
        by (symmetry; rewrite <- (Z_mod_plus_full offset 1), Z.mul_1_l; apply Z.mod_small; lia). lia.
    + split; [apply Z.mod_pos_bound; lia|]. eexists. reflexivity.
  - rewrite Z.mod_small in S by lia. exists (k + (p + offset)). split; [split|].
    + rewrite Z.add_assoc. symmetry. apply Z.mod_small. lia.
    + intros Hc. specialize (L Hc). destruct (Z_lt_dec offset 0) as [O|O].
      * exfalso. assert (E : offset mod 2 ^ 64 = offset + 2 ^ 64).
        { rewrite <- (Z_mod_plus_full offset 1), Z.mul_1_l. apply Z.mod_small. lia. } lia.
      * rewrite Z.mod_small by lia. lia.
    + apply stands_prepend, S.
Qed.

Lemma prepend_read cfg pre tape p f : 0 <= p -> Z.of_nat (length pre) + p < 2 ^ 63 ->
  Z.of_nat (length (pre ++ tape)) < 2 ^ 63 ->
  (overflow_checks cfg = true -> forall ops size offset,
    In ops (private_dictionaries f) -> operands ops Op_Private size offset ->
    ~ (offset < 0 <= Z.of_nat (length pre) + p + offset)) ->
  read_font_set cfg tape p = Ok f ->
  read_font_set cfg (pre ++ tape) (Z.of_nat (length pre) + p) = Ok f.
Proof.
  intros Hp Hs Ht Gd H. pose proof Ht as Ht'. rewrite app_length in Ht'.
  apply font_set_iff; auto; [lia|]. apply font_set_iff in H; auto; [|lia]. revert H.
  apply (font_set_move (overflow_checks cfg) _ tape _ p _ (fun offset => overflow_checks cfg = false \/
    ~ (offset < 0 <= Z.of_nat (length pre) + p + offset))); auto.
  - intros offset e Ho C F. apply found_prepend; auto. lia.
  - intros e. apply stands_prepend.
  - apply Forall_forall. intros top I size offset O. destruct (overflow_checks cfg); auto. right. eauto.
Qed.

(** A font set that reads without overflow checks. *)
Lemma profiles_read cfg cfg' tape p f : 0 <= p -> Z.of_nat (length tape) < 2 ^ 63 ->
  (overflow_checks cfg' = true -> overflow_checks cfg = true) ->
  read_font_set cfg tape p = Ok f -> read_font_set cfg' tape p = Ok f.
Proof.
  intros Hp Ht Hc H. apply font_set_iff; auto. apply font_set_iff in H; auto. revert H.
  apply (font_set_move (overflow_checks cfg) (overflow_checks cfg') tape tape p p (fun _ => True)); auto.
  - intros offset e _ _ (place & (-> & L) & S). exists ((p + offset) mod 2 ^ 64). split; auto. split; auto.
  - apply Forall_forall. intros top _ size offset _. exact I.
Qed.

(** ** Parallel vectors *)

Lemma parallel cfg tape p f : 0 <= p -> Z.of_nat (length tape) < 2 ^ 63 ->
  read_font_set cfg tape p = Ok f ->
  length (fs_encodings f) = length (fs_operations f) /\
  length (fs_character_sets f) = length (fs_operations f) /\
  length (fs_character_strings f) = length (fs_operations f) /\
  length (fs_records f) = length (fs_operations f) /\
  forall i ops, nth_error (fs_operations f) i = Some ops ->
    exists enc set cs r,
      nth_error (fs_encodings f) i = Some enc /\ nth_error (fs_character_sets f) i = Some set /\
      nth_error (fs_character_strings f) i = Some cs /\ nth_error (fs_records f) i = Some r /\
      font_layout (overflow_checks cfg) tape p
        {| font_operations := ops; font_encoding := enc; font_character_set := set;
           font_character_strings := cs; font_record := r |}.
Proof.
  intros Hp Ht H. apply font_set_iff in H; auto.
  destruct H as (eh & e1 & e2 & e3 & e4 & ds & xs & Xh & Sh & F & X1 & X2 & X3 & X4 & D & M1 & M2 & M3 & M4 & M5 & Xs).
  rewrite M1, M2, M3, M4, M5, !map_length. repeat split; auto.
  intros i ops N. rewrite nth_error_map in N. destruct (nth_error xs i) as [x|] eqn:E; [|discriminate].
  cbn [option_map] in N. injection N as <-.
  exists (font_encoding x), (font_character_set x), (font_character_strings x), (font_record x).
  rewrite !nth_error_map, E. cbn [option_map]. repeat split; auto.
  apply nth_error_In in E. rewrite Forall_forall in Xs. specialize (Xs x E). destruct x. exact Xs.
Qed.

(** The dictionary of a font stands in the dictionary index. *)
Lemma top_dictionaries cfg tape p f : 0 <= p -> Z.of_nat (length tape) < 2 ^ 63 ->
  read_font_set cfg tape p = Ok f -> Forall (top_dictionary (overflow_checks cfg) tape p) (fs_operations f).
Proof.
  intros Hp Ht H. apply font_set_iff in H; auto.
  destruct H as (eh & e1 & e2 & e3 & e4 & ds & xs & Xh & Sh & (place & L & N & r & E) & X1 & X2 & _ & _ & D & _).
  apply Forall_forall. intros ops I.
  assert (C : exists chunk, In chunk (data ds) /\ dictionary_data chunk ops).
  { clear - D I. induction D as [|c o cs os R D IH]; [destruct I|]. destruct I as [->|I].
    - exists c. split; auto. left. reflexivity.
    - destruct (IH I) as (c' & I' & R'). exists c'. split; auto. right. auto. }
  destruct C as (chunk & Ic & R). exists eh, (fs_header f), e1, (fs_names f), e2, ds, chunk.
  repeat split; auto; try apply Sh. exists place. split; auto. split; auto.
  exists (e3 ++ e4 ++ r). rewrite E, <- !app_assoc. reflexivity.
Qed.

(** ** The number of fonts *)

Lemma count_names cfg tape p f : 0 <= p -> Z.of_nat (length tape) < 2 ^ 63 ->
  read_font_set cfg tape p = Ok f -> font_set_count cfg tape p = Ok (Z.of_nat (length (data (fs_names f)))).
Proof.
  intros Hp Ht H. apply font_set_iff in H; auto.
  destruct H as (eh & e1 & e2 & e3 & e4 & ds & xs & Xh & Sh & (place & L & N & r & E) & X1 & _).
  unfold font_set_count. rewrite bind_iff. destruct Sh as (_ & rh & Eh). exists (fs_header f, rh). split.
  { rewrite rest_at_skipn, Eh by assumption. apply read_header_complete, Xh. }
  rewrite bind_iff. exists (rest_at tape place). split. { apply jump_iff; eauto. }
  rewrite rest_at_skipn, E by assumption. rewrite <- !app_assoc.
  destruct X1 as (size & chunks & (F & _) & -> & ->). destruct chunks as [|c cs].
  - reflexivity.
  - cbn [index_bytes]. rewrite <- !app_assoc. rewrite (take_u16_complete _ (Z.of_nat (length (c :: cs)))).
    + reflexivity.
    + split; [lia|reflexivity].
Qed.

Lemma count_partial cfg tape p f : 0 <= p -> Z.of_nat (length tape) < 2 ^ 63 ->
  read_font_set cfg tape p = Ok f ->
  (font_set_count cfg tape p = Ok (Z.of_nat (length (fs_records f))) <->
   length (data (fs_names f)) = length (fs_operations f)).
Proof.
  intros Hp Ht H. pose proof (count_names _ _ _ _ Hp Ht H) as C.
  destruct (parallel _ _ _ _ Hp Ht H) as (_ & _ & _ & P & _). rewrite C, P. split.
  - intros E. injection E as E. lia.
  - intros ->. reflexivity.
Qed.

Lemma count_refuted : forall cfg, exists tape f n,
  read_font_set cfg tape 0 = Ok f /\ font_set_count cfg tape 0 = Ok n /\
  n <> Z.of_nat (length (fs_records f)).
Proof.
  intros cfg. exists [x01; x00; x04; x01; x00; x01; x01; x01; x02; x41; x00; x00; x00; x00; x00; x00].
  eexists. exists 1. split; [|split].
  - destruct cfg as [[] [] []]; vm_compute; reflexivity.
  - destruct cfg as [[] [] []]; vm_compute; reflexivity.
  - cbn. discriminate.
Qed.

(** ** Records *)

Lemma record_kind cfg tape p f i ops r : 0 <= p -> Z.of_nat (length tape) < 2 ^ 63 ->
  read_font_set cfg tape p = Ok f ->
  nth_error (fs_operations f) i = Some ops -> nth_error (fs_records f) i = Some r ->
  match r with
  | CharacterIDKeyed c => exists a b,
      entry ops Op_ROS [Integer a; Integer b; cid_supplement c] /\
      0 <= a /\ 0 <= b /\ registry c = a mod 2 ^ 16 /\ ordering c = b mod 2 ^ 16
  | CharacterNameKeyed _ => absent ops Op_ROS
  end.
Proof.
  intros Hp Ht H N1 N2. destruct (parallel _ _ _ _ Hp Ht H) as (_ & _ & _ & _ & P).
  destruct (P i ops N1) as (enc & set & cs & r' & _ & _ & _ & N3 & L). rewrite N2 in N3. injection N3 as <-.
  destruct L as (strings & st & code & e & _ & _ & _ & _ & _ & _ & _ & _ & R). cbn in R.
  destruct r as [c|c]; destruct R as [M R]; auto.
  destruct R as (a & b & select & array & e' & ds & ea & O & Na & Ra & Nb & Rb & _).
  exists a, b. split; auto. destruct O as [O|[O _]]; [exact O|contradiction].
Qed.

Lemma cid_parallel cfg tape p f i ops c : 0 <= p -> Z.of_nat (length tape) < 2 ^ 63 ->
  read_font_set cfg tape p = Ok f ->
  nth_error (fs_operations f) i = Some ops -> nth_error (fs_records f) i = Some (CharacterIDKeyed c) ->
  (exists array e dictionaries, operand ops Op_FDArray array /\
     found (overflow_checks cfg) tape p array e /\ index_encoding e dictionaries /\
     Forall2 dictionary_data (data dictionaries) (cid_operations c)) /\
  length (cid_records c) = length (cid_operations c) /\
  forall j o r, nth_error (cid_operations c) j = Some o -> nth_error (cid_records c) j = Some r ->
    private_layout (overflow_checks cfg) tape p o r.
Proof.
  intros Hp Ht H N1 N2. destruct (parallel _ _ _ _ Hp Ht H) as (_ & _ & _ & _ & P).
  destruct (P i ops N1) as (enc & set & cs & r' & _ & _ & _ & N3 & L). rewrite N2 in N3. injection N3 as <-.
  destruct L as (strings & st & code & e & _ & _ & _ & _ & _ & _ & _ & _ & R). cbn in R. destruct R as [M R].
  destruct R as (a & b & select & array & e' & ds & ea & O & Na & Ra & Nb & Rb & S & Fs & Xs & A & Fa & Xa & D & Pr).
  split; [exists array, ea, ds; auto|]. split; [clear - Pr; induction Pr; cbn; auto|].
  clear - Pr. induction Pr as [|x y xs ys H F IH]; intros [|j] o r E1 E2; cbn in *; try discriminate.
  - injection E1 as <-. injection E2 as <-. exact H.
  - eauto.
Qed.

(** ** Panics *)

Definition quiet (cfg : config) : Prop := overflow_checks cfg = false /\ preallocates cfg = false.

Lemma jump_settled cfg tape p offset : 0 <= p < 2 ^ 63 -> offset < 2 ^ 31 ->
  overflow_checks cfg = false \/ 0 <= offset -> settled (jump cfg tape p offset).
Proof.
  intros Hp B C. unfold jump, add_u64, as_u64. destruct (in_u64 (p + offset mod 2 ^ 64)) eqn:E; [exact I|].
  destruct C as [->|C]; [exact I|]. exfalso. rewrite Z.mod_small in E by lia. unfold in_u64 in E. lia.
Qed.

Lemma take_vec_quiet {A} cfg size (rd : reader A) n s : total rd -> preallocates cfg = false ->
  settled (take_vec cfg size rd n s).
Proof. intros Ht Q. unfold take_vec. rewrite Q. cbn [andb]. apply take_n_total, Ht. Qed.

Lemma need_single_settled ops o : settled (need_single ops o).
Proof. unfold need_single. destruct (get_single ops o) as [[]|]; exact I. Qed.
Lemma need_double_settled ops o : settled (need_double ops o).
Proof. unfold need_double. destruct (get_double ops o) as [[[] []]|]; exact I. Qed.
Lemma try_single_settled ops o : settled (try_single ops o).
Proof. unfold try_single. destruct (get_single ops o) as [[]|]; exact I. Qed.

Lemma add_i32_settled cfg a b : overflow_checks cfg = false \/ - 2 ^ 31 <= a + b < 2 ^ 31 ->
  settled (add_i32 cfg a b).
Proof.
  intros C. unfold add_i32. destruct (in_i32 (a + b)) eqn:E; [exact I|].
  destruct C as [->|C]; [exact I|]. unfold in_i32 in E. lia.
Qed.

Section Quiet.
Context (cfg : config) (tape : list byte) (p : Z).
Context (Hp : 0 <= p < 2 ^ 63) (Ht : Z.of_nat (length tape) < 2 ^ 63).
Let checks := overflow_checks cfg.

Lemma jump_found offset s e r : jump cfg tape p offset = Ok s -> s = e ++ r ->
  found checks tape p offset e.
Proof.
  intros J E. apply jump_iff in J as (place & L & Er); [|lia].
  pose proof (located_nonneg _ _ _ _ L). rewrite rest_at_skipn in Er by assumption.
  exists place. split; auto. split; auto. exists r. congruence.
Qed.

Lemma private_settled top : bounded top -> quiet cfg \/ ~ hostile_private checks tape p top ->
  settled (read_private cfg tape p top).
Proof.
  intros B Q. unfold read_private. apply settled_bind; [apply need_double_settled|].
  intros [size offset] O. apply need_double_iff in O. destruct (bounded_double _ _ _ _ B O) as [B1 B2].
  assert (C1 : overflow_checks cfg = false \/ 0 <= offset).
  { destruct Q as [[Q _]|Q]; auto. right. destruct (Z_lt_dec offset 0); [|lia]. exfalso. apply Q.
    exists size, offset. auto. }
  assert (C2 : preallocates cfg = false \/ 0 <= size).
  { destruct Q as [[_ Q]|Q]; auto. right. destruct (Z_lt_dec size 0); [|lia]. exfalso. apply Q.
    exists size, offset. auto. }
  apply settled_bind; [apply jump_settled; auto; lia|]. intros s J.
  apply settled_bind.
  { destruct C2 as [C2|C2].
    - apply take_vec_quiet; auto using take_byte_total.
    - apply take_vec_total; [apply take_byte_total|]. unfold as_usize, as_u64, isize_max.
      rewrite Z.mod_small by lia. lia. }
  intros [chunk s'] T. destruct (read_chunk cfg tape p (proj1 Hp) Ht _ _ _ _ _ B1 J T) as (N & Es & L).
  apply settled_bind; [apply read_operations_settled|]. intros ops R. apply read_operations_iff in R.
  apply settled_bind; [apply try_single_settled|]. intros another An. apply try_single_iff in An.
  destruct another as [another|]; [|exact I].
  assert (C3 : overflow_checks cfg = false \/ 0 <= offset + another < 2 ^ 31).
  { destruct Q as [[Q _]|Q]; auto. right.
    destruct (Z_le_dec 0 (offset + another)); [destruct (Z_lt_dec (offset + another) (2 ^ 31)); [lia|]|];
    exfalso; apply Q; exists size, offset; (split; [exact O|]); right; right; exists chunk, ops, another;
    (split; [eapply jump_found; eauto|]); repeat split; auto; lia. }
  apply settled_bind; [apply add_i32_settled; destruct C3; auto; lia|]. intros sum S.
  apply add_i32_iff in S. pose proof (summed_range _ _ _ _ S) as Bs.
  apply settled_bind.
  { apply jump_settled; auto; [lia|]. destruct C3 as [C3|C3]; auto. right.
    apply summed_forward in S as ->; lia. }
  intros s2 _. apply settled_bind; [apply read_index_settled|]. intros [? ?] _. exact I.
Qed.

Lemma privates_settled tops : Forall bounded tops ->
  quiet cfg \/ Forall (fun top => ~ hostile_private checks tape p top) tops ->
  settled (read_privates cfg tape p tops).
Proof.
  induction 1 as [|top tops B Bs IH]; intros Q; cbn [read_privates]; [exact I|].
  apply settled_bind.
  { apply private_settled; auto. destruct Q as [Q|Q]; auto. inversion Q; auto. }
  intros r _. apply settled_bind.
  { apply IH. destruct Q as [Q|Q]; auto. inversion Q; auto. }
  intros rs _. exact I.
Qed.

Lemma dictionary_chunk chunks opss ops :
  Forall2 dictionary_data chunks opss -> In ops opss ->
  exists chunk, In chunk chunks /\ dictionary_data chunk ops.
Proof.
  intros D I. induction D as [|c o cs os R D IH]; [destruct I|]. destruct I as [->|I].
  - exists c. split; auto. left. reflexivity.
  - destruct (IH I) as (c' & I' & R'). exists c'. split; auto. right. auto.
Qed.

Lemma string_id_settled n : settled (string_id_of_number n).
Proof. destruct n as [v|]; [|exact I]. cbn. destruct (0 <=? v); exact I. Qed.

Lemma offset_settled top o offset : bounded top -> operand top o offset ->
  quiet cfg \/ ~ negative_offset top o -> settled (jump cfg tape p offset).
Proof.
  intros B O Q. pose proof (bounded_single _ _ _ B O). apply jump_settled; auto; [lia|].
  destruct Q as [[Q _]|Q]; auto. right. destruct (Z_lt_dec offset 0); [|lia]. exfalso. apply Q.
  exists offset. auto.
Qed.

Lemma cid_settled top cs : bounded top -> count cs < 2 ^ 62 ->
  quiet cfg \/ ~ hostile checks tape p top -> settled (read_cid cfg tape p top cs).
Proof.
  intros B G Q. unfold read_cid.
  destruct (operations_get top Op_ROS) as [[|n0 [|n1 [|n2 [|n3 ns]]]]|]; try exact I.
  apply settled_bind; [apply need_single_settled|]. intros select S. apply need_single_iff in S.
  apply settled_bind.
  { apply (offset_settled top Op_FDSelect); auto. destruct Q as [Q|Q]; auto. right. unfold hostile in Q. tauto. }
  intros s J. apply settled_bind; [apply read_select_total; auto|]. intros [enc s'] _.
  apply settled_bind; [apply need_single_settled|]. intros array A. apply need_single_iff in A.
  apply settled_bind.
  { apply (offset_settled top Op_FDArray); auto. destruct Q as [Q|Q]; auto. right. unfold hostile in Q. tauto. }
  intros s2 J2. apply settled_bind; [apply read_index_settled|]. intros [ds s3] R.
  apply read_index_sound in R as (ea & Ea & Xa).
  apply settled_bind; [apply dictionaries_settled|]. intros opss D. apply tables_iff in D.
  apply settled_bind.
  { apply privates_settled; [eapply dictionaries_bounded; eauto|]. destruct Q as [Q|Q]; auto. right.
    apply Forall_forall. intros ops Io Ho. destruct (dictionary_chunk _ _ _ D Io) as (chunk & Ic & Rc).
    apply Q. unfold hostile. do 7 right. exists array, ea, ds, chunk, ops.
    repeat split; auto. eapply jump_found; eauto. }
  intros records _. apply settled_bind; [apply string_id_settled|]. intros v0 _.
  apply settled_bind; [apply string_id_settled|]. intros v1 _. exact I.
Qed.

Lemma record_settled top cs : bounded top -> count cs < 2 ^ 62 ->
  quiet cfg \/ ~ hostile checks tape p top -> settled (read_record cfg tape p top cs).
Proof.
  intros B G Q. unfold read_record. destruct (map_contains top Op_ROS).
  - apply settled_bind; [apply cid_settled; auto|]. intros r _. exact I.
  - apply settled_bind; [apply private_settled; auto|].
    + destruct Q as [Q|Q]; auto. right. unfold hostile in Q. tauto.
    + intros r _. exact I.
Qed.

Lemma zero_set_settled s : quiet cfg -> settled (read_character_set cfg 0 s).
Proof.
  intros [Q1 Q2]. destruct s as [|b s]; [exact I|]. unfold read_character_set, peek_u8. cbn [take_u8 bind].
  destruct (bz b =? 0) eqn:E0.
  { unfold read_character_set0. cbn [take_u8 bind]. rewrite E0. cbn [negb]. unfold sub_usize. rewrite Q1.
    cbn [in_u64]. apply settled_bind; [destruct (in_u64 (0 - 1)); exact I|]. intros n _.
    apply settled_bind; [apply take_vec_quiet; auto using take_u16_total|]. intros [? ?] _. exact I. }
  destruct (bz b =? 1) eqn:E1.
  { unfold read_character_set1. cbn [take_u8 bind]. rewrite E1. exact I. }
  destruct (bz b =? 2) eqn:E2; [|exact I].
  unfold read_character_set2. cbn [take_u8 bind]. rewrite E2. exact I.
Qed.

Lemma font_settled i ops g : bounded ops -> length (character_strings g) = i ->
  quiet cfg \/ ~ hostile checks tape p ops -> settled (read_font cfg tape p i ops g).
Proof.
  intros B L Q. unfold read_font.
  assert (N : forall cs, nth_error (character_strings g ++ [cs]) i = Some cs).
  { intros cs. rewrite nth_error_app2 by lia. replace (i - _)%nat with 0%nat by lia. reflexivity. }
  apply settled_bind; [apply need_single_settled|]. intros strings S. apply need_single_iff in S.
  apply settled_bind.
  { apply (offset_settled ops Op_CharStrings); auto. destruct Q as [Q|Q]; auto. right. unfold hostile in Q. tauto. }
  intros s J. apply settled_bind; [apply need_single_settled|]. intros format _.
  apply settled_bind.
  { unfold read_character_strings. destruct (format =? 2); [apply read_index_settled|exact I]. }
  intros [cs s1] R. cbv zeta. rewrite (N cs).
  assert (X : exists e, found checks tape p strings e /\ index_encoding e cs).
  { unfold read_character_strings in R. destruct (format =? 2); [|discriminate].
    apply read_index_sound in R as (e & E & X). exists e. split; auto. eapply jump_found; eauto. }
  destruct X as (e & F & X). destruct (index_count _ _ X) as [_ G].
  apply settled_bind; [apply need_single_settled|]. intros set Cs. apply need_single_iff in Cs.
  apply settled_bind.
  { destruct (Z.eqb_spec set 0); [exact I|]. destruct (Z.eqb_spec set 1); [exact I|].
    destruct (Z.eqb_spec set 2); [exact I|].
    apply settled_bind.
    { apply (offset_settled ops Op_CharSet); auto. destruct Q as [Q|Q]; auto. right. unfold hostile in Q. tauto. }
    intros s2 _. apply settled_bind.
    { destruct (Z.eq_dec (count cs) 0) as [Z0|Z0].
      - destruct Q as [Q|Q]; [rewrite Z0; apply zero_set_settled, Q|]. exfalso.
        destruct (Z_lt_dec set 0) as [Ns|Ns].
        + apply Q. right. left. exists set. auto.
        + apply Q. unfold hostile. do 5 right. left. exists strings, e, cs, set. repeat split; auto. lia.
      - apply read_character_set_total. unfold sane_count. lia. }
    intros [? ?] _. exact I. }
  intros c _. apply settled_bind; [apply need_single_settled|]. intros code E. apply need_single_iff in E.
  apply settled_bind.
  { destruct (Z.eqb_spec code 0); [exact I|]. destruct (Z.eqb_spec code 1); [exact I|].
    apply settled_bind.
    { apply (offset_settled ops Op_Encoding); auto. destruct Q as [Q|Q]; auto. right. unfold hostile in Q. tauto. }
    intros s2 _. apply settled_bind; [apply read_encoding_total|]. intros [? ?] _. exact I. }
  intros enc _. apply settled_bind; [apply record_settled; auto; lia|]. intros r _. exact I.
Qed.

Lemma fonts_settled opss : Forall bounded opss ->
  quiet cfg \/ Forall (fun ops => ~ hostile checks tape p ops) opss ->
  forall i g, length (character_strings g) = i -> settled (read_fonts cfg tape p i opss g).
Proof.
  induction 1 as [|ops opss B Bs IH]; intros Q i g L; cbn [read_fonts]; [exact I|].
  apply settled_bind.
  { apply font_settled; auto. destruct Q as [Q|Q]; auto. inversion Q; auto. }
  intros g' R. apply IH.
  { destruct Q as [Q|Q]; auto. inversion Q; auto. }
  apply read_font_iff in R as (x & _ & _ & ->); auto; try lia.
  cbn [push character_strings]. rewrite app_length. cbn. lia.
Qed.

Lemma font_set_settled :
  quiet cfg \/ (forall top, top_dictionary checks tape p top -> ~ hostile checks tape p top) ->
  settled (read_font_set cfg tape p).
Proof.
  intros Q. unfold read_font_set. rewrite rest_at_skipn by lia. apply settled_bind.
  { destruct (skipn (Z.to_nat p) tape) as [|? [|? [|? [|? ?]]]]; exact I. }
  intros [h s0] Rh. apply read_header_sound in Rh as (eh & Eh & Xh). pose proof (header_size_range _ _ Xh) as Bh.
  apply settled_bind; [apply jump_settled; auto; lia|]. intros s J.
  apply settled_bind; [apply read_index_settled|]. intros [names s1] R1.
  apply read_index_sound in R1 as (e1 & E1 & X1).
  apply settled_bind; [apply read_index_settled|]. intros [ds s2] R2.
  apply read_index_sound in R2 as (e2 & E2 & X2).
  apply settled_bind; [apply dictionaries_settled|]. intros opss D. apply tables_iff in D.
  apply settled_bind; [apply read_index_settled|]. intros [strings s3] _.
  apply settled_bind; [apply read_index_settled|]. intros [subroutines s4] _.
  apply settled_bind; [|intros g _; exact I].
  apply fonts_settled; [eapply dictionaries_bounded; eauto| |reflexivity].
  destruct Q as [Q|Q]; auto. right. apply Forall_forall. intros ops Io.
  destruct (dictionary_chunk _ _ _ D Io) as (chunk & Ic & Rc). apply Q.
  exists eh, h, e1, names, e2, ds, chunk. split; auto. split. { split; [lia|eauto]. }
  split; auto. eapply jump_found; eauto. rewrite E1, E2, app_assoc. reflexivity.
Qed.

End Quiet.

Lemma panic_exists cfg : overflow_checks cfg = true \/ preallocates cfg = true ->
  exists tape k, read_font_set cfg tape 1 = Panic k.
Proof.
  intros [C|C].
  - (* CharStrings at -1 *)
    exists [x00; x01; x00; x04; x01; x00; x00; x00; x01; x01; x01; x03; x8a; x11; x00; x00; x00; x00].
    exists ArithmeticOverflow. destruct cfg as [o [] []]; cbn in C; subst o; vm_compute; reflexivity.
  - (* Private with size -1 *)
    exists [x00; x01; x00; x04; x01; x00; x00; x00; x01; x01; x01; x06; x9b; x11; x8a; x8b; x12;
            x00; x00; x00; x00].
    exists CapacityOverflow. destruct cfg as [[] [] o]; cbn in C; subst o; vm_compute; reflexivity.
Qed.

(** ** Statements in the form of the properties *)

Lemma found_forward checks tape p offset e : 0 <= p < 2 ^ 63 -> 0 <= offset < 2 ^ 31 ->
  found checks tape p offset e <-> exists rest, skipn (Z.to_nat (p + offset)) tape = e ++ rest.
Proof.
  intros Hp Ho. unfold found, stands. split.
  - intros (place & L & N & r & E). apply located_forward in L as ->; eauto.
  - intros (r & E). exists (p + offset). split; [apply located_forward; auto|]. split; [lia|eauto].
Qed.

Lemma private_forward checks tape p top r size offset : 0 <= p < 2 ^ 63 -> 0 <= offset < 2 ^ 31 ->
  operands top Op_Private size offset -> private_layout checks tape p top r ->
  let chunk := firstn (Z.to_nat size) (skipn (Z.to_nat (p + offset)) tape) in
  Z.of_nat (length chunk) = size /\ dictionary_data chunk (private_operations r) /\
  (no_operand (private_operations r) Op_Subrs -> private_subroutines r = index_value 0 []) /\
  (forall another, operand (private_operations r) Op_Subrs another -> 0 <= offset + another < 2 ^ 31 ->
     exists e rest, skipn (Z.to_nat (p + offset + another)) tape = e ++ rest /\
       index_encoding e (private_subroutines r)).
Proof.
  intros Hp Ho O (size' & offset' & chunk & O' & F & L & R & S).
  destruct (operands_unique _ _ _ _ _ _ O O') as [-> ->].
  apply found_forward in F as (rest & E); auto. rewrite E.
  assert (C : firstn (Z.to_nat size') (chunk ++ rest) = chunk).
  { rewrite <- L, Nat2Z.id, firstn_app, firstn_all, Nat.sub_diag. apply app_nil_r. }
  rewrite C. cbv zeta. split; auto. split; auto. split.
  - intros N. destruct S as [S|(another & sum & e & S & _)]; [apply S|]. apply operand_some in S. contradiction.
  - intros another A B. destruct S as [(S & _)|(another' & sum & e & S1 & S2 & S3 & S4)].
    { apply operand_some in A. contradiction. }
    pose proof (operand_unique _ _ _ _ A S1) as <-.
    apply summed_forward in S2 as ->; [|lia]. apply found_forward in S3 as (r3 & E3); auto.
    exists e, r3. split; auto. rewrite <- E3. f_equal. lia.
Qed.

Lemma name_keyed_private cfg tape p f i ops r : 0 <= p -> Z.of_nat (length tape) < 2 ^ 63 ->
  read_font_set cfg tape p = Ok f ->
  nth_error (fs_operations f) i = Some ops -> nth_error (fs_records f) i = Some (CharacterNameKeyed r) ->
  private_layout (overflow_checks cfg) tape p ops r.
Proof.
  intros Hp Ht H N1 N2. destruct (parallel _ _ _ _ Hp Ht H) as (_ & _ & _ & _ & P).
  destruct (P i ops N1) as (enc & set & cs & r' & _ & _ & _ & N3 & L). rewrite N2 in N3. injection N3 as <-.
  destruct L as (strings & st & code & e & _ & _ & _ & _ & _ & _ & _ & _ & R). cbn in R. tauto.
Qed.

Lemma name_keyed_forward cfg tape p f i ops r size offset :
  0 <= p < 2 ^ 63 -> Z.of_nat (length tape) < 2 ^ 63 -> read_font_set cfg tape p = Ok f ->
  nth_error (fs_operations f) i = Some ops -> nth_error (fs_records f) i = Some (CharacterNameKeyed r) ->
  operands ops Op_Private size offset -> 0 <= offset < 2 ^ 31 ->
  let chunk := firstn (Z.to_nat size) (skipn (Z.to_nat (p + offset)) tape) in
  Z.of_nat (length chunk) = size /\ dictionary_data chunk (private_operations r) /\
  (no_operand (private_operations r) Op_Subrs -> private_subroutines r = index_value 0 []) /\
  (forall another, operand (private_operations r) Op_Subrs another -> 0 <= offset + another < 2 ^ 31 ->
     exists e rest, skipn (Z.to_nat (p + offset + another)) tape = e ++ rest /\
       index_encoding e (private_subroutines r)).
Proof.
  intros Hp Ht H N1 N2 O B. apply (private_forward (overflow_checks cfg) tape p ops); auto.
  eapply name_keyed_private; eauto. lia.
Qed.

Lemma cid_forward cfg tape p f i ops c j o r size offset :
  0 <= p < 2 ^ 63 -> Z.of_nat (length tape) < 2 ^ 63 -> read_font_set cfg tape p = Ok f ->
  nth_error (fs_operations f) i = Some ops -> nth_error (fs_records f) i = Some (CharacterIDKeyed c) ->
  nth_error (cid_operations c) j = Some o -> nth_error (cid_records c) j = Some r ->
  operands o Op_Private size offset -> 0 <= offset < 2 ^ 31 ->
  let chunk := firstn (Z.to_nat size) (skipn (Z.to_nat (p + offset)) tape) in
  Z.of_nat (length chunk) = size /\ dictionary_data chunk (private_operations r) /\
  (no_operand (private_operations r) Op_Subrs -> private_subroutines r = index_value 0 []) /\
  (forall another, operand (private_operations r) Op_Subrs another -> 0 <= offset + another < 2 ^ 31 ->
     exists e rest, skipn (Z.to_nat (p + offset + another)) tape = e ++ rest /\
       index_encoding e (private_subroutines r)).
Proof.
  intros Hp Ht H N1 N2 N3 N4 O B. apply (private_forward (overflow_checks cfg) tape p o); auto.
  destruct (cid_parallel _ _ _ _ _ _ _ (proj1 Hp) Ht H N1 N2) as (_ & _ & P). eauto.
Qed.

Lemma select_iff cfg glyphs s x r : 0 <= glyphs < 2 ^ 62 ->
  read_dictionary_encoding cfg glyphs s = Ok (x, r) <-> exists e, s = e ++ r /\ select_encoding glyphs e x.
Proof.
  intros G. split.
  - apply (read_select_sound cfg []). lia.
  - intros (e & -> & E). apply (read_select_complete cfg []); auto.
Qed.

Lemma select_other cfg glyphs b t : bz b <> 0 -> bz b <> 3 ->
  read_dictionary_encoding cfg glyphs (b :: t) = Err Other.
Proof.
  intros N0 N3. unfold read_dictionary_encoding, peek_u8. cbn [take_u8 bind].
  destruct (Z.eqb_spec (bz b) 0); [lia|]. destruct (Z.eqb_spec (bz b) 3); [lia|]. reflexivity.
Qed.

Lemma select_settled cfg glyphs s : 0 <= glyphs < 2 ^ 62 -> settled (read_dictionary_encoding cfg glyphs s).
Proof. intros G. apply (read_select_total cfg []). lia. Qed.

Lemma append_reader {A} (rd : reader A) enc s x r t : sound rd enc -> complete rd enc ->
  rd s = Ok (x, r) -> rd (s ++ t) = Ok (x, r ++ t).
Proof. intros Hs Hc H. apply Hs in H as (e & -> & E). rewrite <- app_assoc. apply Hc, E. Qed.

Lemma append_tables cfg s t :
  (forall x r, read_index cfg s = Ok (x, r) -> read_index cfg (s ++ t) = Ok (x, r ++ t)) /\
  (forall x r, read_header s = Ok (x, r) -> read_header (s ++ t) = Ok (x, r ++ t)) /\
  (forall x r, read_number s = Ok (x, r) -> read_number (s ++ t) = Ok (x, r ++ t)) /\
  (forall x r, read_operation s = Ok (x, r) -> read_operation (s ++ t) = Ok (x, r ++ t)) /\
  (forall x r, read_encoding cfg s = Ok (x, r) -> read_encoding cfg (s ++ t) = Ok (x, r ++ t)) /\
  (forall n x r, 1 <= n < 2 ^ 62 -> read_character_set cfg n s = Ok (x, r) ->
     read_character_set cfg n (s ++ t) = Ok (x, r ++ t)) /\
  (forall n x r, 0 <= n < 2 ^ 62 -> read_dictionary_encoding cfg n s = Ok (x, r) ->
     read_dictionary_encoding cfg n (s ++ t) = Ok (x, r ++ t)).
Proof.
  repeat split; intros.
  - eapply append_reader; eauto using read_index_sound, read_index_complete.
  - eapply append_reader; eauto using read_header_sound, read_header_complete.
  - eapply append_reader; eauto using read_operand_sound, read_operand_complete.
  - eapply append_reader; eauto using read_operation_sound, read_operation_complete.
  - eapply append_reader; eauto using read_encoding_sound, read_encoding_complete.
  - eapply append_reader; eauto using read_character_set_sound, read_character_set_complete.
  - eapply append_reader; eauto; [apply (read_select_sound cfg [])|apply (read_select_complete cfg [])]; lia.
Qed.

(** A private dictionary of no bytes before the position. *)
Definition before_position : list byte :=
  [x01; x00; x04; x01; x00; x01; x01; x01; x02; x41; x00; x01; x01; x01; x06; xa1; x11; x8b; x8a; x12;
   x00; x00; x00; x00].

Lemma embedding_refuted cfg : overflow_checks cfg = true ->
  exists tape b f k, read_font_set cfg tape 0 = Ok f /\ read_font_set cfg (b :: tape) 1 = Panic k.
Proof.
  intros C. exists before_position, x00. eexists. exists ArithmeticOverflow.
  destruct cfg as [o [] []]; cbn in C; subst o; split; vm_compute; reflexivity.
Qed.

Lemma embedding_unchecked cfg pre tape p f : overflow_checks cfg = false ->
  0 <= p -> Z.of_nat (length pre) + p < 2 ^ 63 -> Z.of_nat (length (pre ++ tape)) < 2 ^ 63 ->
  read_font_set cfg tape p = Ok f ->
  read_font_set cfg (pre ++ tape) (Z.of_nat (length pre) + p) = Ok f.
Proof. intros C Hp Hs Ht. apply prepend_read; auto. congruence. Qed.

Lemma font_set_iff_closed cfg tape p f : 0 <= p -> Z.of_nat (length tape) < 2 ^ 63 ->
  read_font_set cfg tape p = Ok f <-> font_set_layout (overflow_checks cfg) tape p f.
Proof. intros. apply font_set_iff; auto. Qed.

Lemma kind_iff cfg tape p f i ops r : 0 <= p -> Z.of_nat (length tape) < 2 ^ 63 ->
  read_font_set cfg tape p = Ok f ->
  nth_error (fs_operations f) i = Some ops -> nth_error (fs_records f) i = Some r ->
  (exists c, r = CharacterIDKeyed c) <-> (exists v, entry ops Op_ROS v).
Proof.
  intros Hp Ht H N1 N2. pose proof (record_kind _ _ _ _ _ _ _ Hp Ht H N1 N2) as K. destruct r as [c|c].
  - destruct K as (a & b & K & _). split; eauto.
  - split; [intros (c' & E); discriminate|]. intros (v & E). apply entry_iff in E. apply absent_iff in K. congruence.
Qed.

Lemma kind_operands cfg tape p f i ops c : 0 <= p -> Z.of_nat (length tape) < 2 ^ 63 ->
  read_font_set cfg tape p = Ok f ->
  nth_error (fs_operations f) i = Some ops -> nth_error (fs_records f) i = Some (CharacterIDKeyed c) ->
  exists a b, entry ops Op_ROS [Integer a; Integer b; cid_supplement c] /\
    0 <= a /\ 0 <= b /\ registry c = a mod 2 ^ 16 /\ ordering c = b mod 2 ^ 16.
Proof. intros Hp Ht H N1 N2. exact (record_kind _ _ _ _ _ _ _ Hp Ht H N1 N2). Qed.

Lemma quiet_settled cfg tape p : overflow_checks cfg = false -> preallocates cfg = false ->
  0 <= p < 2 ^ 63 -> Z.of_nat (length tape) < 2 ^ 63 -> settled (read_font_set cfg tape p).
Proof. intros Q1 Q2 Hp Ht. apply font_set_settled; auto. left. split; auto. Qed.

Lemma guarded_settled cfg tape p : 0 <= p < 2 ^ 63 -> Z.of_nat (length tape) < 2 ^ 63 ->
  (forall top, top_dictionary (overflow_checks cfg) tape p top -> ~ hostile (overflow_checks cfg) tape p top) ->
  settled (read_font_set cfg tape p).
Proof. intros Hp Ht Q. apply font_set_settled; auto. Qed.

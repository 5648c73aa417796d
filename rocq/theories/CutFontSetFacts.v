(** CutFontSetFacts: when reading a font set comes to the end of the tape. *)
From Verif Require Import Base Float C1Number C1Operation C1Index C1Glyphs C1FontSet BaseFacts
  SpecNumber NumberFacts SpecOperation OperationFacts SpecIndex IndexFacts StringFacts SpecGlyphs GlyphFacts
  SpecFontSet FontSetFacts LayoutFacts SpecPanic PanicFacts SpecCut CutFacts CureFacts.
Local Open Scope Z_scope.

Section Cuts.
Context (cfg : config) (tape : list byte) (p : Z).
Context (Hp : 0 <= p < 2 ^ 63) (Ht : Z.of_nat (length tape) < 2 ^ 63).
Let checks := overflow_checks cfg.
Let allocates := preallocates cfg.

Lemma jump_sure offset : jump cfg tape p offset <> Err UnexpectedEof.
Proof. unfold jump, add_u64. destruct (in_u64 _); [discriminate|]. destruct (overflow_checks cfg); discriminate. Qed.

Lemma jump_eof {A} offset (rd : list byte -> outcome A) (cut : list byte -> Prop) :
  (forall s, Z.of_nat (length s) < 2 ^ 63 -> rd s = Err UnexpectedEof <-> cut s) ->
  bind (jump cfg tape p offset) rd = Err UnexpectedEof <-> ending checks tape p offset cut.
Proof.
  intros C. rewrite bind_eof_sure by apply jump_sure. unfold ending. split.
  - intros (s & J & H). apply jump_iff in J as (place & Lo & ->); [|lia]. exists place. split; auto.
    rewrite rest_at_skipn in H by (eapply located_nonneg; eauto). apply C in H; auto. rewrite skipn_length. lia.
  - intros (place & Lo & H). exists (rest_at tape place). split; [apply jump_iff; [lia|eauto]|].
    rewrite rest_at_skipn by (eapply located_nonneg; eauto). apply C; auto. rewrite skipn_length. lia.
Qed.

(** Reading elsewhere, and then something else. *)
Lemma jump_bind_eof {A B} offset (rd : reader A) enc cut (f : A -> outcome B) :
  sound rd enc -> complete rd enc ->
  (forall s, Z.of_nat (length s) < 2 ^ 63 -> rd s = Err UnexpectedEof <-> cut s) ->
  bind (jump cfg tape p offset) (fun s => bind (rd s) (fun xr => let '(x, _) := xr in f x)) = Err UnexpectedEof <->
  ending checks tape p offset cut \/
  exists e x, found checks tape p offset e /\ enc e x /\ f x = Err UnexpectedEof.
Proof.
  intros Hs Hc C. rewrite <- (jump_eof offset rd cut C). rewrite !bind_eof_sure by apply jump_sure. split.
  - intros (s & J & H). apply bind_eof in H as [H|([x r] & R & H)]; [left; eauto|]. right.
    assert (X : exists s r, jump cfg tape p offset = Ok s /\ rd s = Ok (x, r)) by eauto.
    apply (jump_read _ _ _ _ _ _ _ (proj1 Hp) Hs Hc) in X as (e & F & X). exists e, x. auto.
  - intros [(s & J & H)|(e & x & F & X & H)].
    + exists s. split; auto. apply bind_eof. auto.
    + assert (Y : exists s r, jump cfg tape p offset = Ok s /\ rd s = Ok (x, r))
        by (apply (jump_read _ _ _ _ _ _ _ (proj1 Hp) Hs Hc); eauto).
      destruct Y as (s & r & J & R). exists s. split; auto. rewrite R. exact H.
Qed.

Lemma index_here s : Z.of_nat (length s) < 2 ^ 63 -> read_index cfg s = Err UnexpectedEof <-> index_cut s.
Proof. intros _. apply index_cut_iff. Qed.

(** ** Private dictionaries *)

Lemma chunk_cut size s : - 2 ^ 31 <= size < 2 ^ 31 -> Z.of_nat (length s) < 2 ^ 63 ->
  take_vec cfg 1 take_byte (as_usize size) s = Err UnexpectedEof <->
  0 <= size /\ Z.of_nat (length s) < size \/ size < 0 /\ allocates = false.
Proof.
  intros B L. unfold allocates, as_usize, as_u64. destruct (Z_lt_dec size 0) as [N|N].
  - unfold take_vec.
    replace (size mod 2 ^ 64) with (size + 2 ^ 64)
      by (symmetry; rewrite <- (Z_mod_plus_full size 1), Z.mul_1_l; apply Z.mod_small; lia).
    destruct (Z.ltb_spec isize_max ((size + 2 ^ 64) * 1)); [|unfold isize_max in *; lia].
    destruct (preallocates cfg); cbn [andb].
    + split; [discriminate|]. intros [[? _]|[_ ?]]; [lia|discriminate].
    + split; [auto|]. intros _. rewrite take_n_byte. rewrite Z.min_r by lia.
      destruct (Nat.leb_spec (Z.to_nat (Z.of_nat (length s) + 1)) (length s)); [lia|reflexivity].
  - rewrite Z.mod_small by lia. rewrite take_vec_byte by (unfold isize_max; lia).
    destruct (Z.leb_spec size (Z.of_nat (length s))); split; try discriminate; lia || auto. 
Qed.

Lemma subroutines_eof offset another (ops : operations) :
  (let* sum := add_i32 cfg offset another in
   let* s' := jump cfg tape p sum in
   let* (subroutines, _) := read_index cfg s' in
   Ok {| private_operations := ops; private_subroutines := subroutines |}) = Err UnexpectedEof <->
  exists sum, summed checks offset another sum /\ ending checks tape p sum index_cut.
Proof.
  rewrite bind_eof_sure by apply add_i32_sure. split.
  - intros (sum & S & H). apply add_i32_iff in S. exists sum. split; auto.
    apply (jump_bind_eof _ _ index_encoding index_cut) in H as [H|(? & ? & _ & _ & H)]; [exact H|discriminate| | |];
      auto using read_index_sound, read_index_complete, index_here.
  - intros (sum & S & H). exists sum. split; [apply add_i32_iff, S|].
    apply (jump_bind_eof _ _ index_encoding index_cut); auto using read_index_sound, read_index_complete, index_here.
Qed.

Lemma read_private_eof top : bounded top ->
  read_private cfg tape p top = Err UnexpectedEof <-> private_cut checks allocates tape p top.
Proof.
  intros Bt. unfold read_private, private_cut. rewrite bind_eof_sure by apply need_double_sure. split.
  - intros ([size offset] & D & H). apply need_double_iff in D. exists size, offset. split; auto.
    destruct (bounded_double _ _ _ _ Bt D) as [B1 B2].
    apply bind_eof in H as [H|(s & J & H)]; [destruct (jump_sure _ H)|].
    apply bind_eof in H as [H|([chunk s'] & T & H)].
    { left. apply (jump_eof offset (take_vec cfg 1 take_byte (as_usize size))).
      - intros s0 L0. apply chunk_cut; auto.
      - rewrite J. exact H. }
    right. assert (X : found checks tape p offset chunk /\ Z.of_nat (length chunk) = size)
      by (apply (read_chunk_iff cfg tape p Hp Ht size offset s); eauto). destruct X as [F L].
    apply bind_eof_sure in H as (ops & R & H); [|apply operations_sure]. apply read_operations_iff in R.
    apply bind_eof_sure in H as (another & An & H); [|apply try_single_sure]. apply try_single_iff in An.
    destruct another as [another|]; [|discriminate].
    apply subroutines_eof in H as (sum & S & H). exists chunk, ops, another, sum. auto 10.
  - intros (size & offset & D & H). exists (size, offset). split; [apply need_double_iff, D|].
    destruct (bounded_double _ _ _ _ Bt D) as [B1 B2].
    destruct H as [H|(chunk & ops & another & sum & F & L & R & An & S & H)].
    + apply (jump_eof offset (take_vec cfg 1 take_byte (as_usize size))) in H; [|intros s0 L0; apply chunk_cut; auto].
      apply bind_eof in H as [H|(s & J & H)]; [destruct (jump_sure _ H)|]. rewrite J. cbn [bind]. rewrite H. reflexivity.
    + pose proof F as (place & Lo & _).
      assert (J : jump cfg tape p offset = Ok (rest_at tape place)) by (apply jump_iff; [lia|eauto]).
      rewrite J. cbn [bind].
      assert (X : exists r, take_vec cfg 1 take_byte (as_usize size) (rest_at tape place) = Ok (chunk, r))
        by (apply (read_chunk_iff cfg tape p Hp Ht size offset); auto).
      destruct X as [r X]. rewrite X. cbn [bind].
      assert (R' : read_operations chunk = Ok ops) by (apply read_operations_iff, R). rewrite R'. cbn [bind].
      assert (An' : try_single ops Op_Subrs = Ok (Some another)) by (apply try_single_iff, An). rewrite An'. cbn [bind].
      apply subroutines_eof. eauto.
Qed.

Lemma read_privates_eof tops : Forall bounded tops ->
  read_privates cfg tape p tops = Err UnexpectedEof <->
  exists before ops after rs, tops = before ++ ops :: after /\
    Forall2 (private_layout checks tape p) before rs /\ private_cut checks allocates tape p ops.
Proof.
  induction 1 as [|top tops B F IH]; cbn [read_privates].
  - split; [discriminate|]. intros ([|? ?] & ops & after & rs & E & _); discriminate.
  - rewrite bind_eof, read_private_eof by auto. split.
    + intros [H|(r & R & H)].
      * exists [], top, tops, []. auto.
      * apply read_private_iff in R; auto; try lia.
        apply bind_eof in H as [H|(rs & _ & H)]; [|discriminate].
        apply IH in H as (before & ops & after & rs & -> & P & H).
        exists (top :: before), ops, after, (r :: rs). auto.
    + intros (before & ops & after & rs & E & P & H). destruct before as [|x before].
      * injection E as <- <-. auto.
      * injection E as <- ->. inversion P as [|? r ? rs' P1 P2]; subst. right. exists r. split.
        { apply read_private_iff; auto. lia. }
        apply bind_eof. left. apply IH. exists before, ops, after, rs'. auto.
Qed.

(** ** Records *)

Lemma read_cid_eof top cs : bounded top -> 0 <= count cs < 2 ^ 62 ->
  read_cid cfg tape p top cs = Err UnexpectedEof <-> cid_cut checks allocates tape p top (count cs).
Proof.
  intros Bt G. unfold read_cid, cid_cut.
  assert (Sc : forall s, Z.of_nat (length s) < 2 ^ 63 ->
    read_dictionary_encoding cfg (count cs) s = Err UnexpectedEof <-> select_cut (count cs) s).
  { intros s _. apply select_cut_iff, G. }
  split.
  - intros H. destruct (operations_get top Op_ROS) as [[|n0 [|n1 [|n2 [|n3 ns]]]]|] eqn:O; try discriminate.
    apply operand_list_iff in O.
    apply bind_eof_sure in H as (select & S & H); [|apply need_single_sure]. apply need_single_iff in S.
    exists n0, n1, n2, select. split; auto. split; auto.
    apply (jump_bind_eof _ _ (select_encoding (count cs)) (select_cut (count cs))) in H;
      [|apply (read_select_sound cfg tape); lia|apply (read_select_complete cfg tape); lia|exact Sc].
    destruct H as [H|(e & x & F & X & H)]; auto. right.
    apply bind_eof_sure in H as (array & A & H); [|apply need_single_sure]. apply need_single_iff in A.
    exists e, x, array. split; auto. split; auto. split; auto.
    apply (jump_bind_eof _ _ index_encoding index_cut) in H;
      [|apply read_index_sound|apply read_index_complete|apply index_here].
    destruct H as [H|(ea & ds & Fa & Xa & H)]; auto. right.
    apply bind_eof_sure in H as (opss & D & H); [|apply dictionaries_sure]. apply tables_iff in D.
    apply bind_eof in H as [H|(rs & _ & H)].
    + apply read_privates_eof in H as (before & ops & after & rs & -> & P & H); [|eapply dictionaries_bounded; eauto].
      exists ea, ds, before, ops, after, rs. auto.
    + exfalso. apply bind_eof_sure in H as (v0 & _ & H); [|apply string_id_sure].
      apply bind_eof_sure in H as (v1 & _ & H); [discriminate|apply string_id_sure].
  - intros (n0 & n1 & n2 & select & O & S & H). apply operand_list_iff in O. rewrite O.
    apply bind_eof. right. exists select. split; [apply need_single_iff, S|].
    apply (jump_bind_eof _ _ (select_encoding (count cs)) (select_cut (count cs)));
      [apply (read_select_sound cfg tape); lia|apply (read_select_complete cfg tape); lia|exact Sc|].
    destruct H as [H|(e & x & array & F & X & A & H)]; auto. right. exists e, x. split; auto. split; auto.
    apply bind_eof. right. exists array. split; [apply need_single_iff, A|].
    apply (jump_bind_eof _ _ index_encoding index_cut);
      [apply read_index_sound|apply read_index_complete|apply index_here|].
    destruct H as [H|(ea & ds & before & ops & after & rs & Fa & Xa & D & P & H)]; auto. right. exists ea, ds. split; auto. split; auto.
    apply bind_eof. right. exists (before ++ ops :: after). split; [apply tables_iff, D|].
    apply bind_eof. left. apply read_privates_eof; [eapply dictionaries_bounded; eauto|].
    exists before, ops, after, rs. auto.
Qed.

Lemma read_record_eof top cs : bounded top -> 0 <= count cs < 2 ^ 62 ->
  read_record cfg tape p top cs = Err UnexpectedEof <-> record_cut checks allocates tape p top (count cs).
Proof.
  intros Bt G. pose proof (absent_iff top Op_ROS) as A. unfold read_record, record_cut, map_contains.
  destruct (map_get top Op_ROS) eqn:M.
  - rewrite bind_eof, read_cid_eof by auto. split.
    + intros [H|(x & _ & H)]; [|discriminate]. left. split; auto. rewrite <- A. discriminate.
    + intros [[_ H]|[H _]]; auto. rewrite <- A in H. discriminate.
  - rewrite bind_eof, read_private_eof by auto. split.
    + intros [H|(x & _ & H)]; [|discriminate]. right. split; auto. apply A. reflexivity.
    + intros [[H _]|[_ H]]; auto. destruct H. apply A. reflexivity.
Qed.

(** ** Fonts *)

Lemma drop_rest {A} (m : outcome (A * list byte)) :
  (let* (x, _) := m in Ok x) = Err UnexpectedEof <-> m = Err UnexpectedEof.
Proof. rewrite bind_eof. split; [intros [H|([? ?] & _ & H)]; [exact H|discriminate]|auto]. Qed.

Lemma character_set_eof offset n : 0 <= n < 2 ^ 62 ->
  (if offset =? 0 then Ok ISOAdobe
   else if offset =? 1 then Ok ExpertSet
   else if offset =? 2 then Ok ExpertSubset
   else
     let* s := jump cfg tape p offset in
     let* (set, _) := read_character_set cfg n s in Ok set) = Err UnexpectedEof <->
  ~ (0 <= offset <= 2) /\ ending checks tape p offset (character_set_cut checks allocates n).
Proof.
  intros G.
  destruct (Z.eqb_spec offset 0); [split; [discriminate|lia]|].
  destruct (Z.eqb_spec offset 1); [split; [discriminate|lia]|].
  destruct (Z.eqb_spec offset 2); [split; [discriminate|lia]|].
  rewrite (jump_eof offset _ (character_set_cut checks allocates n)).
  - split; [split; auto; lia|tauto].
  - intros s L. rewrite drop_rest. apply character_set_cut_iff; auto.
Qed.

Lemma encoding_eof offset :
  (if offset =? 0 then Ok Standard
   else if offset =? 1 then Ok ExpertEncoding
   else
     let* s := jump cfg tape p offset in
     let* (enc, _) := read_encoding cfg s in Ok enc) = Err UnexpectedEof <->
  ~ (0 <= offset <= 1) /\ ending checks tape p offset encoding_cut.
Proof.
  destruct (Z.eqb_spec offset 0); [split; [discriminate|lia]|].
  destruct (Z.eqb_spec offset 1); [split; [discriminate|lia]|].
  rewrite (jump_eof offset _ encoding_cut).
  - split; [split; auto; lia|tauto].
  - intros s L. rewrite drop_rest. apply encoding_cut_iff.
Qed.

Lemma read_font_eof i ops g : bounded ops -> length (character_strings g) = i ->
  read_font cfg tape p i ops g = Err UnexpectedEof <-> font_cut checks allocates tape p ops.
Proof.
  intros B L. unfold read_font, font_cut.
  assert (N : forall cs, nth_error (character_strings g ++ [cs]) i = Some cs).
  { intros cs. rewrite nth_error_app2 by lia. replace (i - _)%nat with 0%nat by lia. reflexivity. }
  split.
  - intros H. apply bind_eof_sure in H as (strings & S & H); [|apply need_single_sure]. apply need_single_iff in S.
    exists strings. split; auto.
    apply bind_eof_sure in H as (s & J & H); [|apply jump_sure].
    apply bind_eof_sure in H as (format & F & H); [|apply need_single_sure]. apply need_single_iff in F.
    unfold read_character_strings in H. destruct (Z.eqb_spec format 2) as [->|]; [|discriminate].
    split; auto. apply bind_eof in H as [H|([cs r] & R & H)].
    { left. apply (jump_eof strings (read_index cfg)); [apply index_here|]. rewrite J. exact H. }
    right. assert (X : exists s r, jump cfg tape p strings = Ok s /\ read_index cfg s = Ok (cs, r)) by eauto.
    apply (jump_read _ _ _ _ _ index_encoding) in X as (e & Fe & Xe);
      auto using read_index_sound, read_index_complete; [|lia].
    cbv zeta in H. rewrite (N cs) in H. destruct (index_count _ _ Xe) as [_ G].
    apply bind_eof_sure in H as (set & Cs & H); [|apply need_single_sure]. apply need_single_iff in Cs.
    exists e, cs, set. do 3 (split; [assumption|]).
    apply bind_eof in H as [H|(c & C & H)]; [apply character_set_eof in H; auto; lia|]. right.
    apply character_set_iff' in C; [|lia|auto|lia].
    apply bind_eof_sure in H as (code & E & H); [|apply need_single_sure]. apply need_single_iff in E.
    exists c, code. do 2 (split; [assumption|]).
    apply bind_eof in H as [H|(enc & En & H)]; [apply encoding_eof in H; auto|]. right.
    apply encoding_iff' in En; [|lia]. exists enc. split; auto.
    apply bind_eof in H as [H|(rc & _ & H)]; [|discriminate]. apply read_record_eof; auto. lia.
  - intros (strings & S & F & H). apply bind_eof. right. exists strings. split; [apply need_single_iff, S|].
    assert (F' : need_single ops Op_CharStringType = Ok 2) by (apply need_single_iff, F). rewrite F'. cbn [bind].
    unfold read_character_strings. cbn [Z.eqb Pos.eqb].
    destruct H as [H|(e & x & set & Fe & Xe & Cs & H)].
    { apply (jump_eof strings (read_index cfg)) in H; [|apply index_here].
      apply bind_eof_sure in H as (s & J & H); [|apply jump_sure]. rewrite J. cbn [bind]. rewrite H. reflexivity. }
    assert (X : exists s r, jump cfg tape p strings = Ok s /\ read_index cfg s = Ok (x, r)).
    { apply (jump_read _ _ _ _ _ index_encoding); eauto using read_index_sound, read_index_complete. lia. }
    destruct X as (s & r & J & R). rewrite J. cbn [bind].
    rewrite R. cbn [bind]. cbv zeta. rewrite (N x).
    destruct (index_count _ _ Xe) as [_ G].
    apply bind_eof. right. exists set. split; [apply need_single_iff, Cs|].
    apply bind_eof. destruct H as [H|(c & code & C & E & H)]; [left; apply character_set_eof; auto; lia|].
    right. exists c. split; [apply character_set_iff'; auto; lia|].
    apply bind_eof. right. exists code. split; [apply need_single_iff, E|].
    apply bind_eof. destruct H as [H|(y & Y & H)]; [left; apply encoding_eof; auto|].
    right. exists y. split; [apply encoding_iff'; auto; lia|].
    apply bind_eof. left. apply read_record_eof; auto. lia.
Qed.

Lemma read_fonts_eof opss : Forall bounded opss -> forall i g, length (character_strings g) = i ->
  read_fonts cfg tape p i opss g = Err UnexpectedEof <->
  exists xs top after, opss = map font_operations xs ++ top :: after /\
    Forall (font_layout checks tape p) xs /\ font_cut checks allocates tape p top.
Proof.
  induction 1 as [|ops opss B F IH]; intros i g L; cbn [read_fonts].
  - split; [discriminate|]. intros ([|x xs] & top & after & E & _); discriminate.
  - rewrite bind_eof, (read_font_eof i ops g B L). split.
    + intros [H|(g1 & R & H)]; [exists [], ops, opss; auto|].
      apply read_font_iff in R as (x & <- & X & ->); auto; [|lia].
      apply IH in H as (xs & top & after & -> & Xs & H); [|cbn [push character_strings]; rewrite app_length; cbn; lia].
      exists (x :: xs), top, after. auto.
    + intros (xs & top & after & E & Xs & H). destruct xs as [|x xs].
      * injection E as <- <-. auto.
      * injection E as -> ->. inversion Xs; subst. right. exists (push g x). split.
        { apply read_font_iff; auto; [lia|]. eauto. }
        apply IH; [cbn [push character_strings]; rewrite app_length; cbn; lia|]. exists xs, top, after. auto.
Qed.

(** ** Font sets *)

Lemma header_eof {B} (k : header -> outcome B) :
  (let* (h, _) := read_header (rest_at tape p) in k h) = Err UnexpectedEof <->
  header_cut (skipn (Z.to_nat p) tape) \/
  exists eh h, header_encoding eh h /\ stands tape p eh /\ k h = Err UnexpectedEof.
Proof.
  rewrite bind_eof, rest_at_skipn, header_cut_iff by lia. split.
  - intros [H|([h r] & R & H)]; auto. right. apply read_header_sound in R as (eh & E & X).
    exists eh, h. split; auto. split; auto. split; [lia|]. eauto.
  - intros [H|(eh & h & X & (_ & r & E) & H)]; auto. right. exists (h, r). split; auto.
    rewrite E. apply read_header_complete, X.
Qed.

(** The four indices, and the dictionaries of the second one. *)
Lemma front_eof s :
  (let* (names, s1) := read_index cfg s in
   let* (dictionaries, s2) := read_index cfg s1 in
   let* opss := dictionaries_try_into cfg dictionaries in
   let* (strings, s3) := read_index cfg s2 in
   read_index cfg s3) = Err UnexpectedEof <-> front_cut s.
Proof.
  split.
  - intros H. apply bind_eof in H as [H|([names s1] & R1 & H)]; [apply cut_names, (index_cut_iff cfg), H|].
    apply read_index_sound in R1 as (e1 & -> & X1).
    apply bind_eof in H as [H|([ds s2] & R2 & H)]; [apply index_cut_iff in H; eapply cut_dictionaries; eauto|].
    apply read_index_sound in R2 as (e2 & -> & X2).
    apply bind_eof_sure in H as (opss & D & H); [|apply dictionaries_sure]. apply tables_iff in D.
    apply bind_eof in H as [H|([strings s3] & R3 & H)]; [apply index_cut_iff in H; eapply cut_strings; eauto|].
    apply read_index_sound in R3 as (e3 & -> & X3). apply index_cut_iff in H. eapply cut_subroutines; eauto.
  - intros H. destruct H as [s H|e1 names s X1 H|e1 names e2 ds tops s X1 X2 D H|e1 names e2 ds tops e3 strings s X1 X2 D X3 H];
      rewrite ?(read_index_complete cfg _ _ _ X1); cbn [bind]; rewrite ?(read_index_complete cfg _ _ _ X2); cbn [bind];
      try (apply tables_iff with (cfg' := cfg) in D; rewrite D); cbn [bind];
      rewrite ?(read_index_complete cfg _ _ _ X3); cbn [bind]; apply index_cut_iff with (cfg := cfg) in H; rewrite H; reflexivity.
Qed.

Theorem font_set_cut_iff :
  read_font_set cfg tape p = Err UnexpectedEof <-> font_set_cut checks allocates tape p.
Proof.
  unfold read_font_set, font_set_cut. rewrite header_eof.
  assert (K : forall eh h, header_encoding eh h ->
    (let* s := jump cfg tape p (header_size h) in
     let* (names, s1) := read_index cfg s in
     let* (dictionaries, s2) := read_index cfg s1 in
     let* opss := dictionaries_try_into cfg dictionaries in
     let* (strings, s3) := read_index cfg s2 in
     let* (subroutines, _) := read_index cfg s3 in
     let* g := read_fonts cfg tape p 0 opss
                 {| encodings := []; character_sets := []; character_strings := []; records := [] |} in
     Ok {| fs_header := h; fs_names := names; fs_operations := opss; fs_strings := strings;
           fs_subroutines := subroutines; fs_encodings := encodings g;
           fs_character_strings := character_strings g; fs_character_sets := character_sets g;
           fs_records := records g |}) = Err UnexpectedEof <->
    ending checks tape p (header_size h) front_cut \/
    exists e1 e2 e3 e4 names dictionaries strings subroutines fonts top after,
      found checks tape p (header_size h) (e1 ++ e2 ++ e3 ++ e4) /\
      index_encoding e1 names /\ index_encoding e2 dictionaries /\
      index_encoding e3 strings /\ index_encoding e4 subroutines /\
      Forall2 dictionary_data (data dictionaries) (map font_operations fonts ++ top :: after) /\
      Forall (font_layout checks tape p) fonts /\ font_cut checks allocates tape p top).
  { intros eh h Xh. rewrite <- (jump_eof (header_size h) _ front_cut (fun s _ => front_eof s)).
    rewrite !bind_eof_sure by apply jump_sure. split.
    - intros (s & J & H).
      apply bind_eof in H as [H|([names s1] & R1 & H)]; [left; exists s; split; auto; rewrite H; reflexivity|].
      apply bind_eof in H as [H|([ds s2] & R2 & H)].
      { left. exists s. split; auto. rewrite R1. cbn [bind]. rewrite H. reflexivity. }
      apply bind_eof_sure in H as (opss & D & H); [|apply dictionaries_sure].
      apply bind_eof in H as [H|([strings s3] & R3 & H)].
      { left. exists s. split; auto. rewrite R1. cbn [bind]. rewrite R2. cbn [bind]. rewrite D. cbn [bind]. rewrite H. reflexivity. }
      apply bind_eof in H as [H|([subroutines s4] & R4 & H)].
      { left. exists s. split; auto. rewrite R1. cbn [bind]. rewrite R2. cbn [bind]. rewrite D. cbn [bind]. rewrite R3. exact H. }
      right. apply tables_iff in D.
      apply read_index_sound in R1 as (e1 & -> & X1). apply read_index_sound in R2 as (e2 & -> & X2).
      apply read_index_sound in R3 as (e3 & -> & X3). apply read_index_sound in R4 as (e4 & -> & X4).
      apply bind_eof in H as [H|(g & _ & H)]; [|discriminate].
      apply read_fonts_eof in H as (xs & top & after & -> & Xs & H); [|eapply dictionaries_bounded; eauto|reflexivity].
      exists e1, e2, e3, e4, names, ds, strings, subroutines, xs, top, after.
      split. { apply (jump_found cfg tape p Hp _ _ _ s4 J). rewrite <- !app_assoc. reflexivity. }
      auto 10.
    - intros [(s & J & H)|H].
      + exists s. split; auto.
        apply bind_eof in H as [H|([names s1] & R1 & H)]; [rewrite H; reflexivity|]. rewrite R1. cbn [bind].
        apply bind_eof in H as [H|([ds s2] & R2 & H)]; [rewrite H; reflexivity|]. rewrite R2. cbn [bind].
        apply bind_eof_sure in H as (opss & D & H); [|apply dictionaries_sure]. rewrite D. cbn [bind].
        apply bind_eof in H as [H|([strings s3] & R3 & H)]; [rewrite H; reflexivity|]. rewrite R3. cbn [bind].
        rewrite H. reflexivity.
      + destruct H as (e1 & e2 & e3 & e4 & names & ds & strings & subroutines & xs & top & after
          & (place & Lo & N & r & E) & X1 & X2 & X3 & X4 & D & Xs & H).
        exists ((e1 ++ e2 ++ e3 ++ e4) ++ r).
        split. { apply jump_iff; [lia|]. exists place. split; auto. rewrite rest_at_skipn by assumption. auto. }
        rewrite <- !app_assoc.
        rewrite (read_index_complete cfg _ _ _ X1). cbn [bind].
        rewrite (read_index_complete cfg _ _ _ X2). cbn [bind].
        apply bind_eof. right. eexists. split; [apply tables_iff, D|].
        rewrite (read_index_complete cfg _ _ _ X3). cbn [bind].
        rewrite (read_index_complete cfg _ _ _ X4). cbn [bind].
        apply bind_eof. left. apply read_fonts_eof; [eapply dictionaries_bounded; eauto|reflexivity|].
        exists xs, top, after. auto. }
  split.
  - intros [H|(eh & h & X & Sh & H)]; [left; exact H|]. right. exists eh, h. split; auto. split; auto. apply (K eh h X), H.
  - intros [H|(eh & h & X & Sh & H)]; [left; exact H|]. right. exists eh, h. split; auto. split; auto. apply (K eh h X), H.
Qed.

Theorem count_cut_iff : font_set_count cfg tape p = Err UnexpectedEof <-> count_cut checks tape p.
Proof.
  unfold font_set_count, count_cut. rewrite header_eof.
  assert (K : forall h, (let* s := jump cfg tape p (header_size h) in let* (n, _) := take_u16 s in Ok n) = Err UnexpectedEof <->
    ending checks tape p (header_size h) (fun s => (length s < 2)%nat)).
  { intros h. apply jump_eof. intros s _. rewrite drop_rest. apply (fixed_iff _ _ fixed_u16). }
  split; intros [H|(eh & h & X & Sh & H)]; auto; right; exists eh, h; split; auto; split; auto; apply K, H.
Qed.

End Cuts.

(** ** Everything else is malformed *)

Lemma font_set_other cfg tape p : 0 <= p < 2 ^ 63 -> Z.of_nat (length tape) < 2 ^ 63 ->
  read_font_set cfg tape p = Err Other <->
  ~ (exists f, font_set_layout (overflow_checks cfg) tape p f) /\
  ~ (exists k, font_set_panic (overflow_checks cfg) (preallocates cfg) tape p k) /\
  ~ font_set_cut (overflow_checks cfg) (preallocates cfg) tape p.
Proof.
  intros Hp Ht. pose proof (font_set_error_iff cfg tape p Hp Ht) as E. rewrite <- font_set_cut_iff by auto. split.
  - intros H. apply and_assoc. rewrite <- E. split; [eauto|congruence].
  - intros H. apply and_assoc in H as [H N]. apply E in H as ([|] & H); [destruct N; exact H|exact H].
Qed.

(** With the conditions for the four outcomes, there is only one way to read font sets. *)
Lemma font_set_determined cfg (read : list byte -> Z -> outcome font_set) :
  (forall tape p, 0 <= p < 2 ^ 63 -> Z.of_nat (length tape) < 2 ^ 63 ->
    (forall f, font_set_layout (overflow_checks cfg) tape p f -> read tape p = Ok f) /\
    (forall k, font_set_panic (overflow_checks cfg) (preallocates cfg) tape p k -> read tape p = Panic k) /\
    (font_set_cut (overflow_checks cfg) (preallocates cfg) tape p -> read tape p = Err UnexpectedEof) /\
    (~ (exists f, font_set_layout (overflow_checks cfg) tape p f) ->
     ~ (exists k, font_set_panic (overflow_checks cfg) (preallocates cfg) tape p k) ->
     ~ font_set_cut (overflow_checks cfg) (preallocates cfg) tape p -> read tape p = Err Other)) <->
  (forall tape p, 0 <= p < 2 ^ 63 -> Z.of_nat (length tape) < 2 ^ 63 -> read tape p = read_font_set cfg tape p).
Proof.
  split; intros H tape p Hp Ht; specialize (H tape p Hp Ht).
  - destruct H as (H1 & H2 & H3 & H4). destruct (read_font_set cfg tape p) as [f|[|]|k|] eqn:E.
    + apply H1. apply font_set_iff; auto. lia.
    + apply H3. apply font_set_cut_iff; auto.
    + apply font_set_other in E as (N1 & N2 & N3); auto.
    + apply H2. apply font_set_panic_iff; auto.
    + destruct (read_font_set_ends cfg tape p Hp Ht E).
  - rewrite H. repeat split.
    + intros f F. apply font_set_iff; auto. lia.
    + intros k K. apply font_set_panic_iff; auto.
    + apply font_set_cut_iff; auto.
    + intros N1 N2 N3. apply font_set_other; auto.
Qed.

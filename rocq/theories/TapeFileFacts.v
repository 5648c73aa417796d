(** TapeFileFacts: where the tape stands after files that were written by SpecFile. *)
From Verif Require Import Base Float C1Number C1Operation C1Index C1Glyphs C1FontSet C1Tape BaseFacts
  SpecNumber NumberFacts SpecOperation OperationFacts SpecIndex IndexFacts StringFacts SpecGlyphs GlyphFacts
  SpecFontSet FontSetFacts LayoutFacts SpecFile FileFacts SpecTape TapeFacts.

Section tape.
  Context (checks : bool) (tape : list byte) (p : Z) (Hp : 0 <= p < 2 ^ 63).

  Lemma placed_behind offset e : placed tape p offset e ->
    behind checks tape p offset e (p + offset + Z.of_nat (length e)).
  Proof.
    intros (A & B & R). exists (p + offset). split; [apply located_forward; lia|]. split; [|reflexivity].
    split; [lia|exact R].
  Qed.

  Lemma private_block_behind (s : private_source) start base before after : private_valid s ->
    placed tape p start (private_block s) -> (forall w, ~ In (Op_Private, w) after) ->
    private_behind checks tape p
      (table (base ++ integer_operations (before ++ private_reference s start ++ after))) (private_value s)
      (p + start + Z.of_nat (length (private_block s))).
  Proof.
    intros (D & A & S) H N. exists (Z.of_nat (length (private_bytes s))), start.
    pose proof (placed_left _ _ _ _ _ H) as H1. pose proof (placed_right tape p Hp _ _ _ H) as H2.
    split; [exact (tail_operands base before Op_Private _ _ [] after N)|].
    unfold private_value, private_block in *. cbn [private_operations private_subroutines].
    destruct (local_subroutines s) as [|c l] eqn:E; [left|right].
    - split.
      + unfold private_entries. rewrite E. intros v [I|(_ & literals & X & _)]; [|discriminate].
        apply table_entry in I as (b1 & b2 & I & _). exfalso. rewrite app_nil_r in I. apply (A v).
        rewrite I. apply in_or_app. right. left. reflexivity.
      + exists (private_bytes s). split; [reflexivity|]. rewrite app_nil_r. apply placed_behind, H1.
    - rewrite <- E in *.
      exists (Z.of_nat (length (private_bytes s))), (start + Z.of_nat (length (private_bytes s))),
        (four_byte_index (local_subroutines s)).
      pose proof (placed_index checks tape p Hp _ _ S H2) as [_ X]. split; [|split; [|split; auto]].
      + replace (Z.of_nat (length (private_bytes s))) with (Z.of_nat (length (written (private_dictionary s))) + 6).
        * unfold private_entries. rewrite E. refine (tail_operand _ [] Op_Subrs _ [] [] _). intros w [].
        * unfold private_bytes, private_entries. rewrite E, app_length. cbn. lia.
      + apply summed_forward; auto. destruct H2 as (? & ? & _), H1 as (? & ? & _). lia.
      + rewrite app_length, Nat2Z.inj_add, !Z.add_assoc. rewrite <- (Z.add_assoc p). apply placed_behind, H2.
  Qed.

  Lemma last_font fs start : Forall (fun f => dictionary_valid (fst f) /\ private_valid (snd f)) fs ->
    placed tape p start (concat (private_blocks fs)) -> fs <> [] ->
    exists others o last,
      combine (font_dictionary_values fs start) (map (fun f => private_value (snd f)) fs) = others ++ [(o, last)] /\
      private_behind checks tape p o last (p + start + Z.of_nat (length (concat (private_blocks fs)))).
  Proof.
    intros V. revert start. induction V as [|f fs (V1 & V2) _ IH]; intros start H N; [congruence|].
    cbn [private_blocks map concat] in *. pose proof (placed_left _ _ _ _ _ H) as H1.
    destruct fs as [|g fs].
    - exists [], (table (meant (fst f) ++ integer_operations (private_reference (snd f) start))),
        (private_value (snd f)).
      split; [reflexivity|]. cbn [map concat]. rewrite app_nil_r.
      exact (private_block_behind (snd f) start (meant (fst f)) [] [] V2 H1 (fun w F => F)).
    - destruct (IH _ (placed_right tape p Hp _ _ _ H) ltac:(discriminate)) as (others & o & last & E & B).
      exists ((table (meant (fst f) ++ integer_operations (private_reference (snd f) start)),
          private_value (snd f)) :: others), o, last.
      split.
      + cbn [app]. rewrite <- E. reflexivity.
      + rewrite app_length, Nat2Z.inj_add, !Z.add_assoc. rewrite <- (Z.add_assoc p). exact B.
  Qed.

  Lemma keyed_behind glyphs k start base before : keyed_valid glyphs k ->
    placed tape p start (keyed_block k start) ->
    record_behind checks tape p
      (table (meant (keyed_head k) ++ base ++ integer_operations (before ++ keyed_tail k start)))
      (keyed_value k start) (p + start + Z.of_nat (length (keyed_block k start))).
  Proof.
    intros V H. destruct k as [s|r o c select selected fs]; cbn [keyed_head keyed_tail keyed_value record_behind].
    - cbn [meant app keyed_block] in *. rewrite <- (app_nil_r (before ++ _)), <- app_assoc.
      apply private_block_behind; auto.
    - destruct V as (R & O & C & S & L & F). cbn [keyed_block cid_operations cid_records] in *.
      pose proof (placed_right tape p Hp _ _ _ H) as H2.
      pose proof (placed_left _ _ _ _ _ H2) as H3. pose proof (placed_right tape p Hp _ _ _ H2) as H4.
      rewrite !app_length, !Nat2Z.inj_add, array_lengths in *. rewrite !Z.add_assoc.
      destruct fs as [|f fs].
      + right. split; [reflexivity|]. exists (start + Z.of_nat (length select)). split.
        * cbn [meant]. rewrite (app_assoc _ base).
          change [(Op_FDSelect, [start]); (Op_FDArray, [start + Z.of_nat (length select)])] with
            ([(Op_FDSelect, [start])] ++ [(Op_FDArray, [start + Z.of_nat (length select)])]).
          rewrite (app_assoc before). refine (tail_operand _ _ Op_FDArray _ [] [] _). intros w [].
        * cbn [private_blocks map concat length]. change (array_length []) with 2. rewrite Z.add_0_r.
          rewrite <- (Z.add_assoc p). apply (placed_behind _ [x00; x00]). exact H3.
      + left. rewrite <- !(Z.add_assoc p). rewrite (Z.add_assoc p). apply last_font; auto. discriminate.
  Qed.

  Lemma font_behind x start : font_valid x -> placed tape p start (font_block x start) ->
    record_behind checks tape p (font_operations (font_value x start)) (font_record (font_value x start))
      (p + start + Z.of_nat (length (font_block x start))).
  Proof.
    intros (_ & _ & _ & _ & _ & _ & V) H. unfold font_block in H.
    do 3 apply (placed_right tape p Hp) in H.
    change (start + Z.of_nat (length (four_byte_index (glyph_programs x)))) with (names_start x start) in H.
    change (names_start x start + Z.of_nat (length (table_block (glyph_names x)))) with (codes_start x start) in H.
    change (codes_start x start + Z.of_nat (length (table_block (glyph_codes x)))) with (keyed_start x start) in H.
    replace (p + start + Z.of_nat (length (font_block x start))) with
      (p + keyed_start x start + Z.of_nat (length (keyed_block (keyed x) (keyed_start x start)))).
    - cbn [font_operations font_record font_value]. eapply keyed_behind; eauto.
    - unfold font_block, keyed_start, codes_start, names_start. rewrite !app_length. lia.
  Qed.
End tape.

Lemma last_start xs start : xs <> [] -> exists others x s,
  combine xs (font_starts xs start) = others ++ [(x, s)] /\
  s + Z.of_nat (length (font_block x s)) =
  start + Z.of_nat (length (concat (map (fun xs => font_block (fst xs) (snd xs)) (combine xs (font_starts xs start))))).
Proof.
  revert start. induction xs as [|x xs IH]; intros start N; [congruence|].
  destruct xs as [|y xs].
  - exists [], x, start. split; [reflexivity|]. cbn. rewrite app_nil_r. reflexivity.
  - destruct (IH (start + Z.of_nat (length (font_block x 0))) ltac:(discriminate)) as (others & z & s & E & B).
    exists ((x, start) :: others), z, s. split.
    + change (combine (x :: y :: xs) (font_starts (x :: y :: xs) start)) with
        ((x, start) :: combine (y :: xs) (font_starts (y :: xs) (start + Z.of_nat (length (font_block x 0))))).
      rewrite E. reflexivity.
    + rewrite B. change (combine (x :: y :: xs) (font_starts (x :: y :: xs) start)) with
        ((x, start) :: combine (y :: xs) (font_starts (y :: xs) (start + Z.of_nat (length (font_block x 0))))).
      cbn [map concat fst snd]. rewrite app_length, (font_block_length x start 0). lia.
Qed.

Lemma combine_maps {A B C} (g : A -> B) (h : A -> C) l :
  combine (map g l) (map h l) = map (fun x => (g x, h x)) l.
Proof. induction l; cbn; congruence. Qed.

Section file.
  Context (checks : bool) (pre post : list byte) (f : file_source) (V : file_valid f)
    (Hp : Z.of_nat (length pre) < 2 ^ 63).
  Let tape := pre ++ file_bytes f ++ post.
  Let p := Z.of_nat (length pre).

  Lemma file_behind : font_set_behind checks tape p (file_value f) (p + Z.of_nat (length (file_bytes f))).
  Proof.
    pose proof (position pre Hp) as P. fold p in P. unfold font_set_behind.
    cbn [file_value fs_operations fs_records]. rewrite combine_maps.
    pose proof (blocks_placed pre post f V Hp) as B. fold tape p in B.
    pose proof (front_placed pre post f V) as F. fold tape p in F.
    assert (LF : Z.of_nat (length (file_bytes f)) = front_length f +
      Z.of_nat (length (concat (map (fun xs => font_block (fst xs) (snd xs)) (paired f (front_length f)))))).
    { unfold file_bytes. rewrite app_length, Nat2Z.inj_add, front_lengths. reflexivity. }
    assert (D : fonts f = [] \/ fonts f <> []) by (destruct (fonts f); [left|right]; congruence).
    destruct D as [E|E].
    - right. unfold file_fonts. rewrite E. split; [reflexivity|].
      destruct V as (S0 & S1 & S3 & S4 & _ & L).
      unfold front in F. apply (placed_right tape p P) in F.
      change (0 + Z.of_nat (length file_header)) with 4 in F.
      pose proof F as (_ & Lt & _). rewrite !app_length in Lt.
      exists (four_byte_index (font_names f)),
        (four_byte_index (map (fun xs => top_bytes (fst xs) (snd xs)) (paired f (front_length f)))),
        (four_byte_index (strings f)), (four_byte_index (global_subroutines f)),
        (index_value 4 (map (fun xs => top_bytes (fst xs) (snd xs)) (paired f (front_length f)))).
      cbn [fs_names fs_strings fs_subroutines fs_header header_size].
      split; [apply four_byte_encoding; [auto|lia]|].
      split. { unfold paired. rewrite E. apply four_byte_encoding; [reflexivity|cbn; lia]. }
      split; [apply four_byte_encoding; [auto|lia]|].
      split; [apply four_byte_encoding; [auto|lia]|].
      replace (p + Z.of_nat (length (file_bytes f))) with
        (p + 4 + Z.of_nat (length (four_byte_index (font_names f) ++
           four_byte_index (map (fun xs => top_bytes (fst xs) (snd xs)) (paired f (front_length f))) ++
           four_byte_index (strings f) ++ four_byte_index (global_subroutines f)))).
      + apply placed_behind; auto.
      + assert (N : concat (map (fun xs => font_block (fst xs) (snd xs)) (paired f (front_length f))) = [])
          by (unfold paired; rewrite E; reflexivity).
        rewrite N in LF. pose proof (front_lengths f (front_length f)) as FL. unfold front in FL.
        fold (paired f (front_length f)) in FL. rewrite (app_length file_header) in FL.
        change (length file_header) with 4%nat in FL. cbn [length] in LF. lia.
    - left. destruct (last_start (fonts f) (front_length f)) as (others & y & s & C & Ls); [exact E|].
      unfold file_fonts. rewrite C, !map_app. cbn [map fst snd].
      eexists _, _, _. split; [reflexivity|].
      rewrite LF. unfold paired. rewrite <- Ls. rewrite Z.add_assoc.
      unfold paired in B. rewrite C in B. apply Forall_app in B as [_ B]. inversion B as [|? ? B1 _]. subst.
      apply font_behind; auto. destruct V as (_ & _ & _ & _ & FV & _). rewrite Forall_forall in FV. apply FV.
      apply (in_combine_l _ (font_starts (fonts f) (front_length f)) y s). rewrite C. apply in_or_app. right. left. reflexivity.
  Qed.
End file.

Lemma file_taken cfg pre post f : file_valid f ->
  Z.of_nat (length (pre ++ file_bytes f ++ post)) < 2 ^ 63 ->
  font_set_taken cfg (pre ++ file_bytes f ++ post) (Z.of_nat (length pre)) =
  Ok (file_value f, Z.of_nat (length (pre ++ file_bytes f))).
Proof.
  intros V L. rewrite app_length, Nat2Z.inj_add. apply font_set_taken_iff; auto; [lia|].
  rewrite app_length in L. split; [apply file_layout|apply file_behind]; auto; lia.
Qed.

Lemma files_taken cfg pre post fs : Forall file_valid fs ->
  Z.of_nat (length (pre ++ concat (map file_bytes fs) ++ post)) < 2 ^ 63 ->
  in_a_row (font_set_taken cfg (pre ++ concat (map file_bytes fs) ++ post)) (Z.of_nat (length pre))
    (map file_value fs) (Z.of_nat (length (pre ++ concat (map file_bytes fs)))).
Proof.
  intros V. revert pre. induction V as [|f fs V Vs IH]; intros pre L.
  - cbn [map concat]. rewrite app_nil_r. constructor.
  - cbn [map concat] in *. rewrite <- app_assoc in *. econstructor; [apply file_taken; auto|].
    specialize (IH (pre ++ file_bytes f)). rewrite <- !app_assoc in IH. rewrite app_assoc in *.
    apply IH. exact L.
Qed.

(** ** Counting *)

Lemma pair_sound : sound take_u16 (fun e n => exists b1 b0, e = [b1; b0] /\ n = bz b1 * 2 ^ 8 + bz b0).
Proof.
  intros s v r H. apply take_u16_ok in H as (b1 & b0 & -> & ->). exists [b1; b0]. split; eauto.
Qed.
Lemma pair_complete : complete take_u16 (fun e n => exists b1 b0, e = [b1; b0] /\ n = bz b1 * 2 ^ 8 + bz b0).
Proof. intros e v r (b1 & b0 & -> & ->). reflexivity. Qed.

Lemma count_taken_iff cfg tape p n place : 0 <= p ->
  count_taken cfg tape p = Ok (n, place) <->
  exists eh h b1 b0, header_encoding eh h /\ stands tape p eh /\
    behind (overflow_checks cfg) tape p (header_size h) [b1; b0] place /\ n = bz b1 * 256 + bz b0.
Proof.
  intros Hp. unfold count_taken. rewrite bind_iff. split.
  - intros ([h here] & T & H). apply (taken_iff _ _ _ _ _ _ Hp read_header_sound read_header_complete) in T
      as (eh & S & X & _).
    apply bind_iff in H as (there & J & T).
    destruct (proj1 (jumped_taken cfg tape p (header_size h) _ _ _ _ Hp pair_sound pair_complete)
      (ex_intro _ there (conj J T))) as (e & B & b1 & b0 & -> & ->).
    exists eh, h, b1, b0. auto.
  - intros (eh & h & b1 & b0 & X & S & B & ->). exists (h, p + Z.of_nat (length eh)). split.
    { apply (taken_iff _ _ _ _ _ _ Hp read_header_sound read_header_complete). eauto. }
    apply bind_iff. apply (jumped_taken cfg tape p (header_size h) _ _ _ _ Hp pair_sound pair_complete).
    exists [b1; b0]. eauto.
Qed.

Lemma index_start c cs : Z.of_nat (length (c :: cs)) < 2 ^ 16 ->
  exists b1 b0 tail, four_byte_index (c :: cs) = [b1; b0; x04; x00; x00; x00; x01] ++ tail /\
    bz b1 * 256 + bz b0 = Z.of_nat (length (c :: cs)).
Proof.
  intros L. unfold four_byte_index. cbn [index_bytes offsets_of flat_map]. set (n := Z.of_nat (length (c :: cs))) in *.
  assert (E : exists b1 b0, be_bytes 2 n = [b1; b0] /\ bz b1 * 256 + bz b0 = n).
  { destruct (be_bytes 2 n) as [|b1 [|b0 [|b l]]] eqn:E; try discriminate. exists b1, b0. split; auto.
    assert (H : take_u16 (be_bytes 2 n ++ []) = Ok (n, [])) by (apply take_u16_complete; split; [unfold n; lia|reflexivity]).
    rewrite E in H. apply take_u16_ok in H as (c1 & c0 & H & ->). injection H as -> ->. reflexivity. }
  destruct E as (b1 & b0 & E & H). rewrite E. exists b1, b0.
  eexists. split; [|exact H]. cbn [app]. reflexivity.
Qed.

Lemma file_start f : file_valid f -> font_names f <> [] ->
  exists b1 b0 tail, file_bytes f = [x01; x00; x04; x04; b1; b0; x04; x00; x00; x00; x01] ++ tail /\
    bz b1 * 256 + bz b0 = Z.of_nat (length (font_names f)).
Proof.
  intros (S & _) N. unfold file_bytes, front. unfold short in S.
  destruct (font_names f) as [|x xs] eqn:F; [congruence|].
  destruct (index_start x xs) as (b1 & b0 & tail & -> & E); [exact S|].
  exists b1, b0. eexists. split.
  - unfold file_header. cbn [app]. reflexivity.
  - exact E.
Qed.

Lemma rest_at_app (a b c : list byte) : rest_at (a ++ b ++ c) (Z.of_nat (length (a ++ b))) = c.
Proof. rewrite rest_at_skipn by lia. rewrite Nat2Z.id, app_assoc, skipn_app, skipn_all, Nat.sub_diag. reflexivity. Qed.

Lemma count_then_read cfg pre post f : file_valid f -> font_names f <> [] ->
  Z.of_nat (length (pre ++ file_bytes f ++ post)) < 2 ^ 63 ->
  count_taken cfg (pre ++ file_bytes f ++ post) (Z.of_nat (length pre)) =
    Ok (Z.of_nat (length (font_names f)), Z.of_nat (length pre) + 6) /\
  font_set_taken cfg (pre ++ file_bytes f ++ post) (Z.of_nat (length pre) + 6) = Err Other.
Proof.
  intros V N L. destruct (file_start f V N) as (b1 & b0 & tail & E & C). rewrite app_length in L.
  assert (H : Z.of_nat (length pre) + 6 < 2 ^ 63).
  { rewrite E in L. rewrite <- app_assoc, app_length in L. cbn [length] in L. lia. }
  rewrite E in *. split.
  - apply count_taken_iff; [lia|].
    exists [x01; x00; x04; x04], {| major := 1; minor := 0; header_size := 4; header_offset_size := 4 |}, b1, b0.
    split; [exists x01, x00, x04, x04; split; reflexivity|].
    split. { split; [lia|]. eexists. rewrite Nat2Z.id, skipn_app, skipn_all, Nat.sub_diag. reflexivity. }
    split; [|symmetry; exact C]. exists (Z.of_nat (length pre) + 4).
    split; [apply located_forward; cbn [header_size]; lia|]. split.
    + split; [lia|]. eexists. replace (Z.to_nat (Z.of_nat (length pre) + 4)) with (length pre + 4)%nat by lia.
      rewrite skipn_app, skipn_all2, Nat.add_comm, Nat.add_sub by lia. reflexivity.
    + cbn [length]. lia.
  - set (tape := pre ++ _). assert (R : rest_at tape (Z.of_nat (length pre) + 6) = [x04; x00; x00; x00; x01] ++ tail ++ post).
    { rewrite rest_at_skipn by lia. unfold tape.
      replace (Z.to_nat (Z.of_nat (length pre) + 6)) with (length pre + 6)%nat by lia.
      rewrite skipn_app, skipn_all2, Nat.add_comm, Nat.add_sub by lia. cbn [app skipn]. reflexivity. }
    assert (J : jumped cfg (Z.of_nat (length pre) + 6) 0 = Ok (Z.of_nat (length pre) + 6)).
    { apply jumped_iff; [lia|]. apply located_forward; lia. }
    assert (T : taken (read_index cfg) tape (Z.of_nat (length pre) + 6) = Err Other).
    { unfold taken. rewrite R. reflexivity. }
    unfold font_set_taken, taken at 1. rewrite R. cbn [app read_header take_u8 bind].
    match goal with |- context [jumped cfg _ ?x] => change x with 0 end. rewrite J. cbn [bind]. rewrite T. reflexivity.
Qed.

(** ** Agreement *)

Lemma forget_cases {A} (m : outcome (A * Z)) (m' : outcome A) : forget m = m' ->
  (forall a, m' = Ok a <-> exists place, m = Ok (a, place)) /\
  (forall e, m' = Err e <-> m = Err e) /\ (forall w, m' = Panic w <-> m = Panic w).
Proof.
  intros <-. destruct m as [[a place]|e|w|]; cbn; repeat split; intros; try congruence; try discriminate;
    try (destruct H; congruence); eauto.
  injection H as ->. eauto.
Qed.

Lemma positions_agree cfg tape p : 0 <= p ->
  (forall f, read_font_set cfg tape p = Ok f <-> exists place, font_set_taken cfg tape p = Ok (f, place)) /\
  (forall n, font_set_count cfg tape p = Ok n <-> exists place, count_taken cfg tape p = Ok (n, place)) /\
  (forall e, read_font_set cfg tape p = Err e <-> font_set_taken cfg tape p = Err e) /\
  (forall e, font_set_count cfg tape p = Err e <-> count_taken cfg tape p = Err e) /\
  (forall w, read_font_set cfg tape p = Panic w <-> font_set_taken cfg tape p = Panic w) /\
  (forall w, font_set_count cfg tape p = Panic w <-> count_taken cfg tape p = Panic w).
Proof.
  intros Hp. pose proof (forget_cases _ _ (font_set_agrees cfg tape p Hp)).
  pose proof (forget_cases _ _ (count_agrees cfg tape p)). tauto.
Qed.

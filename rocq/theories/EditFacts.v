(** EditFacts: reading a font set whose elements have been overwritten in place. *)
From Verif Require Import Base Float C1Number C1Operation C1Index C1Glyphs C1FontSet BaseFacts
  SpecIndex IndexFacts SpecFontSet FontSetFacts LayoutFacts SpecFile FileFacts SpecTape TapeFacts SpecParts PartsFacts SpecEdit FontSetSamples.
Local Open Scope list_scope.
Local Open Scope Z_scope.

(** ** Bytes on two tapes *)

Lemma skipn_nth (l : list byte) : forall n i, nth_error (skipn n l) i = nth_error l (n + i).
Proof. induction l as [|b l IH]; intros [|n] i; cbn; auto. destruct i; reflexivity. Qed.

Lemma prefix_nth (e l : list byte) : (exists rest, l = e ++ rest) <->
  forall i b, nth_error e i = Some b -> nth_error l i = Some b.
Proof.
  split.
  - intros (rest & ->) i b H. rewrite nth_error_app1; auto. apply nth_error_Some. congruence.
  - revert l. induction e as [|b e IH]; intros l H; [exists l; reflexivity|].
    destruct l as [|c l]; [discriminate (H O b eq_refl)|].
    pose proof (H O b eq_refl) as E. injection E as ->.
    destruct (IH l (fun i => H (S i))) as (rest & ->). exists rest. reflexivity.
Qed.

Lemma stands_nth tape place e : stands tape place e <->
  0 <= place /\ forall i b, nth_error e i = Some b -> nth_error tape (Z.to_nat place + i) = Some b.
Proof.
  unfold stands. rewrite prefix_nth. split; intros (N & H); (split; [assumption|]); intros i b E;
    specialize (H i b E); rewrite ?skipn_nth in *; assumption.
Qed.

Lemma stands_app_iff tape place e e' : stands tape place (e ++ e') <->
  stands tape place e /\ stands tape (place + Z.of_nat (length e)) e'.
Proof.
  split.
  - intros (N & r & E). split; (split; [lia|]).
    + exists (e' ++ r). rewrite E, app_assoc. reflexivity.
    + exists r. replace (Z.to_nat (place + Z.of_nat (length e))) with (length e + Z.to_nat place)%nat by lia.
      rewrite skipn_add, E, <- app_assoc, skipn_app, skipn_all, Nat.sub_diag. reflexivity.
  - intros [H H']. exact (stands_app tape place e e' H H').
Qed.

Lemma same_bytes tape tape' place e : stands tape place e ->
  (forall q, place <= q < place + Z.of_nat (length e) -> same_byte tape tape' q) -> stands tape' place e.
Proof.
  rewrite !stands_nth. intros (N & H) A. split; [assumption|]. intros i b E.
  assert (L : (i < length e)%nat) by (apply nth_error_Some; congruence).
  specialize (A (place + Z.of_nat i) ltac:(lia) b).
  assert (Q : stands tape (place + Z.of_nat i) [b]).
  { apply stands_nth. split; [lia|]. intros [|[|]] b' Eb; try discriminate. injection Eb as <-.
    rewrite Nat.add_0_r. replace (Z.to_nat (place + Z.of_nat i)) with (Z.to_nat place + i)%nat by lia. auto. }
  apply A in Q. apply stands_nth in Q as (_ & Q). specialize (Q O b eq_refl). rewrite Nat.add_0_r in Q.
  replace (Z.to_nat (place + Z.of_nat i)) with (Z.to_nat place + i)%nat in Q by lia. exact Q.
Qed.

(** What stands on the other tape instead. *)
Lemma stands_instead tape tape' place e : length tape' = length tape -> stands tape place e ->
  exists e', length e' = length e /\ stands tape' place e'.
Proof.
  intros L (N & r & E). exists (firstn (length e) (skipn (Z.to_nat place) tape')). split.
  - apply firstn_length_le. rewrite skipn_length, L, <- skipn_length, E, app_length. lia.
  - split; [assumption|]. exists (skipn (length e) (skipn (Z.to_nat place) tape')). symmetry. apply firstn_skipn.
Qed.

Lemma stands_equal tape place e e' : stands tape place e -> stands tape place e' -> length e = length e' -> e = e'.
Proof.
  intros (_ & r & E) (_ & r' & E') L. rewrite E in E'. clear E tape. revert e' L E'.
  induction e as [|b e IH]; intros [|b' e'] L E'; try discriminate; auto.
  injection E' as -> E'. f_equal. apply IH; auto.
Qed.

(** ** Elements *)

Fixpoint cut_like (chunks : list (list byte)) (d : list byte) : list (list byte) :=
  match chunks with
  | [] => []
  | c :: rest => firstn (length c) d :: cut_like rest (skipn (length c) d)
  end.

Lemma cut_like_concat chunks : forall d, length d = length (concat chunks) -> concat (cut_like chunks d) = d.
Proof.
  induction chunks as [|c chunks IH]; intros d L; cbn [cut_like concat] in *.
  - destruct d; [reflexivity|discriminate].
  - rewrite app_length in L. rewrite IH; [apply firstn_skipn|]. rewrite skipn_length. lia.
Qed.

Lemma cut_like_length chunks d : length (cut_like chunks d) = length chunks.
Proof. revert d. induction chunks as [|c chunks IH]; intros d; cbn; auto. Qed.

Lemma cut_like_offsets chunks : forall d first, length d = length (concat chunks) ->
  offsets_of first (cut_like chunks d) = offsets_of first chunks.
Proof.
  induction chunks as [|c chunks IH]; intros d first L; cbn [cut_like concat offsets_of] in *; auto.
  rewrite app_length in L. rewrite firstn_length_le by lia. f_equal. apply IH. rewrite skipn_length. lia.
Qed.

Lemma cut_like_elements tape tape' chunks : forall d place first,
  length d = length (concat chunks) -> stands tape place (concat chunks) -> stands tape' place d ->
  forall j c, nth_error chunks j = Some c ->
  exists c', nth_error (cut_like chunks d) j = Some c' /\ length c' = length c /\
    stands tape (place + (nth j (offsets_of first chunks) 0 - first)) c /\
    stands tape' (place + (nth j (offsets_of first chunks) 0 - first)) c'.
Proof.
  induction chunks as [|c0 chunks IH]; intros d place first L St St' j c E; [destruct j; discriminate|].
  cbn [cut_like concat offsets_of] in *. rewrite app_length in L.
  apply stands_app_iff in St as [Sc Sr].
  rewrite <- (firstn_skipn (length c0) d) in St'. apply stands_app_iff in St' as [Sc' Sr'].
  rewrite firstn_length_le in Sr' by lia.
  destruct j as [|j]; cbn [nth_error nth] in *.
  - injection E as <-. exists (firstn (length c0) d). rewrite Z.sub_diag, Z.add_0_r, firstn_length_le by lia. auto.
  - destruct (IH (skipn (length c0) d) (place + Z.of_nat (length c0)) (first + Z.of_nat (length c0))
                ltac:(rewrite skipn_length; lia) Sr Sr' j c E) as (c' & N & Lc & S1 & S2).
    exists c'. split; [exact N|]. split; [exact Lc|].
    replace (place + (nth j (offsets_of (first + Z.of_nat (length c0)) chunks) 0 - first))
      with (place + Z.of_nat (length c0) + (nth j (offsets_of (first + Z.of_nat (length c0)) chunks) 0 - (first + Z.of_nat (length c0)))) by lia.
    auto.
Qed.

Lemma index_edit tape tape' start e x : length tape' = length tape -> index_encoding e x -> stands tape start e ->
  (forall q, start <= q < start + front_length x -> same_byte tape tape' q) ->
  exists e' y, index_encoding e' y /\ stands tape' start e' /\ length e' = length e /\ overwritten tape tape' start x y.
Proof.
  intros L (size & chunks & (C & F) & -> & ->) St A. destruct chunks as [|c chunks].
  { exists [x00; x00], (index_value size []). split; [exists size, []; repeat split; auto|].
    split; [eapply same_bytes; eauto|]. split; [reflexivity|].
    repeat split. intros [|j] c E; discriminate. }
  destruct F as [F|[B F]]; [discriminate|]. set (all := c :: chunks) in *.
  change (index_value size all) with
    {| count := Z.of_nat (length all); offset_size := size; offsets := offsets_of 1 all; data := all |} in *.
  set (front := be_bytes 2 (Z.of_nat (length all)) ++ [zb size] ++ flat_map (be_bytes (Z.to_nat size)) (offsets_of 1 all)).
  assert (Ef : forall chunks', length chunks' = length all -> offsets_of 1 chunks' = offsets_of 1 all ->
                 index_bytes size chunks' = front ++ concat chunks').
  { intros chunks' Hl Ho. destruct chunks'; [discriminate|]. unfold front. rewrite <- Hl, <- Ho.
    cbn [index_bytes]. rewrite <- !app_assoc. reflexivity. }
  assert (Lf : Z.of_nat (length front) = 3 + size * (Z.of_nat (length all) + 1)).
  { unfold front. rewrite !app_length, be_bytes_length.
    assert (G : forall vs, length (flat_map (be_bytes (Z.to_nat size)) vs) = (length vs * Z.to_nat size)%nat).
    { induction vs as [|v vs IH]; simpl; auto. rewrite app_length, be_bytes_length. lia. }
    rewrite G, offsets_of_length. simpl (length [_]). nia. }
  assert (Lx : front_length {| count := Z.of_nat (length all); offset_size := size; offsets := offsets_of 1 all; data := all |}
               = Z.of_nat (length front)).
  { rewrite Lf. reflexivity. }
  rewrite (Ef all eq_refl eq_refl) in St. apply stands_app_iff in St as [Sf Sd].
  destruct (stands_instead tape tape' _ _ L Sd) as (d & Ld & Sd').
  pose proof (cut_like_length all d) as Hl. pose proof (cut_like_offsets all d 1 Ld) as Ho.
  set (all' := cut_like all d) in *.
  assert (Ey : index_value size all' = {| count := Z.of_nat (length all); offset_size := size;
                 offsets := offsets_of 1 all; data := all' |}).
  { rewrite <- Hl, <- Ho. destruct all'; [discriminate|reflexivity]. }
  exists (index_bytes size all'), (index_value size all').
  split; [|split; [|split]].
  - exists size, all'. split; [|auto]. split; [rewrite Hl; exact C|]. right. split; auto.
    unfold all'. rewrite cut_like_concat, Ld by assumption. exact F.
  - rewrite (Ef all' Hl Ho). apply stands_app_iff. split.
    + eapply same_bytes; [exact Sf|]. intros q Hq. apply A. rewrite Lx. exact Hq.
    + unfold all'. rewrite cut_like_concat by assumption. exact Sd'.
  - rewrite (Ef all' Hl Ho), (Ef all eq_refl eq_refl), !app_length. unfold all'. rewrite cut_like_concat by assumption. lia.
  - rewrite Ey. unfold overwritten, element_place. cbn [count offset_size offsets data].
    repeat (split; [reflexivity|]). split; [exact Hl|]. intros j ch E.
    rewrite Lx. apply (cut_like_elements tape tape' all d (start + Z.of_nat (length front)) 1); auto.
Qed.

(** ** The parts of a font set *)

Section Edit.
  Context (checks : bool) (tape tape' : list byte) (p : Z) (Hl : length tape' = length tape).

  Lemma inside_edit offset e : found checks tape p offset e ->
    (forall q, inside checks tape p offset e q -> same_byte tape tape' q) -> found checks tape' p offset e.
  Proof.
    intros (start & L & St) A. exists start. split; [assumption|]. eapply same_bytes; [exact St|].
    intros q Hq. apply A. exists start. auto.
  Qed.

  Lemma index_edit_found offset e x : found checks tape p offset e -> index_encoding e x ->
    (forall q, in_front checks p offset x q -> same_byte tape tape' q) ->
    exists start e' y, located checks p offset start /\ index_encoding e' y /\ found checks tape' p offset e' /\
      overwritten tape tape' start x y.
  Proof.
    intros (start & L & St) X A.
    destruct (index_edit tape tape' start e x Hl X St) as (e' & y & Y & St' & _ & O).
    { intros q Hq. apply A. exists start. auto. }
    exists start, e', y. repeat (split; [assumption|]). split; [exists start; auto|assumption].
  Qed.

  Lemma private_edit top r : private_layout checks tape p top r ->
    (forall q, private_frame checks p top r q -> same_byte tape tape' q) ->
    exists s, private_layout checks tape' p top s /\ private_overwritten checks tape tape' p top r s.
  Proof.
    intros (size & offset & chunk & D & Fc & Lc & Dd & Su) A.
    assert (Fc' : found checks tape' p offset chunk).
    { apply inside_edit; [assumption|]. intros q (start & L & _ & Hq). apply A. exists size, offset. split; [assumption|].
      left. exists start. rewrite <- Lc. auto. }
    destruct Su as [[No E]|(another & sum & e & O & Sm & Fe & X)].
    - exists r. split; [exists size, offset, chunk; auto 10|]. split; auto.
    - destruct (index_edit_found sum e _ Fe X) as (start & e' & y & L & Y & F' & Ow).
      { intros q Hq. apply A. exists size, offset. split; [assumption|]. right. exists another, sum. auto. }
      exists {| private_operations := private_operations r; private_subroutines := y |}. split.
      + exists size, offset, chunk. cbn [private_operations private_subroutines].
        repeat (split; [assumption|]). right. exists another, sum, e'. auto.
      + split; [reflexivity|]. right. exists size, offset, another, sum, start. auto.
  Qed.

  Lemma privates_edit tops rs : Forall2 (private_layout checks tape p) tops rs ->
    (forall q ops inner, In (ops, inner) (combine tops rs) -> private_frame checks p ops inner q -> same_byte tape tape' q) ->
    exists ss, Forall2 (private_layout checks tape' p) tops ss /\ length ss = length rs /\
      forall i ops x, nth_error tops i = Some ops -> nth_error rs i = Some x ->
        exists y, nth_error ss i = Some y /\ private_overwritten checks tape tape' p ops x y.
  Proof.
    induction 1 as [|top r tops rs P Ps IH]; intros A.
    - exists []. repeat split; auto. intros [|i]; discriminate.
    - destruct (private_edit top r P) as (s & Ps' & O). { intros q. apply A. left. reflexivity. }
      destruct IH as (ss & Q & L & N). { intros q ops inner I. apply A. right. exact I. }
      exists (s :: ss). split; [constructor; assumption|]. split; [cbn; lia|].
      intros [|i] ops x E1 E2; cbn [nth_error] in *; [|eauto].
      injection E1 as <-. injection E2 as <-. eauto.
  Qed.

  Lemma record_edit top glyphs r : record_layout checks tape p top glyphs r ->
    (forall q, record_frame checks tape p top glyphs r q -> same_byte tape tape' q) ->
    exists s, record_layout checks tape' p top glyphs s /\ record_overwritten checks tape tape' p top r s.
  Proof.
    destruct r as [r|r]; cbn [record_layout record_frame]; intros (Ro & Ly) A.
    - destruct Ly as (a & b & select & array & e & dictionaries & ea & R & Na & Ea & Nb & Eb & Os & Fs & X & Oa & Fa & Xa & Dd & Ps).
      destruct (privates_edit _ _ Ps) as (ss & Ps' & L & N).
      { intros q ops inner I H. apply A. right. right. eauto. }
      exists (CharacterIDKeyed {| registry := registry r; ordering := ordering r; cid_supplement := cid_supplement r;
                cid_encoding := cid_encoding r; cid_operations := cid_operations r; cid_records := ss |}).
      split.
      + split; [assumption|]. exists a, b, select, array, e, dictionaries, ea.
        cbn [registry ordering cid_supplement cid_encoding cid_operations cid_records].
        repeat (split; [assumption|]). split.
        { apply inside_edit; [assumption|]. intros q I. apply A. left. exists select, e. auto. }
        repeat (split; [assumption|]). split.
        { apply inside_edit; [assumption|]. intros q I. apply A. right. left. exists array, ea, dictionaries. auto. }
        auto.
      + cbn. auto 10.
    - destruct (private_edit top r Ly A) as (s & Ly' & O). exists (CharacterNameKeyed s). cbn. auto.
  Qed.

  Definition font_overwritten (x y : font) : Prop :=
    font_operations y = font_operations x /\ font_encoding y = font_encoding x /\
    font_character_set y = font_character_set x /\
    (exists strings start, operand (font_operations x) Op_CharStrings strings /\ located checks p strings start /\
       overwritten tape tape' start (font_character_strings x) (font_character_strings y)) /\
    record_overwritten checks tape tape' p (font_operations x) (font_record x) (font_record y).

  Lemma font_edit x : font_layout checks tape p x ->
    (forall q, font_frame checks tape p x q -> same_byte tape tape' q) ->
    exists y, font_layout checks tape' p y /\ font_overwritten x y.
  Proof.
    intros (strings & set & code & e & Os & Ot & Fe & X & Oc & Sl & Oe & El & Rl) A.
    destruct (index_edit_found strings e _ Fe X) as (start & e' & cs & L & Y & F' & Ow).
    { intros q H. apply A. left. eauto. }
    destruct (record_edit _ _ _ Rl) as (s & Rl' & Ro). { intros q H. apply A. do 3 right. exact H. }
    assert (Ec : count cs = count (font_character_strings x)) by apply Ow.
    exists {| font_operations := font_operations x; font_encoding := font_encoding x;
              font_character_set := font_character_set x; font_character_strings := cs; font_record := s |}.
    split.
    - exists strings, set, code, e'.
      cbn [font_operations font_encoding font_character_set font_character_strings font_record]. rewrite Ec.
      repeat (split; [assumption|]). split.
      { destruct Sl as [?|[?|[?|(N & ec & Fc & C)]]]; [left; assumption|right; left; assumption|do 2 right; left; assumption|].
        do 3 right. split; [assumption|]. exists ec. split; [|assumption]. apply inside_edit; [assumption|].
        intros q I. apply A. right. left. exists set, ec. auto. }
      repeat (split; [assumption|]). split; [|assumption].
      destruct El as [?|[?|(N & ec & Fc & C)]]; [left; assumption|right; left; assumption|].
      do 2 right. split; [assumption|]. exists ec. split; [|assumption]. apply inside_edit; [assumption|].
      intros q I. apply A. do 2 right. left. exists code, ec. auto.
    - repeat (split; [reflexivity|]). split; [|assumption]. exists strings, start. auto.
  Qed.

  Lemma fonts_edit xs : Forall (font_layout checks tape p) xs ->
    (forall q x, In x xs -> font_frame checks tape p x q -> same_byte tape tape' q) ->
    exists ys, Forall (font_layout checks tape' p) ys /\ Forall2 font_overwritten xs ys.
  Proof.
    induction 1 as [|x xs L _ IH]; intros A; [exists []; auto|].
    destruct (font_edit x L) as (y & Ly & O). { intros q. apply A. left. reflexivity. }
    destruct IH as (ys & Ls & Os). { intros q z I. apply A. right. exact I. }
    exists (y :: ys). auto.
  Qed.

  Lemma overwritten_map {B} (g : font -> B) xs ys : (forall x y, font_overwritten x y -> g y = g x) ->
    Forall2 font_overwritten xs ys -> map g ys = map g xs.
  Proof. intros H. induction 1; cbn; auto. f_equal; auto. Qed.

  Lemma font_set_edit f : font_set_layout checks tape p f ->
    (forall q, font_set_frame checks tape p f q -> same_byte tape tape' q) ->
    exists g, font_set_layout checks tape' p g /\ font_set_overwritten checks tape tape' p f g.
  Proof.
    intros (eh & e1 & e2 & e3 & e4 & dictionaries & fonts & H & Sh & Fi & X1 & X2 & X3 & X4 & Dd & E1 & E2 & E3 & E4 & E5 & Fs) A.
    destruct Fi as (i1 & L & St). set (i2 := i1 + Z.of_nat (length e1)). set (i3 := i2 + Z.of_nat (length e2)).
    set (i4 := i3 + Z.of_nat (length e3)).
    assert (Q : four_indices checks tape p f i1 i2 i3 i4).
    { exists e1, e2, e3, e4, dictionaries. auto 10. }
    apply stands_app_iff in St as [S1 St]. apply stands_app_iff in St as [S2 St]. apply stands_app_iff in St as [S3 S4].
    fold i2 in S2, S3, S4. fold i3 in S3, S4. fold i4 in S4.
    destruct (index_edit tape tape' i1 e1 _ Hl X1 S1) as (e1' & y1 & Y1 & S1' & L1 & O1).
    { intros q Hq. apply A. right. left. exists i1, i2, i3, i4. auto. }
    assert (S2' : stands tape' i2 e2).
    { eapply same_bytes; [exact S2|]. intros q Hq. apply A. right. left. exists i1, i2, i3, i4. split; [assumption|]. unfold i3. auto. }
    destruct (index_edit tape tape' i3 e3 _ Hl X3 S3) as (e3' & y3 & Y3 & S3' & L3 & O3).
    { intros q Hq. apply A. right. left. exists i1, i2, i3, i4. auto. }
    destruct (index_edit tape tape' i4 e4 _ Hl X4 S4) as (e4' & y4 & Y4 & S4' & L4 & O4).
    { intros q Hq. apply A. right. left. exists i1, i2, i3, i4. auto. }
    destruct (fonts_edit fonts Fs) as (fonts' & Fs' & Os).
    { intros q x I Hx. apply A. do 2 right. apply In_nth_error in I as (i & I).
      exists i, (font_operations x), (font_encoding x), (font_character_set x), (font_character_strings x), (font_record x).
      rewrite E1, E2, E3, E4, E5. repeat (split; [apply map_nth_error; exact I|]). destruct x. exact Hx. }
    assert (M : forall i x, nth_error fonts i = Some x -> exists y, nth_error fonts' i = Some y /\ font_overwritten x y).
    { clear - Os. induction Os as [|x y xs ys O Os IH]; intros [|i] z E; try discriminate; cbn in *; [|eauto].
      injection E as <-. eauto. }
    assert (N : length fonts' = length fonts) by (clear - Os; induction Os; cbn; lia).
    exists {| fs_header := fs_header f; fs_names := y1; fs_operations := fs_operations f; fs_strings := y3;
              fs_subroutines := y4; fs_encodings := fs_encodings f; fs_character_strings := map font_character_strings fonts';
              fs_character_sets := fs_character_sets f; fs_records := map font_record fonts' |}.
    split.
    - exists eh, e1', e2, e3', e4', dictionaries, fonts'.
      cbn [fs_header fs_names fs_operations fs_strings fs_subroutines fs_encodings fs_character_strings fs_character_sets fs_records].
      split; [assumption|]. split.
      { eapply same_bytes; [exact Sh|]. destruct H as (b1 & b2 & b3 & b4 & -> & _). intros q Hq. apply A. left. cbn in Hq. lia. }
      split.
      { exists i1. split; [assumption|]. rewrite !stands_app_iff. rewrite L1, L3. auto. }
      repeat (split; [assumption|]). rewrite E1, E2, E3.
      split; [symmetry; apply (overwritten_map font_operations); [|assumption]; intros x y O; apply O|].
      split; [symmetry; apply (overwritten_map font_encoding); [|assumption]; intros x y O; apply O|].
      split; [symmetry; apply (overwritten_map font_character_set); [|assumption]; intros x y O; apply O|].
      auto.
    - repeat (split; [reflexivity|]). cbn [fs_names fs_strings fs_subroutines fs_character_strings fs_records].
      split; [exists i1, i2, i3, i4; auto|]. rewrite E1, E4, E5, !map_length. split; [assumption|].
      split; [|split; [assumption|]].
      + intros i ops x N1 N2. rewrite nth_error_map in N1, N2.
        destruct (nth_error fonts i) as [z|] eqn:Ez; [|discriminate]. cbn in N1, N2. injection N1 as <-. injection N2 as <-.
        destruct (M i z Ez) as (y & Ey & (_ & _ & _ & (strings & start & R1 & R2 & R3) & _)).
        exists (font_character_strings y), strings, start. split; [apply map_nth_error; exact Ey|]. auto.
      + intros i ops r N1 N2. rewrite nth_error_map in N1, N2.
        destruct (nth_error fonts i) as [z|] eqn:Ez; [|discriminate]. cbn in N1, N2. injection N1 as <-. injection N2 as <-.
        destruct (M i z Ez) as (y & Ey & O). exists (font_record y). split; [apply map_nth_error; exact Ey|]. apply O.
  Qed.
End Edit.

Theorem font_set_edited cfg tape tape' p f : 0 <= p -> Z.of_nat (length tape) < 2 ^ 63 -> length tape' = length tape ->
  read_font_set cfg tape p = Ok f ->
  (forall q, font_set_frame (overflow_checks cfg) tape p f q -> same_byte tape tape' q) ->
  exists g, read_font_set cfg tape' p = Ok g /\ font_set_overwritten (overflow_checks cfg) tape tape' p f g.
Proof.
  intros Hp Ht Hl R A. apply font_set_iff_closed in R; auto.
  destruct (font_set_edit _ tape tape' p Hl f R A) as (g & Lg & O). exists g. split; [|assumption].
  apply font_set_iff_closed; auto. rewrite Hl. exact Ht.
Qed.

Theorem element_untouched tape tape' start x y : overwritten tape tape' start x y ->
  forall j c, nth_error (data x) j = Some c ->
  (forall q, element_place x start j <= q < element_place x start j + Z.of_nat (length c) -> same_byte tape tape' q) ->
  nth_error (data y) j = Some c.
Proof.
  intros (_ & _ & _ & _ & H) j c E A. destruct (H j c E) as (c' & E' & L & St & St'). rewrite E'. f_equal.
  eapply stands_equal; [exact St'| |exact L]. eapply same_bytes; eauto.
Qed.

(** ** Overwriting one glyph *)

Lemma same_outside pre c c' post q : length c' = length c ->
  ~ (Z.of_nat (length pre) <= q < Z.of_nat (length pre) + Z.of_nat (length c)) ->
  same_byte (pre ++ c ++ post) (pre ++ c' ++ post) q.
Proof.
  intros L Hq b. rewrite !stands_nth.
  assert (E : 0 <= q -> nth_error (pre ++ c ++ post) (Z.to_nat q) = nth_error (pre ++ c' ++ post) (Z.to_nat q)).
  { intros N. destruct (Nat.lt_ge_cases (Z.to_nat q) (length pre)) as [H|H].
    - rewrite !nth_error_app1 by assumption. reflexivity.
    - rewrite !(nth_error_app2 pre) by assumption. rewrite !nth_error_app2 by lia. rewrite L. reflexivity. }
  split; intros (N & H); (split; [assumption|]); intros [|[|]] x Ex; try discriminate; injection Ex as <-;
    specialize (H O b eq_refl); rewrite Nat.add_0_r in *; [rewrite <- (E N)|rewrite (E N)]; exact H.
Qed.

Lemma stands_middle pre c post : stands (pre ++ c ++ post) (Z.of_nat (length pre)) c.
Proof.
  split; [lia|]. exists post. rewrite Nat2Z.id, skipn_app, skipn_all, Nat.sub_diag. reflexivity.
Qed.

Theorem glyph_edited cfg pre c c' post p f i j ops x strings start :
  0 <= p -> Z.of_nat (length (pre ++ c ++ post)) < 2 ^ 63 -> length c' = length c ->
  read_font_set cfg (pre ++ c ++ post) p = Ok f ->
  nth_error (fs_operations f) i = Some ops -> nth_error (fs_character_strings f) i = Some x ->
  operand ops Op_CharStrings strings -> located (overflow_checks cfg) p strings start ->
  nth_error (data x) j = Some c -> element_place x start j = Z.of_nat (length pre) ->
  (forall q, font_set_frame (overflow_checks cfg) (pre ++ c ++ post) p f q ->
     ~ (Z.of_nat (length pre) <= q < Z.of_nat (length pre) + Z.of_nat (length c))) ->
  exists g y, read_font_set cfg (pre ++ c' ++ post) p = Ok g /\
    font_set_overwritten (overflow_checks cfg) (pre ++ c ++ post) (pre ++ c' ++ post) p f g /\
    nth_error (fs_character_strings g) i = Some y /\ nth_error (data y) j = Some c'.
Proof.
  intros Hp Ht L R Eo Ex O Lo Ec Pl A.
  destruct (font_set_edited cfg (pre ++ c ++ post) (pre ++ c' ++ post) p f Hp Ht) as (g & Rg & Og); auto.
  { rewrite !app_length. lia. }
  { intros q Hq. apply same_outside; auto. }
  pose proof Og as (_ & _ & _ & _ & _ & _ & H & _).
  destruct (H i ops x Eo Ex) as (y & strings' & start' & Ey & O' & Lo' & Ow).
  rewrite <- (operand_unique _ _ _ _ O O') in Lo'. rewrite <- (located_unique _ _ _ _ _ Lo Lo') in Ow.
  exists g, y. repeat (split; [assumption|]). destruct Ow as (_ & _ & _ & _ & W).
  destruct (W j c Ec) as (c'' & E & L'' & _ & St). rewrite Pl in St. rewrite E. f_equal.
  eapply stands_equal; [exact St|apply stands_middle|lia].
Qed.

(** ** The places of the glyphs of the sample are not in its frame *)

Lemma name_keyed_frame checks q : font_set_frame checks name_keyed 0 name_keyed_value q -> q < 34 \/ 36 <= q.
Proof.
  assert (Loc : forall offset place, 0 <= offset < 2 ^ 31 -> located checks 0 offset place -> place = offset).
  { intros offset place B L. apply located_forward in L; [|lia|assumption]. lia. }
  intros [H|[H|H]]; [lia| |].
  - destruct H as (i1 & i2 & i3 & i4 & (e1 & e2 & e3 & e4 & ds & X1 & X2 & X3 & X4 & L & (_ & r & St) & E2 & E3 & E4) & H).
    apply Loc in L; [|vm_compute; split; congruence]. cbn [fs_header name_keyed_value header_size] in L. subst i1.
    rewrite <- !app_assoc in St.
    remember (e4 ++ r) as t4 eqn:T4. remember (e3 ++ t4) as t3 eqn:T3. remember (e2 ++ t3) as t2 eqn:T2.
    pose proof (f_equal (@length _) St) as N1. pose proof (f_equal (@length _) T2) as N2.
    pose proof (f_equal (@length _) T3) as N3. rewrite app_length in N1, N2, N3.
    pose proof (read_index_complete dev_profile _ _ t2 X1) as R1. rewrite <- St in R1. vm_compute in R1. injection R1 as R1.
    pose proof (read_index_complete dev_profile _ _ t3 X2) as R2. rewrite <- T2, <- R1 in R2. vm_compute in R2. injection R2 as _ R2.
    pose proof (read_index_complete dev_profile _ _ t4 X3) as R3. rewrite <- T3, <- R2 in R3. vm_compute in R3. injection R3 as R3.
    rewrite <- R1 in N1, N2. rewrite <- R2 in N2, N3. rewrite <- R3 in N3.
    change (front_length (fs_names name_keyed_value)) with 5 in H.
    change (front_length (fs_strings name_keyed_value)) with 2 in H.
    change (front_length (fs_subroutines name_keyed_value)) with 2 in H.
    change (length (skipn (Z.to_nat 4) name_keyed)) with 47%nat in N1. cbn [length] in N1, N2, N3. lia.
  - destruct H as (i & ops & enc & set & strings & r & E1 & E2 & E3 & E4 & E5 & H).
    destruct i as [|[|]]; try discriminate. injection E1 as <-. injection E2 as <-. injection E3 as <-.
    injection E4 as <-. injection E5 as <-. destruct H as [H|[H|[H|H]]].
    + destruct H as (o & O & start & L & H). apply need_single_iff in O. vm_compute in O. injection O as <-.
      apply Loc in L; [|lia]. subst start.
      change (28 <= q < 28 + 6) in H. lia.
    + destruct H as (o & e & O & _ & _ & start & L & _ & H). apply need_single_iff in O. vm_compute in O. injection O as <-.
      apply Loc in L; lia.
    + destruct H as (o & e & O & _ & _ & start & L & _ & H). apply need_single_iff in O. vm_compute in O. injection O as <-.
      apply Loc in L; lia.
    + destruct H as (size & offset & O & H). apply need_double_iff in O. vm_compute in O. injection O as <- <-.
      destruct H as [(start & L & H)|(another & sum & O & Sm & start & L & H)]; [apply Loc in L; lia|].
      apply need_single_iff in O. vm_compute in O. injection O as <-. apply summed_forward in Sm; [|lia]. subst sum.
      apply Loc in L; lia.
Qed.

(** RedrawFacts: font sets with other code for their glyphs. *)
From Verif Require Import Base Float C1Number C1Operation C1Index C1Glyphs C1FontSet T2Operation T2Program BaseFacts
  SpecNumber SpecOperation SpecIndex SpecGlyphs SpecFontSet FontSetFacts LayoutFacts SpecFile FileFacts SpecSize SizeFacts
  SpecRepack SpecContents RepackFacts ContentsFacts SpecProgram SpecExpress ExpressFacts SpecRedraw.
Local Open Scope list_scope.
Local Open Scope Z_scope.

Lemma offsets_of_length l : forall a, length (offsets_of a l) = S (length l).
Proof. induction l as [|x l IH]; intros a; cbn; auto. Qed.

Lemma value_weight size l : (index_weight (index_value size l) <= 2 * length l + 1 + length (concat l))%nat.
Proof. destruct l as [|x l]; [cbn; lia|]. unfold index_weight. cbn [index_value offsets data]. rewrite offsets_of_length. lia. Qed.

Lemma total_cons a l : total (a :: l) = a + total l.
Proof. reflexivity. Qed.

Lemma sum_cons a l : list_sum (a :: l) = (a + list_sum l)%nat.
Proof. reflexivity. Qed.

Lemma code_total c : 1 + total (map (fun code : list byte => 2 + Z.of_nat (length code)) c) =
  Z.of_nat (2 * length c + 1 + length (concat c)).
Proof.
  induction c as [|x c IH]; [reflexivity|]. cbn [map concat length]. rewrite total_cons, app_length. lia.
Qed.

Lemma codes_weight codes : Z.of_nat (list_sum (map index_weight (map (index_value 4) codes))) <= code_length codes.
Proof.
  unfold code_length. induction codes as [|c codes IH]; [cbn; lia|]. cbn [map]. rewrite total_cons, sum_cons, code_total.
  pose proof (value_weight 4 c). rewrite Nat2Z.inj_add. apply Z.add_le_mono; [lia|exact IH].
Qed.

Lemma bare_private_weight r : (private_weight (bare_private r) <= private_weight r)%nat.
Proof. unfold private_weight. change (index_weight (private_subroutines (bare_private r))) with 0%nat. cbn [bare_private private_operations]. lia. Qed.

Lemma bare_weight r : (record_weight (bare_record r) <= record_weight r)%nat.
Proof.
  destruct r as [r|r]; cbn [bare_record record_weight]; [|apply bare_private_weight].
  cbn [cid_encoding cid_operations cid_records].
  enough (list_sum (map private_weight (map bare_private (cid_records r))) <= list_sum (map private_weight (cid_records r)))%nat by lia.
  induction (cid_records r) as [|s l IH]; [cbn; lia|]. cbn [map]. rewrite !sum_cons. pose proof (bare_private_weight s). lia.
Qed.

Lemma bare_count r : font_dictionary_count (bare_record r) = font_dictionary_count r.
Proof. destruct r as [r|r]; cbn; auto. apply map_length. Qed.

Lemma redrawn_enough codes f : Z.of_nat (enough (redrawn codes f)) <= Z.of_nat (enough f) + 60 * code_length codes.
Proof.
  unfold enough, font_set_weight.
  cbn [redrawn fs_names fs_strings fs_subroutines fs_operations fs_encodings fs_character_sets fs_character_strings fs_records].
  pose proof (codes_weight codes) as C.
  assert (R : (list_sum (map record_weight (map bare_record (fs_records f))) <= list_sum (map record_weight (fs_records f)))%nat).
  { induction (fs_records f) as [|r l IH]; [cbn; lia|]. cbn [map]. rewrite !sum_cons. pose proof (bare_weight r). lia. }
  assert (D : map font_dictionary_count (map bare_record (fs_records f)) = map font_dictionary_count (fs_records f)).
  { rewrite map_map. apply map_ext. apply bare_count. }
  rewrite D. change (index_weight empty_index) with 0%nat. lia.
Qed.

(** ** Contents *)

Definition bare_font (x : font) (c : list (list byte)) : font :=
  {| font_operations := font_operations x; font_encoding := font_encoding x; font_character_set := font_character_set x;
     font_character_strings := index_value 4 c; font_record := bare_record (font_record x) |}.

Lemma bare_private_contents r : private_contents r -> private_contents (bare_private r).
Proof. intros (D & _). split; [exact D|]. unfold few. cbn. lia. Qed.

Lemma bare_contents x c : length c = length (data (font_character_strings x)) -> font_contents x -> font_contents (bare_font x c).
Proof.
  intros L (D & T & F & S0 & E & R). unfold font_contents.
  cbn [bare_font font_operations font_encoding font_character_set font_character_strings font_record].
  rewrite data_value. unfold few in *. rewrite L. repeat (split; [assumption|]).
  destruct (font_record x) as [r|r]; cbn [bare_record record_contents] in *; [|apply bare_private_contents; auto].
  cbn [registry ordering cid_supplement cid_encoding cid_operations cid_records].
  destruct R as (R1 & R2 & R3 & R4 & R5 & R6 & R7 & R8). repeat (split; [assumption|]).
  split; [rewrite map_length; exact R7|]. apply Forall_map. eapply Forall_impl; [|exact R8]. apply bare_private_contents.
Qed.

Lemma redrawn_contents codes f : code_given f codes -> font_set_contents f -> font_set_contents (redrawn codes f).
Proof.
  intros G (S1 & S3 & _ & xs & Fx & F & Qo & Qe & Qc & Qs & Qr).
  cut (exists ys, length ys = length xs /\ Forall font_contents ys /\ map font_operations ys = map font_operations xs /\
    map font_encoding ys = map font_encoding xs /\ map font_character_set ys = map font_character_set xs /\
    map font_character_strings ys = map (index_value 4) codes /\
    map font_record ys = map bare_record (map font_record xs)).
  - intros (ys & Ly & Fy & Po & Pe & Pc & Ps & Pr). split; [exact S1|]. split; [exact S3|]. split; [unfold few; cbn; lia|].
    exists ys. split; [unfold few in *; rewrite Ly; exact Fx|]. split; [exact Fy|].
    cbn [redrawn fs_operations fs_encodings fs_character_sets fs_character_strings fs_records]. rewrite Po, Pe, Pc, Ps, Pr.
    rewrite Qr. auto.
  - unfold code_given in G. rewrite Qs in G. clear - F G. revert codes G. induction F as [|x xs Fx _ IH]; intros codes G.
    + inversion G; subst. exists []. cbn. auto 10.
    + cbn [map] in G. inversion G as [|? c ? cs L G']; subst. destruct (IH _ G') as (ys & Ly & Fy & Po & Pe & Pc & Ps & Pr).
      exists (bare_font x c :: ys). cbn [map length]. rewrite Ly, Po, Pe, Pc, Ps, Pr.
      split; [reflexivity|]. split; [constructor; auto; apply bare_contents; auto|]. auto 10.
Qed.

Theorem redrawn_again cfg tape p f codes : 0 <= p -> Z.of_nat (length tape) < 2 ^ 63 -> read_font_set cfg tape p = Ok f ->
  code_given f codes -> 128 * (Z.of_nat (font_set_weight f) + 1) + 60 * code_length codes < 2 ^ 31 ->
  exists file g, Z.of_nat (length file) <= 128 * (Z.of_nat (font_set_weight f) + 1) + 60 * code_length codes /\
    repacked (redrawn codes f) g /\
    forall cfg' pre post, Z.of_nat (length (pre ++ file ++ post)) < 2 ^ 63 ->
      read_font_set cfg' (pre ++ file ++ post) (Z.of_nat (length pre)) = Ok g.
Proof.
  intros Hp Ht R G W. destruct (contents_held _ _ _ _ Hp Ht R) as (C & B). pose proof (redrawn_enough codes f).
  destruct (contents_written _ (redrawn_contents _ _ G C)) as (file & g & L & Q & H'); [lia|]. exists file, g. split; [lia|]. auto.
Qed.

(** ** Pictures *)

Lemma redrawn_bare codes f g : repacked (redrawn codes f) g -> bare g.
Proof.
  intros (_ & _ & S0 & _ & _ & _ & _ & R). split; [symmetry; exact S0|]. cbn [redrawn fs_records] in R. revert R.
  generalize (fs_records g) as rs. generalize (fs_records f) as l. induction l as [|r l IH]; intros rs R; inversion R as [|? s ? ss H1 H2]; subst.
  - intros r locals [].
  - intros r' locals [<-|I] A; [|exact (IH _ H2 _ _ I A)].
    destruct r as [r|r], s as [s|s]; cbn [bare_record record_repacked available] in *; try contradiction.
    + destruct H1 as (_ & _ & _ & _ & _ & E). cbn [cid_records] in E. revert E A. generalize (cid_records s) as us. generalize (cid_records r) as ts.
      induction ts as [|t ts IH']; intros us E A; inversion E as [|? u ? us' E1 E2]; subst; [contradiction|].
      cbn [map] in A. destruct A as [<-|A]; [|exact (IH' _ E2 A)]. destruct E1 as (_ & E1). symmetry. exact E1.
    + destruct A as [<-|[]]. destruct H1 as (_ & E). symmetry. exact E.
Qed.

Lemma available_length r s : record_repacked (bare_record r) s -> length (available s) = length (available r).
Proof.
  destruct r as [r|r], s as [s|s]; cbn [bare_record record_repacked available]; try contradiction; [|reflexivity].
  intros (_ & _ & _ & _ & _ & E). apply paired_length in E. cbn [cid_records] in E. rewrite !map_length in *. congruence.
Qed.

(** Code for each picture, that draws it without subroutines. *)
Definition redraws (code : list byte) (x : picture) : Prop :=
  Z.of_nat (length code) <= glyph_length (fst x) /\
  forall cfg, exists q, runs cfg (new_program code [] []) (Ok (fst x, q)) /\ width q = snd x.

Lemma glyph_length_bound ops : operand_count ops <= glyph_length ops.
Proof. unfold glyph_length. pose proof (operand_count_nonneg ops). nia. Qed.

Lemma pictures_nonneg (xs : list picture) : 0 <= total (map (fun x => 2 + glyph_length (fst x)) xs).
Proof.
  induction xs as [|x xs IH]; [cbn; lia|]. cbn [map]. rewrite total_cons. pose proof (glyph_length_bound (fst x)).
  pose proof (operand_count_nonneg (fst x)). lia.
Qed.

Lemma picture_nonneg pictures : 0 <= picture_length pictures.
Proof.
  unfold picture_length. induction pictures as [|xs l IH]; [cbn; lia|]. cbn [map]. rewrite total_cons. pose proof (pictures_nonneg xs). lia.
Qed.

Lemma glyphs_redrawn (xs : list picture) : Forall drawable xs ->
  1 + total (map (fun x => 2 + glyph_length (fst x)) xs) < 2 ^ 31 ->
  exists codes, Forall2 redraws codes xs /\
    total (map (fun code : list byte => 2 + Z.of_nat (length code)) codes) <= total (map (fun x => 2 + glyph_length (fst x)) xs).
Proof.
  induction 1 as [|x xs D _ IH]; intros B; [exists []; split; [constructor|cbn; lia]|].
  cbn [map] in B. rewrite total_cons in B. pose proof (pictures_nonneg xs) as P. pose proof (glyph_length_bound (fst x)) as O.
  pose proof (operand_count_nonneg (fst x)).
  destruct IH as (codes & F & L); [lia|]. destruct D as (D1 & D2 & D3).
  destruct (normal_glyph _ _ D1 D2 D3) as (code' & ss & _ & _ & _ & Lc & Z); [lia|].
  exists (code' :: codes). split; [constructor; [|exact F]|cbn [map]; rewrite !total_cons; lia].
  split; [exact Lc|]. intros cfg'. destruct (Z cfg' [] []) as (q' & R' & W'); [cbn; lia|cbn; lia|]. exists q'. split; [exact R'|congruence].
Qed.

Lemma fonts_redrawn pictures : Forall (Forall drawable) pictures -> picture_length pictures < 2 ^ 31 ->
  exists codes, Forall2 (Forall2 redraws) codes pictures /\ code_length codes <= picture_length pictures.
Proof.
  unfold picture_length, code_length. induction 1 as [|xs pictures D _ IH]; intros B.
  { exists []. cbn. split; [constructor|lia]. }
  cbn [map] in B. rewrite total_cons in B. pose proof (picture_nonneg pictures) as P. pose proof (pictures_nonneg xs) as P'. unfold picture_length in P.
  destruct (glyphs_redrawn _ D) as (c & F & L); [lia|]. destruct IH as (codes & Fs & Lc); [lia|].
  exists (c :: codes). split; [constructor; auto|cbn [map]; rewrite !total_cons; lia].
Qed.

Lemma related_mid {A B} (R : A -> B -> Prop) l l' i y : Forall2 R l l' -> nth_error l' i = Some y -> exists x, nth_error l i = Some x /\ R x y.
Proof.
  intros F. revert i. induction F as [|a b l l' H _ IH]; intros [|i] E; try discriminate; cbn in *; [inversion E; subst; eauto|]. auto.
Qed.

Theorem pictures_written f pictures : font_set_contents f -> pictures_given f pictures ->
  Z.of_nat (enough f) + 60 * picture_length pictures < 2 ^ 31 ->
  exists file codes g, Z.of_nat (length file) <= Z.of_nat (enough f) + 60 * picture_length pictures /\
    code_given f codes /\ repacked (redrawn codes f) g /\ bare g /\ (forall cfg', pictured cfg' g pictures) /\
    forall cfg' pre post, Z.of_nat (length (pre ++ file ++ post)) < 2 ^ 63 ->
      read_font_set cfg' (pre ++ file ++ post) (Z.of_nat (length pre)) = Ok g.
Proof.
  intros C (Lp & D & Av) W. destruct (fonts_redrawn pictures D) as (codes & F & Lc); [lia|].
  assert (G : code_given f codes).
  { unfold code_given. clear - F Lp. revert F. revert codes. induction Lp as [|x xs l l' H _ IH]; intros codes F; inversion F; subst; constructor; auto.
    rewrite <- H. eapply paired_length; eauto. }
  pose proof (redrawn_enough codes f) as Re.
  destruct (contents_written _ (redrawn_contents _ _ G C)) as (file & g & L & Q & H); [lia|].
  exists file, codes, g. split; [lia|]. split; [exact G|]. split; [exact Q|]. pose proof (redrawn_bare _ _ _ Q) as Bg.
  split; [exact Bg|]. split; [|exact H]. intros cfg'. destruct Q as (_ & _ & S0 & _ & _ & _ & S1 & S2).
  cbn [redrawn fs_character_strings fs_records] in S1, S2. split.
  { apply paired_length in S1. apply paired_length in F. rewrite map_length in S1. congruence. }
  intros i strings r xs E1 E2 E3. destruct (related_mid _ _ _ _ _ S1 E1) as (x & Ex & Sx).
  destruct (related_mid _ _ _ _ _ S2 E2) as (r0 & Er & Sr). rewrite nth_error_map in Ex, Er.
  destruct (nth_error codes i) as [c|] eqn:Ec; [|discriminate]. cbn in Ex. injection Ex as <-.
  destruct (nth_error (fs_records f) i) as [r1|] eqn:Er1; [|discriminate]. cbn in Er. injection Er as <-.
  unfold same_elements in Sx. rewrite data_value in Sx. rewrite <- Sx.
  pose proof (related_nth _ _ _ F i c xs Ec E3) as Fc. destruct Bg as (Bs & Br). rewrite Bs.
  pose proof (available_length _ _ Sr) as La. pose proof (Av i r1 xs Er1 E3) as Ne.
  assert (I : xs = [] \/ In [] (available r)).
  { destruct xs as [|x xs]; [left; reflexivity|right]. specialize (Ne ltac:(discriminate)). destruct (available r) as [|u us] eqn:A; [destruct (available r1); [contradiction|discriminate]|].
    left. apply (Br r u (nth_error_In _ _ E2)). rewrite A. left. reflexivity. }
  clear - Fc I. destruct I as [->|I]; [inversion Fc; constructor|]. induction Fc as [|code x c xs (_ & K) _ IH]; constructor; auto.
  destruct (K cfg') as (q & K1 & K2). exists [], q. auto.
Qed.

(** What is drawn can be drawn. *)
Lemma pictured_given cfg f pictures : length (fs_records f) = length (fs_character_strings f) ->
  pictured cfg f pictures -> pictures_given f pictures.
Proof.
  intros Lr (Lp & D). unfold pictures_given. revert Lr Lp D.
  generalize (fs_character_strings f) as strings. generalize (fs_records f) as rs. intros rs strings. revert rs pictures.
  induction strings as [|x strings IH]; intros [|r rs] [|xs pictures] Lr Lp D; try discriminate.
  - split; [constructor|]. split; [constructor|]. intros [|i] r xs E; discriminate.
  - cbn [length] in Lr, Lp. pose proof (D 0%nat x r xs eq_refl eq_refl eq_refl) as D0.
    destruct (IH rs pictures) as (A & B & C); [congruence|congruence|intros i; exact (D (S i))|].
    split; [constructor; [symmetry; exact (paired_length _ _ _ D0)|exact A]|]. split.
    + constructor; [|exact B]. clear - D0. induction D0 as [|code y l xs (locals & q & _ & R & W) _ IH]; constructor; auto.
      unfold drawable. rewrite <- W. exact (run_results _ _ _ _ _ _ R).
    + intros [|i] r' xs' E E' N; [|exact (C i r' xs' E E' N)]. cbn in E, E'. injection E as <-. injection E' as <-.
      destruct D0 as [|? ? ? ? (locals & q & I & _) _]; [contradiction|]. intros Z. rewrite Z in I. exact I.
Qed.

Theorem pictures_again cfg tape p f pictures : 0 <= p -> Z.of_nat (length tape) < 2 ^ 63 -> read_font_set cfg tape p = Ok f ->
  pictured cfg f pictures -> 128 * (Z.of_nat (font_set_weight f) + 1) + 60 * picture_length pictures < 2 ^ 31 ->
  exists file codes g, Z.of_nat (length file) <= 128 * (Z.of_nat (font_set_weight f) + 1) + 60 * picture_length pictures /\
    code_given f codes /\ repacked (redrawn codes f) g /\ bare g /\ (forall cfg', pictured cfg' g pictures) /\
    forall cfg' pre post, Z.of_nat (length (pre ++ file ++ post)) < 2 ^ 63 ->
      read_font_set cfg' (pre ++ file ++ post) (Z.of_nat (length pre)) = Ok g.
Proof.
  intros Hp Ht R P W. destruct (contents_held _ _ _ _ Hp Ht R) as (C & B).
  assert (Lr : length (fs_records f) = length (fs_character_strings f)).
  { destruct C as (_ & _ & _ & xs & _ & _ & _ & _ & _ & -> & ->). rewrite !map_length. reflexivity. }
  destruct (pictures_written f pictures C (pictured_given _ _ _ Lr P)) as (file & codes & g & L & H); [lia|].
  exists file, codes, g. split; [lia|]. exact H.
Qed.

(** ** Font sets laid out again *)

Lemma repacked_available r s : record_repacked r s -> available r = available s.
Proof.
  destruct r as [r|r], s as [s|s]; cbn [record_repacked available]; try contradiction.
  - intros (_ & _ & _ & _ & _ & E). induction E as [|t u ts us (_ & E) _ IH]; [reflexivity|]. cbn [map]. unfold same_elements in E. congruence.
  - intros (_ & E). unfold same_elements in E. congruence.
Qed.

Lemma related_forth {A B} (R : A -> B -> Prop) l l' i x : Forall2 R l l' -> nth_error l i = Some x -> exists y, nth_error l' i = Some y /\ R x y.
Proof.
  intros F. revert i. induction F as [|a b l l' H _ IH]; intros [|i] E; try discriminate; cbn in *; [inversion E; subst; eauto|]. auto.
Qed.

Theorem repacked_pictured f g : repacked f g -> forall cfg pictures, pictured cfg f pictures <-> pictured cfg g pictures.
Proof.
  intros (_ & _ & S0 & _ & _ & _ & S1 & S2) cfg pictures. unfold pictured. pose proof (paired_length _ _ _ S1) as L. unfold same_elements in S0.
  split; intros (Lp & D); (split; [congruence|]); intros i x r xs E1 E2 E3.
  - destruct (related_mid _ _ _ _ _ S1 E1) as (y & E1' & Sx). destruct (related_mid _ _ _ _ _ S2 E2) as (s & E2' & Sr).
    pose proof (D i y s xs E1' E2' E3) as F. unfold same_elements in Sx. rewrite Sx, S0 in F.
    unfold draws in F |- *. rewrite (repacked_available _ _ Sr) in F. exact F.
  - destruct (related_forth _ _ _ _ _ S1 E1) as (y & E1' & Sx). destruct (related_forth _ _ _ _ _ S2 E2) as (s & E2' & Sr).
    pose proof (D i y s xs E1' E2' E3) as F. unfold same_elements in Sx. rewrite <- Sx, <- S0 in F.
    unfold draws in F |- *. rewrite (repacked_available _ _ Sr). exact F.
Qed.

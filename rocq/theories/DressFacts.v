(** DressFacts: reading a font set whose dictionaries have been overwritten. *)
From Verif Require Import Base Float C1Number C1Operation C1Index C1Glyphs C1FontSet BaseFacts SpecIndex IndexFacts OperationFacts
  SpecFontSet FontSetFacts LayoutFacts SpecFile FileFacts SpecTape TapeFacts SpecParts PartsFacts SpecEdit FontSetSamples EditFacts
  KeptFacts SpecDress.
From Coq Require Import Permutation.
Local Open Scope list_scope.
Local Open Scope Z_scope.

Lemma linked_operand links a b o v : linked links a b -> In o links -> operand a o v -> operand b o v.
Proof. intros L I (more & H). exists more. apply L; auto. Qed.
Lemma linked_operands links a b o v w : linked links a b -> In o links -> operands a o v w -> operands b o v w.
Proof. intros L I (more & H). exists more. apply L; auto. Qed.
Lemma linked_no links a b o : linked links a b -> In o links -> no_operand a o -> no_operand b o.
Proof. intros L I H v E. apply H. apply L; auto. Qed.
Lemma linked_absent links a b o : specified_default o = None -> linked links a b -> In o links -> absent a o -> absent b o.
Proof.
  intros D L I A. apply absent_iff. apply absent_iff in A. destruct (map_get b o) as [v|] eqn:E; [|reflexivity].
  apply entry_iff in E. assert (H : operand_list a o v) by (apply L; auto; left; exact E).
  destruct H as [H|(_ & l & H & _)]; [apply entry_iff in H|]; congruence.
Qed.
Lemma linked_present links a b o : specified_default o = None -> linked links a b -> In o links -> ~ absent a o -> ~ absent b o.
Proof.
  intros D L I A B. apply A. eapply (linked_absent links b a); eauto. intros o' v I'. symmetry. apply L, I'.
Qed.

Section Dress.
  Context (checks : bool) (tape tape' : list byte) (p : Z).

  Lemma private_dress links top top' r s : private_layout checks tape p top r ->
    (forall q, private_rest checks tape p top r q -> same_byte tape tape' q) ->
    linked links top top' -> In Op_Private links -> private_dressed checks tape' p top r s ->
    private_layout checks tape' p top' s.
  Proof.
    intros (size & offset & chunk & D & Fc & Lc & Dd & Su) A K I (Es & Ks & size' & offset' & chunk' & D' & F' & L' & Dd').
    destruct (operands_unique _ _ _ _ _ _ D D') as [<- <-].
    exists size, offset, chunk'. split; [eapply linked_operands; eauto|]. repeat (split; [assumption|]).
    rewrite Es. destruct Su as [[N E]|(another & sum & e & O & Sm & Fe & X)].
    - left. split; [|assumption]. eapply linked_no; [exact Ks|left; reflexivity|exact N].
    - right. exists another, sum, e. split; [eapply linked_operand; [exact Ks|left; reflexivity|exact O]|].
      split; [assumption|]. split; [|assumption]. eapply inside_edit; [exact Fe|]. intros q Hq. apply A.
      exists size, offset, another, sum, e. auto.
  Qed.

  Lemma privates_dress tops rs : Forall2 (private_layout checks tape p) tops rs -> forall tops' ss,
    (forall q ops inner, In (ops, inner) (combine tops rs) -> private_rest checks tape p ops inner q -> same_byte tape tape' q) ->
    Forall2 (linked [Op_Private]) tops tops' -> length ss = length rs ->
    (forall i ops x y, nth_error tops i = Some ops -> nth_error rs i = Some x -> nth_error ss i = Some y ->
       private_dressed checks tape' p ops x y) ->
    Forall2 (private_layout checks tape' p) tops' ss.
  Proof.
    induction 1 as [|top r tops rs P Ps IH]; intros tops' ss A K L N; inversion K as [|? top' ? tops'' K1 K2]; subst.
    - destruct ss; [constructor|discriminate].
    - destruct ss as [|s ss]; [discriminate|]. constructor.
      + eapply private_dress; [exact P| |exact K1|left; reflexivity|exact (N O _ _ _ eq_refl eq_refl eq_refl)].
        intros q. apply A. left. reflexivity.
      + apply IH; auto.
        * intros q ops inner I. apply A. right. exact I.
        * intros i. apply (N (S i)).
  Qed.

  Lemma record_dress top top' glyphs r s : record_layout checks tape p top glyphs r ->
    (forall q, record_rest checks tape p top glyphs r q -> same_byte tape tape' q) ->
    linked (top_links r) top top' -> record_dressed checks tape' p top r s -> record_layout checks tape' p top' glyphs s.
  Proof.
    destruct r as [r|r], s as [s|s]; cbn [record_layout record_rest record_dressed]; intros (Ro & Ly) A K W; try contradiction.
    - destruct Ly as (a & b & select & array & e & dictionaries & ea & R & Na & Ea & Nb & Eb & Os & Fs & X & Oa & Fa & Xa & Dd & Ps).
      destruct W as (W1 & W2 & W3 & W4 & (array' & ea' & dictionaries' & Oa' & Fa' & Xa' & Dd') & Kp & Lr & N).
      rewrite <- (operand_unique _ _ _ _ Oa Oa') in Fa'.
      split; [eapply linked_present; [reflexivity|exact K|cbn; tauto|exact Ro]|].
      exists a, b, select, array, e, dictionaries', ea'. rewrite W1, W2, W3, W4.
      split; [apply (K Op_ROS); [cbn; tauto|exact R]|]. repeat (split; [assumption|]).
      split; [eapply linked_operand; [exact K|cbn; tauto|exact Os]|].
      split; [eapply inside_edit; [exact Fs|]; intros q Hq; apply A; left; exists select, e; auto|].
      split; [assumption|].
      split; [eapply linked_operand; [exact K|cbn; tauto|exact Oa]|]. repeat (split; [assumption|]).
      eapply privates_dress; eauto. intros q ops inner I Hq. apply A. right. eauto.
    - split; [eapply linked_absent; [reflexivity|exact K|cbn; tauto|exact Ro]|].
      eapply private_dress; eauto. cbn. tauto.
  Qed.

  Lemma font_dress x ops' s : font_layout checks tape p x ->
    (forall q, font_rest checks tape p x q -> same_byte tape tape' q) ->
    linked (top_links (font_record x)) (font_operations x) ops' ->
    record_dressed checks tape' p (font_operations x) (font_record x) s ->
    font_layout checks tape' p
      {| font_operations := ops'; font_encoding := font_encoding x; font_character_set := font_character_set x;
         font_character_strings := font_character_strings x; font_record := s |}.
  Proof.
    intros (strings & set & code & e & Os & Ot & Fe & X & Oc & Sl & Oe & El & Rl) A K W.
    exists strings, set, code, e.
    cbn [font_operations font_encoding font_character_set font_character_strings font_record].
    assert (Q : forall o v, In o [Op_CharStrings; Op_CharStringType; Op_CharSet; Op_Encoding; Op_ROS] ->
                operand (font_operations x) o v -> operand ops' o v).
    { intros o v I. eapply linked_operand; [exact K|]. apply in_or_app. left. exact I. }
    split; [apply Q; [cbn; tauto|exact Os]|]. split; [apply Q; [cbn; tauto|exact Ot]|].
    split; [eapply inside_edit; [exact Fe|]; intros q Hq; apply A; left; exists strings, e; auto|].
    split; [assumption|]. split; [apply Q; [cbn; tauto|exact Oc]|]. split.
    { destruct Sl as [?|[?|[?|(N & ec & Fc & C)]]]; [left; assumption|right; left; assumption|do 2 right; left; assumption|].
      do 3 right. split; [assumption|]. exists ec. split; [|assumption]. eapply inside_edit; [exact Fc|].
      intros q I. apply A. right. left. exists set, ec. auto. }
    split; [apply Q; [cbn; tauto|exact Oe]|]. split.
    { destruct El as [?|[?|(N & ec & Fc & C)]]; [left; assumption|right; left; assumption|].
      do 2 right. split; [assumption|]. exists ec. split; [|assumption]. eapply inside_edit; [exact Fc|].
      intros q I. apply A. do 2 right. left. exists code, ec. auto. }
    eapply record_dress; eauto. intros q H. apply A. do 3 right. exact H.
  Qed.

  Lemma fonts_dress xs : Forall (font_layout checks tape p) xs -> forall opss ss,
    (forall q x, In x xs -> font_rest checks tape p x q -> same_byte tape tape' q) ->
    length opss = length xs -> length ss = length xs ->
    (forall i x b s, nth_error xs i = Some x -> nth_error opss i = Some b -> nth_error ss i = Some s ->
       linked (top_links (font_record x)) (font_operations x) b /\
       record_dressed checks tape' p (font_operations x) (font_record x) s) ->
    exists ys, Forall (font_layout checks tape' p) ys /\ opss = map font_operations ys /\ ss = map font_record ys /\
      map font_encoding ys = map font_encoding xs /\ map font_character_set ys = map font_character_set xs /\
      map font_character_strings ys = map font_character_strings xs.
  Proof.
    induction 1 as [|x xs L _ IH]; intros opss ss A L1 L2 N.
    - destruct opss, ss; try discriminate. exists []. auto 10.
    - destruct opss as [|b opss], ss as [|s ss]; try discriminate.
      destruct (IH opss ss) as (ys & Y & E1 & E2 & E3 & E4 & E5); [intros q z I; apply A; right; exact I|cbn in *; lia|cbn in *; lia|intros i; apply (N (S i))|].
      destruct (N O x b s eq_refl eq_refl eq_refl) as [K W].
      exists ({| font_operations := b; font_encoding := font_encoding x; font_character_set := font_character_set x;
                 font_character_strings := font_character_strings x; font_record := s |} :: ys).
      split; [constructor; [|exact Y]; apply font_dress; auto; intros q; apply A; left; reflexivity|].
      cbn. repeat split; congruence.
  Qed.

  Lemma font_set_dress f g : font_set_layout checks tape p f ->
    (forall q, font_set_rest checks tape p f q -> same_byte tape tape' q) ->
    font_set_dressed checks tape tape' p f g -> font_set_layout checks tape' p g.
  Proof.
    intros (eh & e1 & e2 & e3 & e4 & dictionaries & fonts & H & Sh & Fi & X1 & X2 & X3 & X4 & Dd & E1 & E2 & E3 & E4 & E5 & Fs) A
      (G1 & G2 & G3 & G4 & G5 & G6 & G7 & (c1 & c2 & c2' & ds & ds' & Y1 & Y2 & Y2' & Lc & (i1 & Lo & St) & (j1 & Lo' & St') & Dd') & Lg & Lr & W).
    rewrite <- (located_unique _ _ _ _ _ Lo Lo') in St'. clear Lo' j1.
    destruct Fi as (j1 & Lo' & Sf). rewrite <- (located_unique _ _ _ _ _ Lo Lo') in Sf. clear Lo' j1.
    rewrite (index_faithful _ _ _ Y1 X1) in *. clear c1 Y1.
    pose proof Sf as Sf0. rewrite app_assoc in Sf0. apply stands_app_iff in Sf0 as [S12 S34].
    assert (Q : c2 = e2).
    { apply stands_app_iff in St as [_ (_ & r & St)]. apply stands_app_iff in S12 as [_ (_ & r' & S2)]. rewrite St in S2.
      pose proof (read_index_complete dev_profile _ _ r Y2) as R. pose proof (read_index_complete dev_profile _ _ r' X2) as R'.
      rewrite S2, R' in R. injection R as <- <-. symmetry. eapply index_faithful; eauto. }
    subst c2.
    destruct (fonts_dress fonts Fs (fs_operations g) (fs_records g)) as (ys & Y & M1 & M2 & M3 & M4 & M5).
    { intros q x I Hx. apply A. do 2 right. apply In_nth_error in I as (i & I).
      exists i, (font_operations x), (font_encoding x), (font_character_set x), (font_character_strings x), (font_record x).
      rewrite E1, E2, E3, E4, E5. repeat (split; [apply map_nth_error; exact I|]). destruct x. exact Hx. }
    { rewrite Lg, E1, map_length. reflexivity. }
    { rewrite Lr, E5, map_length. reflexivity. }
    { intros i x b s I Hb Hs. apply (W i); auto; [rewrite E1|rewrite E5]; apply map_nth_error; exact I. }
    exists eh, e1, c2', e3, e4, ds', ys. rewrite G1, G2, G3, G4, G5, G6, G7.
    split; [assumption|]. split.
    { eapply same_bytes; [exact Sh|]. destruct H as (b1 & b2 & b3 & b4 & -> & _). intros q Hq. apply A. left. cbn in Hq. lia. }
    split.
    { exists i1. split; [assumption|]. rewrite app_assoc. apply stands_app_iff. split; [exact St'|].
      rewrite app_length, Lc, <- app_length. eapply same_bytes; [exact S34|]. intros q Hq. apply A. right. left.
      exists e1, e2, e3, e4, dictionaries, i1. eexists _, _, _. repeat (split; [eassumption || reflexivity|]).
      right. rewrite app_length in Hq. lia. }
    rewrite M3, M4, M5. auto 15.
  Qed.
End Dress.

Theorem font_set_dressed_read cfg tape tape' p f g : 0 <= p -> Z.of_nat (length tape) < 2 ^ 63 -> Z.of_nat (length tape') < 2 ^ 63 ->
  read_font_set cfg tape p = Ok f ->
  (forall q, font_set_rest (overflow_checks cfg) tape p f q -> same_byte tape tape' q) ->
  font_set_dressed (overflow_checks cfg) tape tape' p f g -> read_font_set cfg tape' p = Ok g.
Proof.
  intros Hp Ht Ht' R A D. apply font_set_iff_closed in R; auto. apply font_set_iff_closed; auto.
  eapply font_set_dress; eauto.
Qed.

(** ** Order *)

Lemma occurrence_single (ops : list (operator * list number)) : NoDup (map fst ops) -> forall o v,
  last_occurrence ops o v <-> In (o, v) ops.
Proof.
  intros N o v. split.
  - intros (before & after & -> & _). apply in_or_app. right. left. reflexivity.
  - intros I. apply in_split in I as (before & after & ->). exists before, after. split; [reflexivity|].
    intros w I. rewrite map_app in N. cbn in N. apply NoDup_remove_2 in N. apply N, in_or_app. right.
    apply (in_map fst) in I. exact I.
Qed.

Theorem order_read e e' ops ops' : dictionary_encoding e ops -> dictionary_encoding e' ops' ->
  Permutation ops ops' -> NoDup (map fst ops) ->
  exists m m', read_operations e = Ok m /\ read_operations e' = Ok m' /\
    (forall o, operations_get m o = operations_get m' o /\ get_single m o = get_single m' o /\
       get_double m o = get_double m' o /\ map_contains m o = map_contains m' o) /\
    forall links, linked links m m'.
Proof.
  intros D D' P N. destruct (dictionary_reads e ops D) as (m & R & S & A). destruct (dictionary_reads e' ops' D') as (m' & R' & S' & A').
  assert (N' : NoDup (map fst ops')) by (eapply Permutation_NoDup; [apply Permutation_map; exact P|exact N]).
  assert (E : forall o, map_get m o = map_get m' o).
  { intros o. destruct (map_get m o) as [v|] eqn:E.
    - symmetry. apply S'. apply occurrence_single; auto. eapply Permutation_in; [exact P|]. apply occurrence_single; auto. apply S, E.
    - symmetry. apply A'. intros v I. apply (proj1 (A o) E v). eapply Permutation_in; [symmetry; exact P|exact I]. }
  exists m, m'. repeat (split; [assumption|]).
  assert (G : forall o, operations_get m o = operations_get m' o) by (intros o; unfold operations_get; rewrite E; reflexivity).
  split.
  - intros o. unfold get_single, get_double, map_contains. rewrite G, E. auto.
  - intros links o v _. rewrite <- !operand_list_iff, G. reflexivity.
Qed.

(** ** The sample, with its top dictionary in another order and another private dictionary *)

Definition cid_dressed : list byte :=
  firstn 15 cid_keyed ++ [xbb; x0c; x24; xab; x11; x8c; x8d; x8b; x0c; x1e; xb3; x0c; x25] ++
  firstn 28 (skipn 28 cid_keyed) ++ [x93; x15].

Definition cid_dressed_value : font_set :=
  {| fs_header := fs_header cid_keyed_value; fs_names := fs_names cid_keyed_value;
     fs_operations := [[(Op_FDSelect, [Integer 40]); (Op_ROS, [Integer 1; Integer 2; Integer 0]); (Op_CharStrings, [Integer 32]);
                        (Op_FDArray, [Integer 48])]];
     fs_strings := fs_strings cid_keyed_value; fs_subroutines := fs_subroutines cid_keyed_value;
     fs_encodings := fs_encodings cid_keyed_value; fs_character_sets := fs_character_sets cid_keyed_value;
     fs_character_strings := fs_character_strings cid_keyed_value;
     fs_records := [CharacterIDKeyed
       {| registry := 1; ordering := 2; cid_supplement := Integer 0; cid_encoding := cid_encoding cid_keyed_record;
          cid_operations := cid_operations cid_keyed_record;
          cid_records := [{| private_operations := [(Op_NominalWidthX, [Integer 8])];
                             private_subroutines := index_value 0 [] |}] |}] |}.

Lemma linked_by (links : list operator) (a b : operations) :
  Forall (fun o => operations_get a o = operations_get b o) links -> linked links a b.
Proof. intros F o v I. rewrite Forall_forall in F. rewrite <- !operand_list_iff, (F o I). reflexivity. Qed.

Lemma cid_dressed_rest checks q : font_set_rest checks cid_keyed 0 cid_keyed_value q -> q < 15 \/ 28 <= q < 56.
Proof.
  assert (Loc : forall offset place, 0 <= offset < 2 ^ 31 -> located checks 0 offset place -> place = offset).
  { intros offset place B L. apply located_forward in L; [|lia|assumption]. lia. }
  intros [H|[H|H]]; [lia| |].
  - destruct H as (e1 & e2 & e3 & e4 & ds & i1 & i2 & i3 & i4 & X1 & X2 & X3 & X4 & L & (_ & r & St) & E2 & E3 & E4 & H).
    apply Loc in L; [|vm_compute; split; congruence]. cbn [fs_header cid_keyed_value header_size] in L. subst i1.
    rewrite app_length in E4. rewrite <- !app_assoc in St.
    remember (e4 ++ r) as t4 eqn:T4. remember (e3 ++ t4) as t3 eqn:T3. remember (e2 ++ t3) as t2 eqn:T2.
    pose proof (f_equal (@length _) St) as N1. pose proof (f_equal (@length _) T2) as N2.
    pose proof (f_equal (@length _) T3) as N3. pose proof (f_equal (@length _) T4) as N4. rewrite app_length in N1, N2, N3, N4.
    pose proof (read_index_complete dev_profile _ _ t2 X1) as R1. rewrite <- St in R1. vm_compute in R1. injection R1 as R1.
    pose proof (read_index_complete dev_profile _ _ t3 X2) as R2. rewrite <- T2, <- R1 in R2. vm_compute in R2. injection R2 as _ R2.
    pose proof (read_index_complete dev_profile _ _ t4 X3) as R3. rewrite <- T3, <- R2 in R3. vm_compute in R3. injection R3 as R3.
    pose proof (read_index_complete dev_profile _ _ r X4) as R4. rewrite <- T4, <- R3 in R4. vm_compute in R4. injection R4 as R4.
    rewrite <- R1 in N1, N2. rewrite <- R2 in N2, N3. rewrite <- R3 in N3, N4. rewrite <- R4 in N4.
    change (length (skipn (Z.to_nat 4) cid_keyed)) with 54%nat in N1. cbn [length] in N1, N2, N3, N4. lia.
  - destruct H as (i & ops & enc & set & strings & r & E1 & E2 & E3 & E4 & E5 & H).
    destruct i as [|[|]]; try discriminate. injection E1 as <-. injection E2 as <-. injection E3 as <-.
    injection E4 as <-. injection E5 as <-. destruct H as [H|[H|[H|H]]].
    + destruct H as (o & e & O & X & start & L & (_ & rr & St) & H). apply need_single_iff in O. vm_compute in O. injection O as <-.
      apply Loc in L; [|lia]. subst start.
      pose proof (read_index_complete dev_profile _ _ rr X) as R. rewrite <- St in R. apply (f_equal (@length _)) in St. vm_compute in R. injection R as R.
      rewrite app_length, <- R in St. change (length (skipn (Z.to_nat 32) cid_keyed)) with 26%nat in St. cbn [length] in St. lia.
    + destruct H as (o & e & O & K & _). apply need_single_iff in O. vm_compute in O. injection O as <-. lia.
    + destruct H as (o & e & O & K & _). apply need_single_iff in O. vm_compute in O. injection O as <-. lia.
    + destruct H as [H|H].
      * destruct H as (o & e & O & X & start & L & _ & H). apply need_single_iff in O. vm_compute in O. injection O as <-.
        apply Loc in L; [|lia]. subst start. inversion X; subst. rewrite ?app_length in H. cbn [length] in H.
        match goal with E : each _ _ _ |- _ => inversion E as [|? ? ? ? E' E'']; subst; inversion E''; subst; destruct E' as (? & ? & ? & -> & _) end.
        repeat (cbn [length app] in H; rewrite ?app_length, ?be_bytes_length in H). lia.
      * destruct H as (ops & inner & [I|[]] & size & offset & another & sum & e & O & O' & _). injection I as <- <-.
        apply need_single_iff in O'. vm_compute in O'. discriminate.
Qed.

Lemma cid_dressed_case checks : font_set_dressed checks cid_keyed cid_dressed 0 cid_keyed_value cid_dressed_value.
Proof.
  assert (F : forall tape offset e, 0 <= offset < 2 ^ 31 -> (exists r, skipn (Z.to_nat offset) tape = e ++ r) -> found checks tape 0 offset e).
  { intros tape offset e B H. apply found_forward; [lia|assumption|exact H]. }
  assert (I : forall e x, read_index dev_profile e = Ok (x, []) -> index_encoding e x).
  { intros e x R. apply read_index_sound in R as (e' & E & X). rewrite app_nil_r in E. subst. exact X. }
  repeat (split; [reflexivity|]).
  split; [|split; [reflexivity|split; [reflexivity|]]].
  - exists [x00; x01; x01; x01; x02; x41], (firstn 18 (skipn 10 cid_keyed)), (firstn 18 (skipn 10 cid_dressed)). eexists _, _.
    split; [apply I; vm_compute; reflexivity|]. split; [apply I; vm_compute; reflexivity|]. split; [apply I; vm_compute; reflexivity|].
    split; [reflexivity|]. split; [apply F; [vm_compute; split; congruence|eexists; vm_compute; reflexivity]|].
    split; [apply F; [vm_compute; split; congruence|eexists; vm_compute; reflexivity]|].
    constructor; [apply read_operations_iff; vm_compute; reflexivity|constructor].
  - intros [|[|]] a b r s Ea Eb Er Es; try discriminate. injection Ea as <-. injection Eb as <-. injection Er as <-. injection Es as <-.
    split; [apply linked_by; repeat constructor|]. cbn [record_dressed]. repeat (split; [reflexivity|]).
    split; [|split; [constructor; [apply linked_by; repeat constructor|constructor]|split; [reflexivity|]]].
    + exists 48, (firstn 8 (skipn 48 cid_dressed)). eexists.
      split; [apply need_single_iff; reflexivity|]. split; [apply F; [lia|eexists; vm_compute; reflexivity]|].
      split; [apply I; vm_compute; reflexivity|]. constructor; [apply read_operations_iff; vm_compute; reflexivity|constructor].
    + intros [|[|]] ops x y Eo Ex Ey; try discriminate. injection Eo as <-. injection Ex as <-. injection Ey as <-.
      split; [reflexivity|]. split; [apply linked_by; repeat constructor|].
      exists 2, 56, [x93; x15]. split; [apply need_double_iff; reflexivity|].
      split; [apply F; [lia|eexists; vm_compute; reflexivity]|]. split; [reflexivity|].
      apply read_operations_iff. vm_compute. reflexivity.
Qed.

Lemma cid_dressed_same q : q < 15 \/ 28 <= q < 56 -> same_byte cid_keyed cid_dressed q.
Proof.
  intros H b. rewrite !stands_nth.
  assert (E : 0 <= q -> nth_error cid_keyed (Z.to_nat q) = nth_error cid_dressed (Z.to_nat q)).
  { intros N. assert (B : (Z.to_nat q < 15 \/ 28 <= Z.to_nat q < 56)%nat) by lia. generalize dependent (Z.to_nat q). clear.
    intros n B. do 56 (destruct n as [|n]; [reflexivity || lia|]). lia. }
  split; intros (N & K); (split; [assumption|]); intros [|[|]] x Ex; try discriminate; injection Ex as <-;
    specialize (K O b eq_refl); rewrite Nat.add_0_r in *; [rewrite <- (E N)|rewrite (E N)]; exact K.
Qed.

(** GlyphFacts: proofs about character sets and encodings. *)
From Coq Require Import String.
From Verif Require Import Base Float C1Number C1Operation Tables C1Index C1Glyphs BaseFacts SpecNumber
  NumberFacts SpecIndex IndexFacts StringFacts SpecGlyphs.
Local Open Scope list_scope.
Local Open Scope Z_scope.

(** ** Predefined tables *)

Lemma lookup_code_domain {A} (arms : list (Z * A)) code v :
  lookup_code code arms = Some v -> In code (map fst arms).
Proof.
  induction arms as [|[k w] arms IH]; simpl; [discriminate|].
  destruct (Z.eqb_spec code k) as [->|]; auto.
Qed.

Lemma lookup_code_outside {A} (arms : list (Z * A)) code :
  ~ In code (map fst arms) -> lookup_code code arms = None.
Proof.
  intros H. destruct (lookup_code code arms) as [v|] eqn:E; auto.
  apply lookup_code_domain in E. tauto.
Qed.

(** A finite check lifted to every integer of an interval. *)
Lemma check_run (P : Z -> bool) a b :
  forallb P (run a b) = true -> forall z, a <= z <= b -> P z = true.
Proof.
  intros H z B. rewrite forallb_forall in H. apply H. unfold run. apply in_map_iff.
  exists (Z.to_nat (z - a)). split; [lia|]. apply in_seq. lia.
Qed.

Lemma in_run a b z : In z (run a b) <-> a <= z <= b.
Proof.
  unfold run. rewrite in_map_iff. split.
  - intros (i & <- & I). apply in_seq in I. lia.
  - intros B. exists (Z.to_nat (z - a)). split; [lia|]. apply in_seq. lia.
Qed.

Definition same_name (a b : option string) : bool :=
  match a, b with
  | Some x, Some y => String.eqb x y
  | None, None => true
  | _, _ => false
  end.

Lemma same_name_eq a b : same_name a b = true -> a = b.
Proof.
  destruct a as [x|], b as [y|]; simpl; intros H; try discriminate; auto.
  apply String.eqb_eq in H. congruence.
Qed.

Lemma iso_adobe_names_spec id : 1 <= id <= 228 ->
  character_set_get ISOAdobe id = predefined_name iso_adobe_glyphs id.
Proof.
  intros H. apply same_name_eq.
  apply (check_run (fun id => same_name (character_set_get ISOAdobe id)
                                        (predefined_name iso_adobe_glyphs id)) 1 228); [|exact H].
  vm_compute. reflexivity.
Qed.

Lemma iso_adobe_outside id : ~ (1 <= id <= 228) -> character_set_get ISOAdobe id = None.
Proof.
  intros H. apply lookup_code_outside. intros I. apply H.
  assert (F : forallb (fun k => (1 <=? k) && (k <=? 228)) (map fst iso_adobe_names) = true)
    by (vm_compute; reflexivity).
  rewrite forallb_forall in F. apply F in I. lia.
Qed.

Definition member (z : Z) (l : list Z) : bool := existsb (Z.eqb z) l.

Lemma member_in z l : member z l = true <-> In z l.
Proof.
  unfold member. rewrite existsb_exists. split.
  - intros (x & I & E). apply Z.eqb_eq in E as ->. assumption.
  - intros I. exists z. split; auto. apply Z.eqb_refl.
Qed.

Lemma named_by_string (c : character_set) glyphs table :
  (forall id, character_set_get c id = lookup_code id table) ->
  forallb (fun id => (id =? 0) || same_name (lookup_code id table) (standard_name id)) glyphs = true ->
  forallb (fun id => negb (id =? 0) && member id glyphs) (map fst table) = true ->
  forall id, character_set_get c id =
    if member id glyphs && negb (id =? 0) then standard_name id else None.
Proof.
  intros G F1 F2 id. rewrite G. rewrite forallb_forall in F1, F2.
  destruct (member id glyphs) eqn:M; cbn [andb].
  - destruct (Z.eqb_spec id 0) as [->|N]; cbn [negb].
    + apply lookup_code_outside. intros I. apply F2 in I. discriminate.
    + apply member_in in M. apply F1 in M. apply same_name_eq.
      destruct (Z.eqb_spec id 0); [lia|]. assumption.
  - apply lookup_code_outside. intros I. apply F2 in I. rewrite M, andb_false_r in I. discriminate.
Qed.

Lemma expert_by_string id : character_set_get ExpertSet id =
  if member id expert_glyphs && negb (id =? 0) then standard_name id else None.
Proof.
  apply (named_by_string ExpertSet expert_glyphs expert_names); [reflexivity| |];
    vm_compute; reflexivity.
Qed.

Lemma expert_subset_by_string id : character_set_get ExpertSubset id =
  if member id expert_subset_glyphs && negb (id =? 0) then standard_name id else None.
Proof.
  apply (named_by_string ExpertSubset expert_subset_glyphs expert_subset_names); [reflexivity| |];
    vm_compute; reflexivity.
Qed.

Definition same_id (a b : option Z) : bool :=
  match a, b with
  | Some x, Some y => x =? y
  | None, None => true
  | _, _ => false
  end.

Lemma same_id_eq a b : same_id a b = true -> a = b.
Proof.
  destruct a as [x|], b as [y|]; simpl; intros H; try discriminate; auto.
  apply Z.eqb_eq in H. congruence.
Qed.

Lemma encoding_table (x : encoding) table runs :
  (forall code, encoding_get x code = lookup_code code table) ->
  forallb (fun code => same_id (lookup_code code table) (Some (encoded runs code))) (run 0 255) = true ->
  forallb (fun code => (0 <=? code) && (code <=? 255)) (map fst table) = true ->
  forall code, encoding_get x code =
    if (0 <=? code) && (code <=? 255) then Some (encoded runs code) else None.
Proof.
  intros G F1 F2 code. rewrite G. destruct ((0 <=? code) && (code <=? 255)) eqn:B.
  - apply same_id_eq.
    apply (check_run (fun code => same_id (lookup_code code table) (Some (encoded runs code))) 0 255); auto.
    lia.
  - apply lookup_code_outside. intros I. rewrite forallb_forall in F2. apply F2 in I. congruence.
Qed.

Lemma standard_encoding_spec code : encoding_get Standard code =
  if (0 <=? code) && (code <=? 255) then Some (encoded standard_runs code) else None.
Proof.
  apply (encoding_table Standard standard_encoding); [reflexivity| |]; vm_compute; reflexivity.
Qed.

Lemma expert_encoding_spec code : encoding_get ExpertEncoding code =
  if (0 <=? code) && (code <=? 255) then Some (encoded expert_runs code) else None.
Proof.
  apply (encoding_table ExpertEncoding expert_encoding); [reflexivity| |]; vm_compute; reflexivity.
Qed.

(** The names listed in the source beside the codes. *)
Lemma encoding_labels x table labels code name :
  (forall code, encoding_get x code = lookup_code code table) ->
  forallb (fun code => match lookup_code code table with
                       | Some id => same_name (standard_name id) (lookup_code code labels)
                       | None => false
                       end) (map fst labels) = true ->
  lookup_code code labels = Some name ->
  exists id, encoding_get x code = Some id /\ standard_name id = Some name.
Proof.
  intros G F L. pose proof (lookup_code_domain _ _ _ L) as D. rewrite forallb_forall in F.
  apply F in D. rewrite G. destruct (lookup_code code table) as [id|]; [|discriminate].
  exists id. split; auto. apply same_name_eq in D. congruence.
Qed.

Lemma encoded_standard runs : 
  forallb (fun code => let id := encoded runs code in (0 <=? id) && (id <? 391)) (run 0 255) = true ->
  forall code, 0 <= code <= 255 -> exists name, standard_name (encoded runs code) = Some name.
Proof.
  intros F code B. apply (check_run _ _ _ F) in B. cbv zeta in B.
  apply standard_name_defined. lia.
Qed.

Lemma standard_runs_named code : 0 <= code <= 255 ->
  exists name, standard_name (encoded standard_runs code) = Some name.
Proof. apply encoded_standard. vm_compute. reflexivity. Qed.

Lemma expert_runs_named code : 0 <= code <= 255 ->
  exists name, standard_name (encoded expert_runs code) = Some name.
Proof. apply encoded_standard. vm_compute. reflexivity. Qed.

(** ** 16-bit integers *)

Definition u16_encoding (e : list byte) (v : Z) : Prop := 0 <= v < 2 ^ 16 /\ e = be_bytes 2 v.

Lemma take_u16_sound : sound take_u16 u16_encoding.
Proof.
  intros s v r H. apply take_u16_ok in H as (b1 & b0 & -> & ->). exists [b1; b0]. split; auto.
  pose proof (bz_range b1). pose proof (bz_range b0). split; [lia|]. symmetry. apply bytes_count.
Qed.

Lemma take_u16_complete : complete take_u16 u16_encoding.
Proof.
  intros e v r (B & ->). destruct (count_bytes v B) as (b1 & b0 & -> & E). cbn [app take_u16].
  rewrite E. reflexivity.
Qed.

Lemma take_u16_eof : eof take_u16 u16_encoding.
Proof.
  intros e1 e2 v (B & E) N. destruct (count_bytes v B) as (b1 & b0 & Eb & _). rewrite Eb in E.
  destruct e1 as [|a [|b e1]]; try reflexivity. injection E as -> -> E.
  apply app_eq_nil in E as [_ E]. congruence.
Qed.

Lemma take_u16_total : total take_u16.
Proof. intros [|? [|? ?]]; exact I. Qed.

Lemma u16_consumes : consumes u16_encoding.
Proof. intros e v (_ & ->). discriminate. Qed.

Lemma each_u16 e vs : each u16_encoding e vs <->
  Forall (fun v => 0 <= v < 2 ^ 16) vs /\ e = flat_map (be_bytes 2) vs.
Proof.
  split.
  - induction 1 as [|e v es vs (B & ->) E [IH1 IH2]]; [split; auto|]. split; [constructor; auto|].
    cbn [flat_map]. congruence.
  - intros (F & ->). induction F as [|v vs B F IH]; [constructor|]. cbn [flat_map]. constructor; auto.
    split; auto.
Qed.

(** ** Ranges of character sets *)

Lemma be_bytes_1 v : be_bytes 1 v = [zb v].
Proof. cbn [be_bytes]. change (256 ^ Z.of_nat 0) with 1. rewrite Z.div_1_r. reflexivity. Qed.

Definition range_reader (width : nat) (rd : reader string_range) : Prop :=
  sound rd (range_encoding width) /\ complete rd (range_encoding width) /\
  eof rd (range_encoding width) /\ total rd.

Lemma range_consumes width : consumes (range_encoding width).
Proof. intros e x (_ & _ & ->). discriminate. Qed.

Lemma range1_reader : range_reader 1 read_range1.
Proof.
  repeat split.
  - intros s [f l] r H. unfold read_range1 in H. inv_ok H. destruct a as [first s1].
    apply take_u16_sound in H0 as (e & -> & B & ->). inv_ok H. destruct a as [more s2].
    apply take_u8_ok in H0 as (b & -> & ->). injection H as <- <- <-.
    exists (be_bytes 2 first ++ [b]). rewrite <- app_assoc. split; auto. pose proof (bz_range b).
    split; [assumption|]. split; [cbn; lia|]. cbn [first_string_id left_count].
    rewrite be_bytes_1, zb_bz. reflexivity.
  - intros e [f l] r (B1 & B2 & ->). cbn [first_string_id left_count] in *. rewrite be_bytes_1, <- app_assoc.
    unfold read_range1. rewrite (take_u16_complete (be_bytes 2 f) f) by (split; auto).
    cbn [bind app take_u8]. rewrite bz_zb by (cbn in B2; lia). reflexivity.
  - intros e1 e2 [f l] (B1 & B2 & E) N. cbn [first_string_id left_count] in *. rewrite be_bytes_1 in E.
    destruct (count_bytes f B1) as (b1 & b0 & Eb & _). rewrite Eb in E.
    destruct e1 as [|a [|b [|c e1]]]; try reflexivity. injection E as -> -> -> E.
    first [apply app_eq_nil in E as [_ E]|symmetry in E; apply app_eq_nil in E as [_ E]]. congruence.
  - intros [|? [|? [|? ?]]]; exact I.
Qed.

Lemma range2_reader : range_reader 2 read_range2.
Proof.
  repeat split.
  - intros s [f l] r H. unfold read_range2 in H. inv_ok H. destruct a as [first s1].
    apply take_u16_sound in H0 as (e & -> & B & ->). inv_ok H. destruct a as [more s2].
    apply take_u16_sound in H0 as (e & -> & B' & ->). injection H as <- <- <-.
    exists (be_bytes 2 first ++ be_bytes 2 more). rewrite <- app_assoc. split; auto.
    repeat split; auto; apply B || apply B'.
  - intros e [f l] r (B1 & B2 & ->). cbn [first_string_id left_count] in *. rewrite <- app_assoc.
    unfold read_range2. rewrite (take_u16_complete (be_bytes 2 f) f) by (split; auto).
    cbn [bind]. rewrite (take_u16_complete (be_bytes 2 l) l) by (split; auto). reflexivity.
  - intros e1 e2 [f l] (B1 & B2 & E) N. cbn [first_string_id left_count] in *.
    destruct (count_bytes f B1) as (b1 & b0 & Eb & _). rewrite Eb in E.
    destruct (count_bytes l B2) as (b3 & b2 & Eb' & _). rewrite Eb' in E.
    destruct e1 as [|a [|b [|c [|d e1]]]]; try reflexivity. injection E as -> -> -> -> E.
    first [apply app_eq_nil in E as [_ E]|symmetry in E; apply app_eq_nil in E as [_ E]]. congruence.
  - intros [|? [|? [|? [|? ?]]]]; exact I.
Qed.

Lemma covered_nonneg width e ranges : each (range_encoding width) e ranges -> 0 <= covered ranges.
Proof.
  induction 1 as [|e x es xs (B1 & B2 & _) E IH]; cbn [covered fold_right]; [lia|].
  fold (covered xs). lia.
Qed.

Lemma read_ranges_complete width rd : range_reader width rd -> forall e ranges,
  each (range_encoding width) e ranges -> forall fuel n found r,
  (length e < fuel)%nat -> found + covered ranges = n ->
  read_ranges rd fuel n found (e ++ r) = Ok ((ranges, n), r).
Proof.
  intros (Hs & Hc & _) e ranges H. induction H as [|e x es xs H E IH]; intros fuel n found r L C.
  - cbn [covered fold_right] in C. destruct fuel as [|fuel]; [simpl in L; lia|].
    cbn [read_ranges]. destruct (Z.ltb_spec found n); [lia|]. replace n with found by lia. reflexivity.
  - destruct fuel as [|fuel]; [lia|]. cbn [covered fold_right] in C. fold (covered xs) in C.
    pose proof (covered_nonneg _ _ _ E). destruct H as (B1 & B2 & He).
    assert (Ne : e <> []) by (rewrite He; discriminate).
    cbn [read_ranges]. destruct (Z.ltb_spec found n); [|lia].
    rewrite <- app_assoc. rewrite (Hc e x); [|split; auto]. cbn [bind].
    rewrite IH; [reflexivity| |lia].
    rewrite app_length in L. destruct e; [congruence|]. simpl in L. lia.
Qed.

Lemma read_ranges_sound width rd : range_reader width rd -> forall fuel n found s ranges found' r,
  read_ranges rd fuel n found s = Ok ((ranges, found'), r) ->
  exists e, s = e ++ r /\ each (range_encoding width) e ranges /\ found' = found + covered ranges.
Proof.
  intros (Hs & _). induction fuel as [|fuel IH]; intros n found s ranges found' r H; cbn [read_ranges] in H.
  - destruct (found <? n); [discriminate|]. injection H as <- <- <-. exists []. repeat split.
    + constructor.
    + cbn. lia.
  - destruct (found <? n).
    + inv_ok H. destruct a as [x s1]. inv_ok H. destruct a as [[xs f] s2]. injection H as <- <- <-.
      apply Hs in H0 as (e & -> & E). apply IH in H1 as (es & -> & Es & ->).
      exists (e ++ es). rewrite <- app_assoc. repeat split.
      * constructor; auto.
      * cbn [covered fold_right]. fold (covered xs). lia.
    + injection H as <- <- <-. exists []. repeat split. { constructor. } cbn. lia.
Qed.

Lemma read_ranges_total width rd : range_reader width rd -> forall fuel n found s,
  (length s < fuel)%nat -> settled (read_ranges rd fuel n found s).
Proof.
  intros (Hs & _ & _ & Ht). induction fuel as [|fuel IH]; intros n found s L; [lia|]. cbn [read_ranges].
  destruct (found <? n); [|exact I]. apply settled_bind; [apply Ht|].
  intros [x s1] H. apply settled_bind.
  - apply IH. apply Hs in H as (e & -> & E). apply range_consumes in E. rewrite app_length in L.
    destruct e; [congruence|]. simpl in L. lia.
  - intros [[xs f] s2] _. exact I.
Qed.

Lemma read_ranges_eof width rd : range_reader width rd -> forall e ranges,
  each (range_encoding width) e ranges -> forall e1 e2 fuel n found,
  e = e1 ++ e2 -> e2 <> [] -> (length e < fuel)%nat -> found + covered ranges = n ->
  read_ranges rd fuel n found e1 = Err UnexpectedEof.
Proof.
  intros (Hs & Hc & He & _) e ranges H.
  induction H as [|e x es xs H E IH]; intros e1 e2 fuel n found Eq N L C.
  { symmetry in Eq. apply app_eq_nil in Eq as [_ Eq]. congruence. }
  destruct fuel as [|fuel]; [lia|]. cbn [covered fold_right] in C. fold (covered xs) in C.
  pose proof (covered_nonneg _ _ _ E). pose proof H as (B1 & B2 & Hb).
  assert (Ne : e <> []) by (rewrite Hb; discriminate).
  assert (Lf : (length es < fuel)%nat).
  { rewrite app_length in L. destruct e; [congruence|]. simpl in L. lia. }
  cbn [read_ranges]. destruct (Z.ltb_spec found n); [|lia].
  apply app_eq_app in Eq as (l & [[Ee Eu]|[Ee Eu]]).
  - destruct l as [|b l].
    + rewrite app_nil_r in Ee. subst e1. rewrite <- (app_nil_r e), (Hc _ _ _ H). cbn [bind].
      rewrite (IH [] es); auto; [simpl in Eu; congruence|lia].
    + rewrite (He e1 (b :: l) x); auto; [congruence|discriminate].
  - subst e1. rewrite (Hc _ _ _ H). cbn [bind]. rewrite (IH l e2); auto. lia.
Qed.

Lemma read_ranges_fuel width rd : range_reader width rd -> forall fuel k n found s,
  (length s < fuel)%nat -> (fuel <= k)%nat ->
  read_ranges rd fuel n found s = read_ranges rd k n found s.
Proof.
  intros (Hs & _). induction fuel as [|fuel IH]; intros k n found s L Lk; [lia|].
  destruct k as [|k]; [lia|]. cbn [read_ranges]. destruct (found <? n); auto.
  destruct (rd s) as [[x s1]| | |] eqn:R; auto. cbn [bind].
  rewrite (IH k n (found + (1 + left_count x)) s1); auto; [|lia].
  apply Hs in R as (e & -> & Ex). apply range_consumes in Ex.
  rewrite app_length in L. destruct e; [congruence|]. simpl in L. lia.
Qed.

(** ** Character sets *)

Definition sane_count (n : Z) : Prop := 1 <= n < 2 ^ 62.

Lemma sub_one cfg n : sane_count n -> sub_usize cfg n 1 = Ok (n - 1).
Proof.
  intros H. unfold sub_usize, in_u64, sane_count in *.
  destruct (Z.leb_spec 0 (n - 1)), (Z.ltb_spec (n - 1) (2 ^ 64)); try lia. reflexivity.
Qed.

Lemma read_character_set_complete cfg n : sane_count n ->
  complete (read_character_set cfg n) (character_set_encoding n).
Proof.
  intros S e c r H. destruct H as [ids L F|e ranges E C|e ranges E C].
  - cbn [app]. unfold read_character_set, peek_u8, read_character_set0. cbn [take_u8 bind].
    change (bz x00) with 0. cbn [Z.eqb negb]. rewrite (sub_one cfg n S). cbn [bind].
    rewrite (take_vec_complete _ _ _ u16_encoding _ (flat_map (be_bytes 2) ids) ids);
      auto using take_u16_sound, take_u16_complete, u16_consumes.
    + unfold isize_max, sane_count in *. lia.
    + apply each_u16. auto.
  - cbn [app]. unfold read_character_set, peek_u8, read_character_set1. cbn [take_u8 bind].
    change (bz x01) with 1. cbn [Z.eqb negb Pos.eqb].
    rewrite (read_ranges_complete 1 _ range1_reader _ _ E _ n); [|rewrite app_length; lia|lia].
    cbn [bind]. rewrite Z.eqb_refl. reflexivity.
  - cbn [app]. unfold read_character_set, peek_u8, read_character_set2. cbn [take_u8 bind].
    change (bz x02) with 2. cbn [Z.eqb negb Pos.eqb].
    rewrite (read_ranges_complete 2 _ range2_reader _ _ E _ n); [|rewrite app_length; lia|lia].
    cbn [bind]. rewrite Z.eqb_refl. reflexivity.
Qed.

Lemma byte_is b z : bz b = bz z -> b = z.
Proof. apply bz_inj. Qed.

Lemma read_character_set_sound cfg n : sane_count n ->
  sound (read_character_set cfg n) (character_set_encoding n).
Proof.
  intros S s c r H. unfold read_character_set in H. destruct s as [|b s]; [discriminate|].
  unfold peek_u8 in H. cbn [take_u8 bind] in H.
  destruct (Z.eqb_spec (bz b) 0) as [E0|_].
  { assert (b = x00) as -> by (apply byte_is; assumption).
    unfold read_character_set0 in H. cbn [take_u8 bind] in H. change (bz x00) with 0 in H.
    cbn [Z.eqb negb] in H. rewrite (sub_one cfg n S) in H. cbn [bind] in H. inv_ok H.
    destruct a as [ids s2]. injection H as <- <-.
    apply (take_vec_sound _ _ _ u16_encoding) in H0 as (L & e & -> & E);
      auto using take_u16_sound, u16_consumes; [|unfold sane_count in S; lia].
    apply each_u16 in E as (F & ->). eexists. split; [|apply set_format0; eauto]. reflexivity. }
  destruct (Z.eqb_spec (bz b) 1) as [E1|_].
  { assert (b = x01) as -> by (apply byte_is; assumption).
    unfold read_character_set1 in H. cbn [take_u8 bind] in H. change (bz x01) with 1 in H.
    cbn [Z.eqb negb Pos.eqb] in H. inv_ok H. destruct a as [[ranges found] s2].
    destruct (Z.eqb_spec found n); [|discriminate]. injection H as <- <-.
    apply (read_ranges_sound 1 _ range1_reader) in H0 as (e' & -> & E & Ef).
    exists (x01 :: e'). split; auto. apply set_format1; auto. lia. }
  destruct (Z.eqb_spec (bz b) 2) as [E2|_]; [|discriminate].
  assert (b = x02) as -> by (apply byte_is; assumption).
  unfold read_character_set2 in H. cbn [take_u8 bind] in H. change (bz x02) with 2 in H.
  cbn [Z.eqb negb Pos.eqb] in H. inv_ok H. destruct a as [[ranges found] s2].
  destruct (Z.eqb_spec found n); [|discriminate]. injection H as <- <-.
  apply (read_ranges_sound 2 _ range2_reader) in H0 as (e' & -> & E & Ef).
  exists (x02 :: e'). split; auto. apply set_format2; auto. lia.
Qed.

Lemma read_character_set_total cfg n : sane_count n -> total (read_character_set cfg n).
Proof.
  intros S s. unfold read_character_set. destruct s as [|b s]; [exact I|].
  unfold peek_u8. cbn [take_u8 bind].
  destruct (bz b =? 0).
  { unfold read_character_set0. cbn [take_u8 bind]. destruct (negb (bz b =? 0)); [exact I|].
    rewrite (sub_one cfg n S). cbn [bind]. apply settled_bind.
    - apply take_vec_total; [apply take_u16_total|]. unfold isize_max, sane_count in *. lia.
    - intros [x s2] _. exact I. }
  destruct (bz b =? 1).
  { unfold read_character_set1. cbn [take_u8 bind]. destruct (negb (bz b =? 1)); [exact I|].
    apply settled_bind; [apply (read_ranges_total 1 _ range1_reader); lia|].
    intros [[ranges found] s2] _. destruct (negb (found =? n)); exact I. }
  destruct (bz b =? 2); [|exact I].
  unfold read_character_set2. cbn [take_u8 bind]. destruct (negb (bz b =? 2)); [exact I|].
  apply settled_bind; [apply (read_ranges_total 2 _ range2_reader); lia|].
  intros [[ranges found] s2] _. destruct (negb (found =? n)); exact I.
Qed.

Lemma read_character_set_eof cfg n : sane_count n ->
  eof (read_character_set cfg n) (character_set_encoding n).
Proof.
  intros S e1 e2 c H N. destruct e1 as [|b e1]; [reflexivity|].
  remember ((b :: e1) ++ e2) as w eqn:W. destruct H as [ids L F|e ranges E C|e ranges E C];
    cbn [app] in W; injection W as <- W.
  - unfold read_character_set, peek_u8, read_character_set0. cbn [take_u8 bind].
    change (bz x00) with 0. cbn [Z.eqb negb]. rewrite (sub_one cfg n S). cbn [bind].
    rewrite (take_vec_eof _ _ _ u16_encoding _ e1 e2 ids);
      auto using take_u16_sound, take_u16_complete, take_u16_eof, u16_consumes.
    + unfold isize_max, sane_count in *. lia.
    + apply each_u16. auto.
  - unfold read_character_set, peek_u8, read_character_set1. cbn [take_u8 bind].
    change (bz x01) with 1. cbn [Z.eqb negb Pos.eqb].
    rewrite (read_ranges_fuel 1 _ range1_reader _ (2 + length e + length e1)%nat) by lia.
    rewrite (read_ranges_eof 1 _ range1_reader _ _ E e1 e2); auto; lia.
  - unfold read_character_set, peek_u8, read_character_set2. cbn [take_u8 bind].
    change (bz x02) with 2. cbn [Z.eqb negb Pos.eqb].
    rewrite (read_ranges_fuel 2 _ range2_reader _ (2 + length e + length e1)%nat) by lia.
    rewrite (read_ranges_eof 2 _ range2_reader _ _ E e1 e2); auto; lia.
Qed.

Lemma character_set_iff cfg n s c r : sane_count n ->
  read_character_set cfg n s = Ok (c, r) <-> exists e, s = e ++ r /\ character_set_encoding n e c.
Proof.
  intros S. split.
  - apply read_character_set_sound, S.
  - intros (e & -> & E). apply read_character_set_complete; auto.
Qed.

Lemma run_length a b : length (run a b) = Z.to_nat (b - a + 1).
Proof. unfold run. rewrite map_length, seq_length. reflexivity. Qed.

(** An accepted table assigns a string to every glyph but the first. *)
Lemma character_set_assigned n e c : sane_count n -> character_set_encoding n e c ->
  Z.of_nat (length (assigned c)) = n - 1.
Proof.
  assert (G : forall width e ranges, each (range_encoding width) e ranges ->
    Z.of_nat (length (flat_map (fun x => run (first_string_id x) (first_string_id x + left_count x)) ranges))
    = covered ranges).
  { intros width e0 ranges H. induction H as [|e0 x es xs (B1 & B2 & _) E IH]; auto.
    cbn [flat_map covered fold_right]. fold (covered xs). rewrite app_length, Nat2Z.inj_add, IH, run_length. lia. }
  intros S H. destruct H as [ids L F|e ranges E C|e ranges E C]; cbn [assigned]; auto;
    rewrite (G _ _ _ E); lia.
Qed.

Lemma read_character_set_assigned cfg n s c r : sane_count n -> read_character_set cfg n s = Ok (c, r) ->
  Z.of_nat (length (assigned c)) = n - 1.
Proof.
  intros S H. apply (read_character_set_sound cfg n S) in H as (e & _ & E).
  apply (character_set_assigned n e c S E).
Qed.

(** ** Encodings *)

Definition u8_encoding (e : list byte) (v : Z) : Prop := exists b, e = [b] /\ v = bz b.

Lemma take_u8_sound : sound take_u8 u8_encoding.
Proof. intros s v r H. apply take_u8_ok in H as (b & -> & ->). exists [b]. split; auto. exists b. auto. Qed.
Lemma take_u8_complete : complete take_u8 u8_encoding.
Proof. intros e v r (b & -> & ->). reflexivity. Qed.
Lemma take_u8_total : total take_u8.
Proof. intros [|]; exact I. Qed.
Lemma take_u8_eof : eof take_u8 u8_encoding.
Proof.
  intros e1 e2 v (b & E & _) N. destruct e1; [reflexivity|]. injection E as -> E.
  apply app_eq_nil in E as [_ E]. congruence.
Qed.
Lemma u8_consumes : consumes u8_encoding.
Proof. intros e v (b & -> & _). discriminate. Qed.

Lemma each_u8 e vs : each u8_encoding e vs <-> vs = map bz e.
Proof.
  split.
  - induction 1 as [|e v es vs (b & -> & ->) E IH]; auto. cbn [app map]. congruence.
  - intros ->. induction e as [|b e IH]; [constructor|]. cbn [map].
    change (b :: e) with ([b] ++ e). constructor; auto. exists b. auto.
Qed.

Lemma read_code_range_sound : sound read_code_range code_range_encoding.
Proof.
  intros s v r H. destruct s as [|a [|b s]]; try discriminate. injection H as <- <-.
  exists [a; b]. split; auto. exists a, b. auto.
Qed.
Lemma read_code_range_complete : complete read_code_range code_range_encoding.
Proof. intros e v r (b1 & b2 & -> & ->). reflexivity. Qed.
Lemma read_code_range_total : total read_code_range.
Proof. intros [|? [|? ?]]; exact I. Qed.
Lemma read_code_range_eof : eof read_code_range code_range_encoding.
Proof.
  intros e1 e2 v (b1 & b2 & E & _) N. destruct e1 as [|? [|? e1]]; try reflexivity.
  injection E as -> -> E. apply app_eq_nil in E as [_ E]. congruence.
Qed.
Lemma code_range_consumes : consumes code_range_encoding.
Proof. intros e v (b1 & b2 & -> & _). discriminate. Qed.

Lemma read_supplement_sound : sound read_supplement supplement_encoding.
Proof.
  intros s v r H. destruct s as [|a [|b [|c s]]]; try discriminate.
  unfold read_supplement in H. cbn [take_u8 take_u16 bind] in H. rewrite <- be2 in H. injection H as <- <-.
  exists [a; b; c]. split; auto. exists a, b, c. auto.
Qed.
Lemma read_supplement_complete : complete read_supplement supplement_encoding.
Proof.
  intros e v r (b1 & b2 & b3 & -> & ->). unfold read_supplement. cbn [app take_u8 take_u16 bind].
  rewrite <- be2. reflexivity.
Qed.
Lemma read_supplement_total : total read_supplement.
Proof. intros [|? [|? [|? ?]]]; exact I. Qed.
Lemma read_supplement_eof : eof read_supplement supplement_encoding.
Proof.
  intros e1 e2 v (b1 & b2 & b3 & E & _) N. destruct e1 as [|? [|? [|? e1]]]; try reflexivity.
  injection E as -> -> -> E. apply app_eq_nil in E as [_ E]. congruence.
Qed.
Lemma supplement_consumes : consumes supplement_encoding.
Proof. intros e v (b1 & b2 & b3 & -> & _). discriminate. Qed.

Lemma small_vec b size : 0 <= size <= 4 -> bz b * size <= isize_max.
Proof. intros H. pose proof (bz_range b). unfold isize_max. nia. Qed.

Lemma high_bit b : (0 <? Z.land (bz b) 128) = (128 <=? bz b).
Proof.
  revert b. apply byte_forall. intros z H. rewrite bz_zb by lia.
  apply Bool.eqb_prop.
  apply (check_run (fun z => Bool.eqb (0 <? Z.land z 128) (128 <=? z)) 0 255); [vm_compute; reflexivity|lia].
Qed.

Lemma read_encoding_complete cfg : complete (read_encoding cfg) any_encoding.
Proof.
  intros e x r H. destruct H as [e x H|f n e supplements Hf Hn E].
  - destruct H as [n codes Hn|n e ranges Hn E].
    + cbn [app]. unfold read_encoding, peek_u8, read_encoding0. cbn [take_u8 bind].
      change (bz x00) with 0. cbn [Z.eqb negb take_u8 bind].
      rewrite (take_vec_complete _ _ _ u8_encoding _ codes (map bz codes));
        auto using take_u8_sound, take_u8_complete, u8_consumes.
      * apply small_vec. lia.
      * rewrite map_length. assumption.
      * apply each_u8. reflexivity.
    + cbn [app]. unfold read_encoding, peek_u8, read_encoding1. cbn [take_u8 bind].
      change (bz x01) with 1. cbn [Z.eqb Pos.eqb negb take_u8 bind].
      rewrite (take_vec_complete _ _ _ code_range_encoding _ e ranges);
        auto using read_code_range_sound, read_code_range_complete, code_range_consumes.
      apply small_vec. lia.
  - cbn [app]. unfold read_encoding, peek_u8. cbn [take_u8 bind].
    destruct (Z.eqb_spec (bz f) 0); [lia|]. destruct (Z.eqb_spec (bz f) 1); [lia|].
    rewrite high_bit. destruct (Z.leb_spec 128 (bz f)); [|lia].
    unfold read_encoding_supplemental. cbn [take_u8 bind].
    rewrite (take_vec_complete _ _ _ supplement_encoding _ e supplements);
      auto using read_supplement_sound, read_supplement_complete, supplement_consumes.
    apply small_vec. lia.
Qed.

Lemma read_encoding_sound cfg : sound (read_encoding cfg) any_encoding.
Proof.
  intros s x r H. destruct s as [|b s]; [discriminate|].
  unfold read_encoding, peek_u8 in H. cbn [take_u8 bind] in H. pose proof bz_range as R.
  destruct (Z.eqb_spec (bz b) 0) as [E0|_].
  { assert (b = x00) as -> by (apply byte_is; assumption).
    unfold read_encoding0 in H. cbn [take_u8 bind] in H. change (bz x00) with 0 in H.
    cbn [Z.eqb negb] in H. inv_ok H. destruct a as [n s2]. apply take_u8_ok in H0 as (n' & -> & ->).
    inv_ok H. destruct a as [codes s3]. injection H as <- <-.
    apply (take_vec_sound _ _ _ u8_encoding) in H0 as (L & e & -> & E);
      auto using take_u8_sound, u8_consumes; [|apply R].
    apply each_u8 in E as ->. rewrite map_length in L.
    exists ([x00; n'] ++ e). split; auto. apply any_plain, encoding_format0. auto. }
  destruct (Z.eqb_spec (bz b) 1) as [E1|_].
  { assert (b = x01) as -> by (apply byte_is; assumption).
    unfold read_encoding1 in H. cbn [take_u8 bind] in H. change (bz x01) with 1 in H.
    cbn [Z.eqb Pos.eqb negb] in H. inv_ok H. destruct a as [n s2]. apply take_u8_ok in H0 as (n' & -> & ->).
    inv_ok H. destruct a as [ranges s3]. injection H as <- <-.
    apply (take_vec_sound _ _ _ code_range_encoding) in H0 as (L & e & -> & E);
      auto using read_code_range_sound, code_range_consumes; [|apply R].
    exists ([x01; n'] ++ e). split; auto. apply any_plain, encoding_format1; auto. }
  rewrite high_bit in H. destruct (Z.leb_spec 128 (bz b)); [|discriminate].
  unfold read_encoding_supplemental in H. cbn [take_u8 bind] in H.
  inv_ok H. destruct a as [n s2]. apply take_u8_ok in H1 as (n' & -> & ->).
  inv_ok H. destruct a as [supplements s3]. injection H as <- <-.
  apply (take_vec_sound _ _ _ supplement_encoding) in H1 as (L & e & -> & E);
    auto using read_supplement_sound, supplement_consumes; [|apply R].
  exists ([b; n'] ++ e). split; auto. apply any_supplements; auto.
Qed.

Lemma read_encoding_total cfg : total (read_encoding cfg).
Proof.
  intros s. destruct s as [|b s]; [exact I|]. unfold read_encoding, peek_u8. cbn [take_u8 bind].
  destruct (bz b =? 0).
  { unfold read_encoding0. cbn [take_u8 bind]. destruct (negb (bz b =? 0)); [exact I|].
    destruct s as [|n s]; [exact I|]. cbn [take_u8 bind]. apply settled_bind.
    - apply take_vec_total; [apply take_u8_total|apply small_vec; lia].
    - intros [? ?] _. exact I. }
  destruct (bz b =? 1).
  { unfold read_encoding1. cbn [take_u8 bind]. destruct (negb (bz b =? 1)); [exact I|].
    destruct s as [|n s]; [exact I|]. cbn [take_u8 bind]. apply settled_bind.
    - apply take_vec_total; [apply read_code_range_total|apply small_vec; lia].
    - intros [? ?] _. exact I. }
  destruct (0 <? Z.land (bz b) 128); [|exact I].
  unfold read_encoding_supplemental. cbn [take_u8 bind]. destruct s as [|n s]; [exact I|].
  cbn [take_u8 bind]. apply settled_bind.
  - apply take_vec_total; [apply read_supplement_total|apply small_vec; lia].
  - intros [? ?] _. exact I.
Qed.

Lemma read_encoding_eof cfg : eof (read_encoding cfg) any_encoding.
Proof.
  intros e1 e2 x H N. destruct e1 as [|b e1]; [reflexivity|].
  remember ((b :: e1) ++ e2) as w eqn:W. destruct H as [e x H|f n e supplements Hf Hn E].
  - destruct H as [n codes Hn|n e ranges Hn E]; cbn [app] in W; injection W as <- W.
    + unfold read_encoding, peek_u8, read_encoding0. cbn [take_u8 bind].
      change (bz x00) with 0. cbn [Z.eqb negb take_u8 bind].
      destruct e1 as [|n' e1]; [reflexivity|]. cbn [app] in W. injection W as <- W. cbn [take_u8 bind].
      rewrite (take_vec_eof _ _ _ u8_encoding _ e1 e2 (map bz codes));
        auto using take_u8_sound, take_u8_complete, take_u8_eof, u8_consumes.
      * apply small_vec. lia.
      * rewrite map_length. assumption.
      * apply each_u8. congruence.
    + unfold read_encoding, peek_u8, read_encoding1. cbn [take_u8 bind].
      change (bz x01) with 1. cbn [Z.eqb Pos.eqb negb take_u8 bind].
      destruct e1 as [|n' e1]; [reflexivity|]. cbn [app] in W. injection W as <- W. cbn [take_u8 bind].
      rewrite (take_vec_eof _ _ _ code_range_encoding _ e1 e2 ranges);
        auto using read_code_range_sound, read_code_range_complete, read_code_range_eof, code_range_consumes.
      * apply small_vec. lia.
      * congruence.
  - cbn [app] in W. injection W as <- W. unfold read_encoding, peek_u8. cbn [take_u8 bind].
    destruct (Z.eqb_spec (bz f) 0); [lia|]. destruct (Z.eqb_spec (bz f) 1); [lia|].
    rewrite high_bit. destruct (Z.leb_spec 128 (bz f)); [|lia].
    unfold read_encoding_supplemental. cbn [take_u8 bind].
    destruct e1 as [|n' e1]; [reflexivity|]. cbn [app] in W. injection W as <- W. cbn [take_u8 bind].
    rewrite (take_vec_eof _ _ _ supplement_encoding _ e1 e2 supplements);
      auto using read_supplement_sound, read_supplement_complete, read_supplement_eof, supplement_consumes.
    + apply small_vec. lia.
    + congruence.
Qed.

Lemma plain_encoding_iff cfg s x r : (forall f t, s = f :: t -> bz f < 128) ->
  read_encoding cfg s = Ok (x, r) <-> exists e, s = e ++ r /\ plain_encoding e x.
Proof.
  intros B. split.
  - intros H. apply read_encoding_sound in H as (e & -> & E). exists e. split; auto.
    destruct E as [e x E|f n e supplements Hf _ _]; auto.
    specialize (B f (n :: e ++ r) eq_refl). lia.
  - intros (e & -> & E). apply read_encoding_complete. apply any_plain, E.
Qed.

Lemma other_formats cfg f t : 2 <= bz f < 128 -> read_encoding cfg (f :: t) = Err Other.
Proof.
  intros H. unfold read_encoding, peek_u8. cbn [take_u8 bind].
  destruct (Z.eqb_spec (bz f) 0); [lia|]. destruct (Z.eqb_spec (bz f) 1); [lia|].
  rewrite high_bit. destruct (Z.leb_spec 128 (bz f)); [lia|]. reflexivity.
Qed.

(** ** Statements in the form of the properties *)

Lemma iso_adobe_refuted : exists id, 0 <= id <= 228 /\
  character_set_get ISOAdobe id <> predefined_name iso_adobe_glyphs id.
Proof. exists 0. split; [lia|]. vm_compute. discriminate. Qed.

Lemma expert_refuted : exists id, 0 <= id < Z.of_nat (length expert_glyphs) /\
  character_set_get ExpertSet id <> predefined_name expert_glyphs id.
Proof. exists 2. split; [vm_compute; split; [discriminate|reflexivity]|]. vm_compute. discriminate. Qed.

Lemma expert_subset_refuted : exists id, 0 <= id < Z.of_nat (length expert_subset_glyphs) /\
  character_set_get ExpertSubset id <> predefined_name expert_subset_glyphs id.
Proof. exists 2. split; [vm_compute; split; [discriminate|reflexivity]|]. vm_compute. discriminate. Qed.

Lemma expert_named_by_string id :
  (In id expert_glyphs -> id <> 0 -> character_set_get ExpertSet id = standard_name id) /\
  (~ In id expert_glyphs \/ id = 0 -> character_set_get ExpertSet id = None).
Proof.
  rewrite expert_by_string. split.
  - intros I N. apply member_in in I as ->. destruct (Z.eqb_spec id 0); [lia|]. reflexivity.
  - intros [N| ->].
    + destruct (member id expert_glyphs) eqn:M; auto. apply member_in in M. tauto.
    + rewrite andb_false_r. reflexivity.
Qed.

Lemma expert_subset_named_by_string id :
  (In id expert_subset_glyphs -> id <> 0 -> character_set_get ExpertSubset id = standard_name id) /\
  (~ In id expert_subset_glyphs \/ id = 0 -> character_set_get ExpertSubset id = None).
Proof.
  rewrite expert_subset_by_string. split.
  - intros I N. apply member_in in I as ->. destruct (Z.eqb_spec id 0); [lia|]. reflexivity.
  - intros [N| ->].
    + destruct (member id expert_subset_glyphs) eqn:M; auto. apply member_in in M. tauto.
    + rewrite andb_false_r. reflexivity.
Qed.

Lemma standard_encoding_inside code : 0 <= code <= 255 ->
  encoding_get Standard code = Some (encoded standard_runs code).
Proof.
  intros H. rewrite standard_encoding_spec.
  destruct (Z.leb_spec 0 code), (Z.leb_spec code 255); try lia. reflexivity.
Qed.

Lemma expert_encoding_inside code : 0 <= code <= 255 ->
  encoding_get ExpertEncoding code = Some (encoded expert_runs code).
Proof.
  intros H. rewrite expert_encoding_spec.
  destruct (Z.leb_spec 0 code), (Z.leb_spec code 255); try lia. reflexivity.
Qed.

Lemma predefined_encoding_outside code x : x = Standard \/ x = ExpertEncoding ->
  ~ (0 <= code <= 255) -> encoding_get x code = None.
Proof.
  intros [-> | ->] H; [rewrite standard_encoding_spec|rewrite expert_encoding_spec];
    destruct (Z.leb_spec 0 code), (Z.leb_spec code 255); try lia; reflexivity.
Qed.

Lemma predefined_encoding_named code x id : x = Standard \/ x = ExpertEncoding ->
  encoding_get x code = Some id -> exists name, standard_name id = Some name.
Proof.
  intros C H. destruct (Z_le_dec 0 code) as [L|L]; [destruct (Z_le_dec code 255) as [U|U]|].
  - destruct C as [-> | ->].
    + rewrite standard_encoding_inside in H by lia. injection H as <-. apply standard_runs_named. lia.
    + rewrite expert_encoding_inside in H by lia. injection H as <-. apply expert_runs_named. lia.
  - rewrite (predefined_encoding_outside code x C) in H by lia. discriminate.
  - rewrite (predefined_encoding_outside code x C) in H by lia. discriminate.
Qed.

Lemma standard_encoding_label code name : lookup_code code standard_encoding_labels = Some name ->
  exists id, encoding_get Standard code = Some id /\ standard_name id = Some name.
Proof.
  apply (encoding_labels Standard standard_encoding); [reflexivity|]. vm_compute. reflexivity.
Qed.

Lemma expert_encoding_label code name : lookup_code code expert_encoding_labels = Some name ->
  exists id, encoding_get ExpertEncoding code = Some id /\ standard_name id = Some name.
Proof.
  apply (encoding_labels ExpertEncoding expert_encoding); [reflexivity|]. vm_compute. reflexivity.
Qed.

Lemma format0_iff cfg n s ids r : sane_count n ->
  read_character_set cfg n s = Ok (CharSetFormat0 0 ids, r) <->
  Z.of_nat (length ids) = n - 1 /\ Forall (fun id => 0 <= id < 2 ^ 16) ids /\
  s = x00 :: flat_map (be_bytes 2) ids ++ r.
Proof.
  intros S. rewrite (character_set_iff _ _ _ _ _ S). split.
  - intros (e & -> & E). remember (CharSetFormat0 0 ids) as c eqn:Ec.
    destruct E; inversion Ec; subst; auto.
  - intros (L & F & ->). exists (x00 :: flat_map (be_bytes 2) ids). split; auto. constructor; auto.
Qed.

Lemma format0_read cfg n t c r : sane_count n ->
  read_character_set cfg n (x00 :: t) = Ok (c, r) -> exists ids, c = CharSetFormat0 0 ids.
Proof.
  intros S H. apply (character_set_iff _ _ _ _ _ S) in H as (e & E & H). destruct H; try discriminate.
  eauto.
Qed.

Lemma format1_iff cfg n t c r : sane_count n ->
  read_character_set cfg n (x01 :: t) = Ok (c, r) <->
  exists e ranges, c = CharSetFormat1 1 ranges /\ t = e ++ r /\
    each (range_encoding 1) e ranges /\ covered ranges = n - 1.
Proof.
  intros S. rewrite (character_set_iff _ _ _ _ _ S). split.
  - intros (e & E & H). destruct H; try discriminate. injection E as E. eauto 10.
  - intros (e & ranges & -> & -> & E & C). exists (x01 :: e). split; auto. constructor; auto.
Qed.

Lemma format2_iff cfg n t c r : sane_count n ->
  read_character_set cfg n (x02 :: t) = Ok (c, r) <->
  exists e ranges, c = CharSetFormat2 2 ranges /\ t = e ++ r /\
    each (range_encoding 2) e ranges /\ covered ranges = n - 1.
Proof.
  intros S. rewrite (character_set_iff _ _ _ _ _ S). split.
  - intros (e & E & H). destruct H; try discriminate. injection E as E. eauto 10.
  - intros (e & ranges & -> & -> & E & C). exists (x02 :: e). split; auto. constructor; auto.
Qed.

Lemma other_character_sets cfg n b t : 2 < bz b -> read_character_set cfg n (b :: t) = Err Other.
Proof.
  intros H. unfold read_character_set, peek_u8. cbn [take_u8 bind].
  destruct (Z.eqb_spec (bz b) 0); [lia|]. destruct (Z.eqb_spec (bz b) 1); [lia|].
  destruct (Z.eqb_spec (bz b) 2); [lia|]. reflexivity.
Qed.

(** Ranges that cover too much: an error, whatever follows. *)
Lemma overshoot width rd : range_reader width rd -> forall e ranges,
  each (range_encoding width) e ranges -> forall x ex fuel n found r,
  range_encoding width ex x -> (length e + length ex < fuel)%nat ->
  found + covered ranges < n -> n < found + covered ranges + 1 + left_count x ->
  exists found', read_ranges rd fuel n found (e ++ ex ++ r) = Ok ((ranges ++ [x], found'), r) /\ n < found'.
Proof.
  intros R e ranges H. pose proof R as (Hs & Hc & _).
  induction H as [|e y es ys H E IH]; intros x ex fuel n found r Hx L C1 C2.
  - cbn [covered fold_right] in *. destruct fuel as [|fuel]; [lia|]. cbn [read_ranges app].
    destruct (Z.ltb_spec found n); [|lia]. rewrite (Hc _ _ _ Hx). cbn [bind].
    pose proof (range_consumes _ _ _ Hx). destruct ex; [congruence|]. simpl in L.
    destruct fuel as [|fuel]; [lia|]. cbn [read_ranges].
    destruct (Z.ltb_spec (found + (1 + left_count x)) n); [lia|]. eexists. split; [reflexivity|lia].
  - cbn [covered fold_right] in *. fold (covered ys) in *. pose proof (covered_nonneg _ _ _ E).
    destruct H as (B1 & B2 & He). destruct fuel as [|fuel]; [lia|]. cbn [read_ranges].
    destruct (Z.ltb_spec found n); [|lia]. rewrite <- app_assoc, (Hc e y); [|split; auto]. cbn [bind].
    assert (Ne : e <> []) by (rewrite He; discriminate).
    destruct (IH x ex fuel n (found + (1 + left_count y)) r) as (f & Ef & B); auto; try lia.
    { rewrite app_length in L. destruct e; [congruence|]. simpl in L. lia. }
    rewrite Ef. cbn [bind]. eauto.
Qed.

Lemma format1_overshoot cfg n e ranges ex x r : sane_count n ->
  each (range_encoding 1) e ranges -> range_encoding 1 ex x ->
  covered ranges < n - 1 -> n - 1 < covered (ranges ++ [x]) ->
  read_character_set cfg n (x01 :: e ++ ex ++ r) = Err Other.
Proof.
  intros S E Ex C1 C2. unfold read_character_set, peek_u8, read_character_set1. cbn [take_u8 bind].
  change (bz x01) with 1. cbn [Z.eqb Pos.eqb negb].
  assert (A : covered (ranges ++ [x]) = covered ranges + 1 + left_count x).
  { clear. induction ranges as [|y ys IH]; cbn [covered fold_right app]; [lia|].
    fold (covered ys) (covered (ys ++ [x])). lia. }
  destruct (overshoot 1 _ range1_reader _ _ E x ex (1 + length (e ++ ex ++ r))%nat n 1 r)
    as (f & Ef & B); auto; try lia.
  { rewrite !app_length. lia. }
  change (1 + length (e ++ ex ++ r))%nat with (Datatypes.S (length (e ++ ex ++ r))) in Ef. rewrite Ef.
  cbn [bind]. destruct (Z.eqb_spec f n); [lia|]. reflexivity.
Qed.

Lemma format2_overshoot cfg n e ranges ex x r : sane_count n ->
  each (range_encoding 2) e ranges -> range_encoding 2 ex x ->
  covered ranges < n - 1 -> n - 1 < covered (ranges ++ [x]) ->
  read_character_set cfg n (x02 :: e ++ ex ++ r) = Err Other.
Proof.
  intros S E Ex C1 C2. unfold read_character_set, peek_u8, read_character_set2. cbn [take_u8 bind].
  change (bz x02) with 2. cbn [Z.eqb Pos.eqb negb].
  assert (A : covered (ranges ++ [x]) = covered ranges + 1 + left_count x).
  { clear. induction ranges as [|y ys IH]; cbn [covered fold_right app]; [lia|].
    fold (covered ys) (covered (ys ++ [x])). lia. }
  destruct (overshoot 2 _ range2_reader _ _ E x ex (1 + length (e ++ ex ++ r))%nat n 1 r)
    as (f & Ef & B); auto; try lia.
  { rewrite !app_length. lia. }
  change (1 + length (e ++ ex ++ r))%nat with (Datatypes.S (length (e ++ ex ++ r))) in Ef. rewrite Ef.
  cbn [bind]. destruct (Z.eqb_spec f n); [lia|]. reflexivity.
Qed.

(** Supplements behind codes are lost. *)
Lemma supplements_refuted cfg : exists codes es supplements e x r,
  supplements <> [] /\ supplemented_codes codes es supplements e /\
  read_encoding cfg e = Ok (x, r) /\ supplements_of x <> supplements.
Proof.
  exists [x41; x42], [x44; x00; x22], [{| supplement_code := 68; supplement_glyph := 34 |}].
  exists [x80; x02; x41; x42; x01; x44; x00; x22].
  exists (EncSupplemental 128 2 [{| supplement_code := 65; supplement_glyph := 16897 |};
                                 {| supplement_code := 68; supplement_glyph := 34 |}]), [].
  split; [discriminate|]. split.
  - exists x02, x01. repeat split. rewrite <- (app_nil_r [x44; x00; x22]).
    constructor; [|constructor]. exists x44, x00, x22. split; reflexivity.
  - split; [|discriminate]. destruct cfg as [o d []]; reflexivity.
Qed.

Lemma supplements_only cfg f n t x r : 128 <= bz f ->
  read_encoding cfg (f :: n :: t) = Ok (x, r) <->
  exists (e : list byte) supplements, x = EncSupplemental (bz f) (bz n) supplements /\ t = e ++ r /\
    each supplement_encoding e supplements /\ bz n = Z.of_nat (length supplements).
Proof.
  intros B. split.
  - intros H. apply read_encoding_sound in H as (e & E & H). destruct H as [e x H|f' n' e supplements Hf Hn H].
    + destruct H; injection E as -> E; change (bz x00) with 0 in B; change (bz x01) with 1 in B; lia.
    + injection E as -> -> ->. eauto 10.
  - intros (e & supplements & -> & -> & E & L).
    apply (read_encoding_complete cfg ([f; n] ++ e)). apply any_supplements; auto.
Qed.

Lemma custom_set_silent n e c id : character_set_encoding n e c -> character_set_get c id = None.
Proof. destruct 1; reflexivity. Qed.

Lemma custom_encoding_silent e x code : any_encoding e x -> encoding_get x code = None.
Proof. destruct 1 as [e x H|]; [destruct H|]; reflexivity. Qed.

Lemma custom_set_unanswered cfg n s c r id : sane_count n ->
  read_character_set cfg n s = Ok (c, r) -> character_set_get c id = None.
Proof.
  intros S H. apply read_character_set_sound in H as (e & _ & H); auto. eapply custom_set_silent; eauto.
Qed.

Lemma custom_encoding_unanswered cfg s x r code :
  read_encoding cfg s = Ok (x, r) -> encoding_get x code = None.
Proof. intros H. apply read_encoding_sound in H as (e & _ & H). eapply custom_encoding_silent; eauto. Qed.

Lemma custom_set_refuted cfg : exists s c r glyph id name,
  read_character_set cfg 3 s = Ok (c, r) /\ 1 <= glyph < 3 /\
  nth_error (assigned c) (Z.to_nat glyph - 1) = Some id /\ standard_name id = Some name /\
  character_set_get c glyph <> Some name.
Proof.
  exists [x01; x00; x22; x01], (CharSetFormat1 1 [{| first_string_id := 34; left_count := 1 |}]), [].
  exists 2, 35, "B"%string. repeat split; discriminate.
Qed.

Lemma custom_encoding_refuted cfg : exists s codes r,
  read_encoding cfg s = Ok (EncFormat0 0 1 codes, r) /\ In 65 codes /\
  encoding_get (EncFormat0 0 1 codes) 65 = None.
Proof.
  exists [x00; x01; x41], [65], []. split; [|split; [left; reflexivity|reflexivity]].
  destruct cfg as [o d []]; reflexivity.
Qed.

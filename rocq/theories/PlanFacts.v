(** PlanFacts: what is asked for changes nothing about what is read. *)
From Verif Require Import Base Float C1Number C1Operation C1Index C1Glyphs C1FontSet C1Tape C1Plan BaseFacts
  SpecNumber NumberFacts SpecOperation OperationFacts SpecIndex IndexFacts StringFacts SpecGlyphs GlyphFacts
  SpecFontSet FontSetFacts LayoutFacts SpecFile FileFacts SpecTape TapeFacts.
Local Open Scope list_scope.
Local Open Scope Z_scope.

Notation result tape m := (fst (carried_out tape m)).
Notation asked tape m := (snd (carried_out tape m)).

(** ** Sequences *)

Lemma carried_thereafter {A B} tape (m : plan A) (k : A -> plan B) :
  carried_out tape (thereafter m k) =
  match carried_out tape m with
  | (Ok a, t) => let (o, t') := carried_out tape (k a) in (o, t ++ t')
  | (Err e, t) => (Err e, t)
  | (Panic w, t) => (Panic w, t)
  | (OutOfFuel, t) => (OutOfFuel, t)
  end.
Proof.
  induction m as [o|p next IH].
  - destruct o; cbn; try reflexivity. destruct (carried_out tape (k a)); reflexivity.
  - cbn [thereafter carried_out]. destruct (byte_at tape p) as [b|]; [|reflexivity]. rewrite IH.
    destruct (carried_out tape (next b)) as [[a| | |] t]; try reflexivity.
    destruct (carried_out tape (k a)); reflexivity.
Qed.

Lemma result_thereafter {A B} tape (m : plan A) (k : A -> plan B) :
  result tape (thereafter m k) = bind (result tape m) (fun a => result tape (k a)).
Proof.
  rewrite carried_thereafter. destruct (carried_out tape m) as [[a| | |] t]; try reflexivity.
  cbn. destruct (carried_out tape (k a)); reflexivity.
Qed.

Lemma asked_thereafter {A B} tape (m : plan A) (k : A -> plan B) :
  asked tape (thereafter m k) =
  asked tape m ++ match result tape m with Ok a => asked tape (k a) | _ => [] end.
Proof.
  rewrite carried_thereafter. destruct (carried_out tape m) as [[a| | |] t]; cbn [fst snd];
    try (rewrite app_nil_r; reflexivity).
  destruct (carried_out tape (k a)); reflexivity.
Qed.

(** ** Agreement of readers *)

(** A reader returns what remains of what it was given. *)
Definition suffix {A} (rd : reader A) : Prop := forall s a r, rd s = Ok (a, r) -> exists e, s = e ++ r.

Definition agrees {A} (pl : planner A) (rd : reader A) : Prop :=
  suffix rd /\ forall tape here, 0 <= here -> result tape (pl here) = taken rd tape here.

Lemma sound_suffix {A} (rd : reader A) enc : sound rd enc -> suffix rd.
Proof. intros H s a r E. apply H in E as (e & E & _). eauto. Qed.

Lemma agrees_done {A} (a : A) : agrees (fun here => Done (Ok (a, here))) (fun s => Ok (a, s)).
Proof.
  split.
  - intros s x r E. injection E as <- <-. exists []. reflexivity.
  - intros tape here H. cbn. f_equal. f_equal. lia.
Qed.

Lemma agrees_fail {A} (o : outcome (A * Z)) (o' : outcome (A * list byte)) :
  match o, o' with Err e, Err e' => e = e' | Panic w, Panic w' => w = w' | OutOfFuel, OutOfFuel => True | _, _ => False end ->
  agrees (fun _ => Done o) (fun _ => o').
Proof.
  intros H. split.
  - intros s a r E. subst o'. destruct o; contradiction.
  - intros tape here _. cbn. unfold taken. destruct o, o'; try contradiction; subst; reflexivity.
Qed.

Lemma agrees_bind {A B} (pl : planner A) rd (pk : A -> planner B) k :
  agrees pl rd -> (forall a, agrees (pk a) (k a)) ->
  agrees (fun here => let! (a, here) := pl here in pk a here) (fun s => let* (a, r) := rd s in k a r).
Proof.
  intros [S1 H1] H2. split.
  - intros s b r E. apply bind_iff in E as ([a r'] & R & E). apply S1 in R as (e & ->).
    apply (proj1 (H2 a)) in E as (e' & ->). exists (e ++ e'). rewrite app_assoc. reflexivity.
  - intros tape here H. rewrite result_thereafter, H1 by assumption. unfold taken.
    rewrite !bind_assoc. destruct (rd (rest_at tape here)) as [[a r]| | |] eqn:R; try reflexivity.
    cbn [bind]. apply S1 in R as (e & E). rewrite (proj2 (H2 a)).
    2:{ rewrite E, app_length. lia. }
    unfold taken. rewrite E, app_length.
    replace (here + (Z.of_nat (length e + length r) - Z.of_nat (length r))) with (here + Z.of_nat (length e)) by lia.
    rewrite (rest_at_behind tape here e r) by assumption.
    destruct (k a r) as [[b r']| | |] eqn:K; try reflexivity. cbn [bind]. apply (proj1 (H2 a)) in K as (e' & ->).
    rewrite !app_length. f_equal. f_equal. lia.
Qed.

(** The same with computations in between that do not use the tape. *)
Lemma agrees_pure {A B} (o : outcome A) (pk : A -> planner B) k : (forall a, agrees (pk a) (k a)) ->
  agrees (fun here => let! a := Done o in pk a here) (fun s => let* a := o in k a s).
Proof.
  intros H. split.
  - intros s b r E. apply bind_iff in E as (a & _ & E). exact (proj1 (H a) _ _ _ E).
  - intros tape here Hh. rewrite result_thereafter. unfold taken. destruct o; cbn; try reflexivity.
    apply (proj2 (H a)), Hh.
Qed.

Lemma agrees_peek {A} (pk : Z -> planner A) k : (forall b, agrees (pk b) (k b)) ->
  agrees (fun here => let! b := peek_plan here in pk b here) (fun s => let* b := peek_u8 s in k b s).
Proof.
  intros H. split.
  - intros s b r E. apply bind_iff in E as (a & _ & E). exact (proj1 (H a) _ _ _ E).
  - intros tape here Hh. unfold peek_plan, u8_plan, byte_plan. cbn [thereafter carried_out].
    unfold taken, byte_at. destruct (rest_at tape here) as [|b s] eqn:E; [reflexivity|]. cbn [hd_error].
    change (peek_u8 (b :: s)) with (Ok (bz b)). cbn [bind].
    pose proof (proj2 (H (bz b)) tape here Hh) as G. unfold taken in G. rewrite E in G. rewrite <- G.
    destruct (carried_out tape (pk (bz b) here)); reflexivity.
Qed.

Lemma agrees_if {A} (c : bool) (p1 p2 : planner A) r1 r2 : agrees p1 r1 -> agrees p2 r2 ->
  agrees (fun here => if c then p1 here else p2 here) (fun s => if c then r1 s else r2 s).
Proof. destruct c; auto. Qed.

Lemma agrees_same {A} (pl pl' : planner A) rd rd' : agrees pl rd ->
  (forall here, pl' here = pl here) -> (forall s, rd' s = rd s) -> agrees pl' rd'.
Proof.
  intros [S1 H] P R. split.
  - intros s a r E. rewrite R in E. eauto.
  - intros tape here Hh. rewrite P, H by assumption. unfold taken. rewrite R. reflexivity.
Qed.

Lemma byte_agrees : agrees byte_plan take_byte.
Proof.
  split.
  - intros [|b s] a r E; [discriminate|]. injection E as <- <-. exists [b]. reflexivity.
  - intros tape here H. unfold byte_plan, taken, byte_at, take_byte. cbn [carried_out].
    unfold byte_at. destruct (rest_at tape here) as [|b s] eqn:E; [reflexivity|].
    cbn [hd_error fst bind length]. f_equal. f_equal. lia.
Qed.

Lemma u8_agrees : agrees u8_plan take_u8.
Proof.
  eapply agrees_same.
  - apply (agrees_bind _ _ (fun b here => Done (Ok (bz b, here))) (fun b s => Ok (bz b, s)) byte_agrees).
    intros b. apply agrees_done.
  - reflexivity.
  - intros [|b s]; reflexivity.
Qed.

Lemma u16_agrees : agrees u16_plan take_u16.
Proof.
  eapply agrees_same.
  - eapply agrees_bind; [exact byte_agrees|]. intros b1. eapply agrees_bind; [exact byte_agrees|]. intros b0.
    apply (agrees_done (bz b1 * 2 ^ 8 + bz b0)).
  - reflexivity.
  - intros [|b1 [|b0 s]]; reflexivity.
Qed.

Lemma u8x3_agrees : agrees u8x3_plan take_u8x3.
Proof.
  eapply agrees_same.
  - eapply agrees_bind; [exact byte_agrees|]. intros b2. eapply agrees_bind; [exact byte_agrees|]. intros b1.
    eapply agrees_bind; [exact byte_agrees|]. intros b0. apply (agrees_done (bz b2, bz b1, bz b0)).
  - reflexivity.
  - intros [|b2 [|b1 [|b0 s]]]; reflexivity.
Qed.

Lemma u32_agrees : agrees u32_plan take_u32.
Proof.
  eapply agrees_same.
  - eapply agrees_bind; [exact byte_agrees|]. intros b3. eapply agrees_bind; [exact byte_agrees|]. intros b2.
    eapply agrees_bind; [exact byte_agrees|]. intros b1. eapply agrees_bind; [exact byte_agrees|]. intros b0.
    apply (agrees_done (bz b3 * 2 ^ 24 + bz b2 * 2 ^ 16 + bz b1 * 2 ^ 8 + bz b0)).
  - reflexivity.
  - intros [|b3 [|b2 [|b1 [|b0 s]]]]; reflexivity.
Qed.

Lemma n_agrees {A} (pl : planner A) rd n : agrees pl rd -> agrees (n_plan pl n) (take_n rd n).
Proof.
  intros H. induction n as [|n IH]; cbn [n_plan take_n]; [apply agrees_done|].
  eapply agrees_bind; [exact H|]. intros x. eapply agrees_bind; [exact IH|]. intros xs. apply agrees_done.
Qed.

Lemma vec_agrees {A} cfg size (pl : planner A) rd enc n :
  agrees pl rd -> sound rd enc -> consumes enc -> agrees (vec_plan cfg size pl n) (take_vec cfg size rd n).
Proof.
  intros H Hs Hc. eapply agrees_same.
  - apply (agrees_if (preallocates cfg && (isize_max <? n * size)));
      [apply (agrees_fail (Panic CapacityOverflow) (Panic CapacityOverflow)); reflexivity|apply n_agrees, H].
  - reflexivity.
  - intros s. destruct (Z.leb_spec 0 n) as [Hn|Hn]; [exact (take_vec_loop cfg size rd enc n s Hs Hc Hn)|].
    unfold take_vec. rewrite Z.min_l by lia. reflexivity.
Qed.


(** ** Tables *)

Ltac goes := first
  [ exact byte_agrees | exact u8_agrees | exact u16_agrees | exact u8x3_agrees | exact u32_agrees
  | apply agrees_done | apply agrees_fail; first [reflexivity | exact I] | assumption
  | apply agrees_if | apply agrees_pure; intros ? | apply agrees_peek; intros ?
  | eapply agrees_bind; [|intros ?] ].

Lemma offset_agrees size : agrees (offset_plan size) (read_offset size).
Proof.
  unfold offset_plan, read_offset. do 2 (apply agrees_if; [goes|]). apply agrees_if; [|repeat goes].
  eapply agrees_bind; [goes|]. intros ((v0 & v1) & v2). goes.
Qed.

Lemma elements_agree cfg offs : agrees (elements_plan cfg offs) (read_elements cfg offs).
Proof.
  induction offs as [|o1 [|o2 offs] IH]; [repeat goes|repeat goes|].
  cbn [elements_plan read_elements]. destruct (Z.ltb_spec o2 o1); [goes|].
  goes; [|goes; [exact IH|goes]].
  eapply vec_agrees; [goes|apply take_byte_sound|intros e v ->; discriminate].
Qed.

Lemma index_agrees cfg : agrees (index_plan cfg) (read_index cfg).
Proof.
  unfold index_plan, read_index. goes; [goes|]. goes; [goes|]. goes; [goes|].
  goes; [apply n_agrees, offset_agrees|]. destruct a1 as [|[|[| |]|] offs]; try goes; [apply elements_agree|goes].
Qed.

Lemma character_strings_agree cfg format : agrees (character_strings_plan cfg format) (read_character_strings cfg format).
Proof. unfold character_strings_plan, read_character_strings. goes; [apply index_agrees|goes]. Qed.

Lemma header_agrees : agrees header_plan read_header.
Proof. unfold header_plan, read_header. repeat goes. Qed.

Lemma range1_agrees : agrees range1_plan read_range1.
Proof. unfold range1_plan, read_range1. repeat goes. Qed.

Lemma range2_agrees : agrees range2_plan read_range2.
Proof. unfold range2_plan, read_range2. repeat goes. Qed.

Lemma ranges_agree pl rd fuel n : agrees pl rd -> forall found,
  agrees (ranges_plan pl fuel n found) (read_ranges rd fuel n found).
Proof.
  intros H. induction fuel as [|fuel IH]; intros found; cbn [ranges_plan read_ranges].
  - goes; goes.
  - goes; [|goes]. eapply agrees_bind; [exact H|]. intros range. eapply agrees_bind; [apply IH|]. intros (ranges & found'). goes.
Qed.

(** Enough fuel is enough. *)
Lemma ranges_fuel width rd n : range_reader width rd -> forall f1 f2 found s,
  (n - found <= Z.of_nat f1 \/ (length s < f1)%nat) -> (n - found <= Z.of_nat f2 \/ (length s < f2)%nat) ->
  read_ranges rd f1 n found s = read_ranges rd f2 n found s.
Proof.
  intros (Hs & _) f1. induction f1 as [|f1 IH]; intros f2 found s L1 L2.
  - destruct f2; cbn [read_ranges]; destruct (Z.ltb_spec found n); try reflexivity; lia.
  - destruct f2 as [|f2]; cbn [read_ranges]; destruct (Z.ltb_spec found n); try reflexivity; [lia|].
    destruct (rd s) as [[x s1]| | |] eqn:R; try reflexivity. cbn [bind].
    apply Hs in R as (e & -> & X). pose proof (range_consumes _ _ _ X) as N. destruct X as (_ & B & _).
    rewrite app_length in *. destruct e as [|b e]; [congruence|]. cbn [length] in *.
    rewrite (IH f2); [reflexivity|lia|lia].
Qed.

Lemma character_set_agrees cfg n : agrees (character_set_plan cfg n) (read_character_set cfg n).
Proof.
  unfold character_set_plan, read_character_set. goes. goes; [|goes; [|goes; [|goes]]].
  - unfold character_set0_plan, read_character_set0. goes; [goes|]. goes; [goes|]. goes.
    goes; [|goes].
    eapply vec_agrees; [goes|apply take_u16_sound|apply u16_consumes].
  - unfold character_set1_plan, read_character_set1. goes; [goes|]. goes; [goes|].
    eapply agrees_bind with (rd := fun s => read_ranges read_range1 (S (length s)) n 1 s).
    + eapply agrees_same; [apply ranges_agree, range1_agrees|reflexivity|].
      intros s. apply (ranges_fuel 1); [apply range1_reader|right; lia|left; lia].
    + intros (ranges & found). repeat goes.
  - unfold character_set2_plan, read_character_set2. goes; [goes|]. goes; [goes|].
    eapply agrees_bind with (rd := fun s => read_ranges read_range2 (S (length s)) n 1 s).
    + eapply agrees_same; [apply ranges_agree, range2_agrees|reflexivity|].
      intros s. apply (ranges_fuel 2); [apply range2_reader|right; lia|left; lia].
    + intros (ranges & found). repeat goes.
Qed.

Lemma code_range_agrees : agrees code_range_plan read_code_range.
Proof. unfold code_range_plan, read_code_range. repeat goes. Qed.

Lemma supplement_agrees : agrees supplement_plan read_supplement.
Proof. unfold supplement_plan, read_supplement. repeat goes. Qed.

Lemma encoding_agrees cfg : agrees (encoding_plan cfg) (read_encoding cfg).
Proof.
  unfold encoding_plan, read_encoding. goes. goes; [|goes; [|goes; [|goes]]].
  - unfold encoding0_plan, read_encoding0. goes; [goes|]. goes; [goes|]. goes; [goes|]. goes; [|goes].
    eapply vec_agrees; [goes|apply take_u8_sound|apply u8_consumes].
  - unfold encoding1_plan, read_encoding1. goes; [goes|]. goes; [goes|]. goes; [goes|]. goes; [|goes].
    eapply vec_agrees; [apply code_range_agrees|apply read_code_range_sound|apply code_range_consumes].
  - unfold encoding_supplemental_plan, read_encoding_supplemental. goes; [goes|]. goes; [goes|]. goes; [|goes].
    eapply vec_agrees; [apply supplement_agrees|apply read_supplement_sound|apply supplement_consumes].
Qed.

Lemma range3_agrees : agrees range3_plan read_range3.
Proof. unfold range3_plan, read_range3. repeat goes. Qed.

Lemma dictionary_encoding_agrees cfg n : agrees (dictionary_encoding_plan cfg n) (read_dictionary_encoding cfg n).
Proof.
  unfold dictionary_encoding_plan, read_dictionary_encoding. goes. goes; [|goes; [|goes]].
  - unfold dictionary_encoding0_plan, read_dictionary_encoding0. goes; [goes|]. goes; [goes|]. goes; [|goes].
    eapply vec_agrees; [goes|apply take_u8_sound|apply u8_consumes].
  - unfold dictionary_encoding3_plan, read_dictionary_encoding3. goes; [goes|]. goes; [goes|]. goes; [goes|].
    goes; [|goes; [goes|goes]].
    eapply vec_agrees; [apply range3_agrees|apply read_range3_sound|apply range3_consumes].
Qed.

(** ** Font sets *)

Lemma jumped_nonneg cfg p offset here : 0 <= p -> jumped cfg p offset = Ok here -> 0 <= here.
Proof. intros Hp J. apply (jumped_iff _ _ _ _ Hp) in J. exact (located_nonneg _ _ _ _ J). Qed.

Lemma bind_same {A B} (m : outcome A) (k h : A -> outcome B) :
  (forall a, m = Ok a -> k a = h a) -> bind m k = bind m h.
Proof. intros H. destruct m; cbn; auto. Qed.

Section At.
  Context (cfg : config) (tape : list byte) (p : Z).
  Hypothesis Hp : 0 <= p.

  Lemma taken_nonneg {A} (rd : reader A) here a there : suffix rd -> 0 <= here -> taken rd tape here = Ok (a, there) -> 0 <= there.
  Proof.
    intros S H T. apply bind_iff in T as ([x r] & R & T). injection T as -> <-. apply S in R as (e & ->).
    rewrite app_length. lia.
  Qed.

  Ltac pure := rewrite result_thereafter; cbn [carried_out fst]; apply bind_same; intros ? ?.
  Ltac reads H := rewrite result_thereafter, (proj2 H) by (try (eapply jumped_nonneg; eassumption); assumption);
    apply bind_same; intros (? & ?) ?.

  Lemma private_plan_agrees top : result tape (private_plan cfg p top) = private_taken cfg tape p top.
  Proof.
    unfold private_plan, private_taken. pure. destruct a as (size & offset). pure.
    rewrite result_thereafter.
    rewrite (proj2 (vec_agrees cfg 1 byte_plan take_byte _ (as_usize size) byte_agrees take_byte_sound
      ltac:(intros ? ? ->; discriminate))) by (eapply jumped_nonneg; eassumption).
    apply bind_same. intros (chunk & there) _. pure. pure. destruct a1 as [another|]; [|reflexivity].
    pure. pure. reads (index_agrees cfg). reflexivity.
  Qed.

  Lemma privates_plan_agree tops : forall here,
    result tape (privates_plan cfg p here tops) = privates_taken cfg tape p here tops.
  Proof.
    induction tops as [|top tops IH]; intros here; [reflexivity|]. cbn [privates_plan privates_taken].
    rewrite result_thereafter, private_plan_agrees. apply bind_same. intros (r & there) _.
    rewrite result_thereafter, IH. apply bind_same. intros (rs & last) _. reflexivity.
  Qed.

  Lemma cid_plan_agrees top cs : result tape (cid_plan cfg p top cs) = cid_taken cfg tape p top cs.
  Proof.
    unfold cid_plan, cid_taken. destruct (operations_get top Op_ROS) as [[|a [|b [|c [|]]]]|]; try reflexivity.
    pure. pure. reads (dictionary_encoding_agrees cfg (count cs)). pure. pure. reads (index_agrees cfg). pure.
    rewrite result_thereafter, privates_plan_agree. apply bind_same. intros (rs & last) _. pure. pure. reflexivity.
  Qed.

  Lemma record_plan_agrees top cs : result tape (record_plan cfg p top cs) = record_taken cfg tape p top cs.
  Proof.
    unfold record_plan, record_taken. destruct (map_contains top Op_ROS); rewrite result_thereafter.
    - rewrite cid_plan_agrees. apply bind_same. intros (r & there) _. reflexivity.
    - rewrite private_plan_agrees. apply bind_same. intros (r & there) _. reflexivity.
  Qed.

  Lemma font_plan_agrees i ops g : result tape (font_plan cfg p i ops g) = font_taken cfg tape p i ops g.
  Proof.
    unfold font_plan, font_taken. pure. pure. pure. reads (character_strings_agree cfg a1). pure.
    rewrite result_thereafter.
    match goal with |- bind ?m _ = bind ?m' _ => assert (E : m = m') end.
    { destruct (a2 =? 0), (a2 =? 1), (a2 =? 2); try reflexivity. pure.
      destruct (nth_error (character_strings g ++ [i0]) i); [|reflexivity].
      apply (character_set_agrees cfg). eapply jumped_nonneg; eassumption. }
    rewrite E. apply bind_same. intros (set & there) _. pure.
    rewrite result_thereafter.
    match goal with |- bind ?m _ = bind ?m' _ => assert (F : m = m') end.
    { destruct (a3 =? 0), (a3 =? 1); try reflexivity. pure.
      apply (encoding_agrees cfg). eapply jumped_nonneg; eassumption. }
    rewrite F. apply bind_same. intros (enc & there') _.
    destruct (nth_error (character_strings g ++ [i0]) i); [|reflexivity].
    rewrite result_thereafter, record_plan_agrees. apply bind_same. intros (r & last) _. reflexivity.
  Qed.

  Lemma fonts_plan_agree opss : forall here i g,
    result tape (fonts_plan cfg p here i opss g) = fonts_taken cfg tape p here i opss g.
  Proof.
    induction opss as [|ops opss IH]; intros here i g; [reflexivity|]. cbn [fonts_plan fonts_taken].
    rewrite result_thereafter, font_plan_agrees. apply bind_same. intros (g' & there) _. apply IH.
  Qed.

  Lemma font_set_plan_agrees : result tape (font_set_plan cfg p) = font_set_taken cfg tape p.
  Proof.
    unfold font_set_plan, font_set_taken. reads header_agrees. pure.
    pose proof (jumped_nonneg _ _ _ _ Hp H0) as N.
    rewrite result_thereafter, (proj2 (index_agrees cfg)) by assumption. apply bind_same. intros (names & h1) T1.
    pose proof (taken_nonneg _ _ _ _ (proj1 (index_agrees cfg)) N T1) as N1.
    rewrite result_thereafter, (proj2 (index_agrees cfg)) by assumption. apply bind_same. intros (dicts & h2) T2.
    pose proof (taken_nonneg _ _ _ _ (proj1 (index_agrees cfg)) N1 T2) as N2. pure.
    rewrite result_thereafter, (proj2 (index_agrees cfg)) by assumption. apply bind_same. intros (strings & h3) T3.
    pose proof (taken_nonneg _ _ _ _ (proj1 (index_agrees cfg)) N2 T3) as N3.
    rewrite result_thereafter, (proj2 (index_agrees cfg)) by assumption. apply bind_same. intros (subrs & h4) T4.
    rewrite result_thereafter, fonts_plan_agree. apply bind_same. intros (g & last) _. reflexivity.
  Qed.

  Lemma count_plan_agrees : result tape (count_plan cfg p) = count_taken cfg tape p.
  Proof.
    unfold count_plan, count_taken. reads header_agrees. pure.
    apply (proj2 u16_agrees). eapply jumped_nonneg; eassumption.
  Qed.
End At.

(** ** Locality *)

Lemma carried_same {A} (m : plan A) tape tape' :
  (forall p, In p (asked tape m) -> byte_at tape' p = byte_at tape p) ->
  carried_out tape' m = carried_out tape m.
Proof.
  induction m as [o|p k IH]; intros H; [reflexivity|]. cbn [carried_out] in *.
  destruct (byte_at tape p) as [b|] eqn:E.
  - destruct (carried_out tape (k b)) as [o t] eqn:C. rewrite (H p), E by (left; reflexivity).
    rewrite (IH b), C; [reflexivity|]. intros q Q. rewrite C in Q. apply H. right. exact Q.
  - rewrite (H p), E by (left; reflexivity). reflexivity.
Qed.

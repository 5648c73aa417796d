(** DeviceFacts: reading from devices that fail, or that do not give the same answer twice. *)
From Verif Require Import Base Float C1Number C1Operation C1Index C1Glyphs C1FontSet C1Tape C1Plan BaseFacts
  SpecNumber NumberFacts SpecOperation OperationFacts SpecIndex IndexFacts StringFacts SpecGlyphs GlyphFacts
  SpecFontSet FontSetFacts LayoutFacts SpecFile FileFacts SpecTape TapeFacts PlanFacts SpecParts SpecSize AskFacts PartsFacts WorkFacts SpecPanic PanicFacts SpecDevice FontSetSamples.
Local Open Scope list_scope.
Local Open Scope Z_scope.

(** ** Devices that fail *)

Lemma byte_at_nth file p : byte_at file p = nth_error file (Z.to_nat p).
Proof.
  unfold byte_at, rest_at. destruct (Z.leb_spec (Z.of_nat (length file)) p) as [L|L].
  - symmetry. apply nth_error_None. lia.
  - clear L. generalize (Z.to_nat p) as n. intros n. revert file.
    induction n as [|n IH]; intros file; [destruct file; reflexivity|]. destruct file as [|b file]; [reflexivity|].
    cbn [skipn nth_error]. apply IH.
Qed.

Section Faults.
Context {E : Type} (dev : device E) (file : list byte) (H : holds dev file).

Lemma put_cases {A} (m : plan A) : forall n,
  ((forall j p e, nth_error (asked file m) j = Some p -> dev (n + j)%nat p <> Failure e) /\
   put_to dev n m = (Returned (result file m), asked file m)) \/
  (exists k e, (exists p, nth_error (asked file m) k = Some p /\ dev (n + k)%nat p = Failure e) /\
     (forall j p e', (j < k)%nat -> nth_error (asked file m) j = Some p -> dev (n + j)%nat p <> Failure e') /\
     put_to dev n m = (Failed e, firstn (S k) (asked file m))).
Proof.
  induction m as [o|p k IH]; intros n.
  - left. split; [intros [|j]; discriminate|reflexivity].
  - cbn [put_to carried_out]. pose proof (H n p) as T. rewrite byte_at_nth. destruct (dev n p) as [b| |e] eqn:D.
    + rewrite T. destruct (IH b (S n)) as [[N ->]|(i & e & (q & Q & F) & N & ->)].
      * left. destruct (carried_out file (k b)) as [o l]. cbn [fst snd] in *. split; [|reflexivity].
        intros [|j] q e Q; cbn in Q.
        -- injection Q as <-. rewrite Nat.add_0_r, D. discriminate.
        -- rewrite <- plus_n_Sm. apply N, Q.
      * right. exists (S i), e. destruct (carried_out file (k b)) as [o l]. cbn [fst snd] in *. split; [|split].
        -- exists q. split; [exact Q|]. rewrite <- plus_n_Sm. exact F.
        -- intros [|j] q' e' L Q'; cbn in Q'.
           ++ injection Q' as <-. rewrite Nat.add_0_r, D. discriminate.
           ++ rewrite <- plus_n_Sm. apply N; [lia|exact Q'].
        -- reflexivity.
    + rewrite T. left. cbn [fst snd]. split; [|reflexivity]. intros [|[|j]] q e Q; cbn in Q; try discriminate.
      injection Q as <-. rewrite Nat.add_0_r, D. discriminate.
    + right. exists 0%nat, e. split; [|split].
      * exists p. rewrite Nat.add_0_r. split; [|exact D].
        destruct (nth_error file (Z.to_nat p)); [destruct (carried_out file (k b))|]; reflexivity.
      * intros j q e' L. lia.
      * destruct (nth_error file (Z.to_nat p)); [destruct (carried_out file (k b))|]; reflexivity.
Qed.

Lemma put_failed {A} (m : plan A) e :
  fst (put_to dev 0 m) = Failed e <-> exists k, first_failure dev (asked file m) k e.
Proof.
  destruct (put_cases m 0) as [[N ->]|(k & e0 & (p & P & F) & N & ->)]; cbn [fst]; split.
  - discriminate.
  - intros (k & (p & P & F) & _). exfalso. exact (N k p e P F).
  - intros X. injection X as <-. exists k. split; [exists p; split; assumption|exact N].
  - intros (k' & (p' & P' & F') & N'). destruct (Nat.lt_trichotomy k k') as [L|[->|L]].
    + exfalso. exact (N' k p e0 L P F).
    + rewrite P in P'. injection P' as <-. cbn in F. rewrite F in F'. injection F' as <-. reflexivity.
    + exfalso. exact (N k' p' e L P' F').
Qed.

Lemma put_returned {A} (m : plan A) o :
  fst (put_to dev 0 m) = Returned o <-> result file m = o /\ no_failure dev (asked file m).
Proof.
  destruct (put_cases m 0) as [[N ->]|(k & e0 & (p & P & F) & N & ->)]; cbn [fst]; split.
  - intros X. injection X as <-. split; [reflexivity|exact N].
  - intros [<- _]. reflexivity.
  - discriminate.
  - intros [_ N']. exfalso. exact (N' k p e0 P F).
Qed.

Lemma put_asked {A} (m : plan A) :
  (no_failure dev (asked file m) -> snd (put_to dev 0 m) = asked file m) /\
  (forall k e, first_failure dev (asked file m) k e -> snd (put_to dev 0 m) = firstn (S k) (asked file m)).
Proof.
  destruct (put_cases m 0) as [[N ->]|(k & e0 & (p & P & F) & N & ->)]; cbn [snd]; split.
  - reflexivity.
  - intros k e ((p & P & F) & _). exfalso. exact (N k p e P F).
  - intros N'. exfalso. exact (N' k p e0 P F).
  - intros k' e' ((p' & P' & F') & N'). destruct (Nat.lt_trichotomy k k') as [L|[->|L]].
    + exfalso. exact (N' k p e0 L P F).
    + reflexivity.
    + exfalso. exact (N k' p' e' L P' F').
Qed.

End Faults.

Lemma device_font_sets {E} (dev : device E) file cfg p : 0 <= p -> holds dev file ->
  (forall f place, fst (put_to dev 0 (font_set_plan cfg p)) = Returned (Ok (f, place)) -> read_font_set cfg file p = Ok f) /\
  (forall e, fst (put_to dev 0 (font_set_plan cfg p)) = Returned (Err e) -> read_font_set cfg file p = Err e) /\
  (forall k, fst (put_to dev 0 (font_set_plan cfg p)) = Returned (Panic k) -> read_font_set cfg file p = Panic k).
Proof.
  intros P H. rewrite <- (font_set_agrees cfg file p P). rewrite <- (proj1 (plans_agree cfg file p P)).
  split; [|split]; intros; match goal with R : fst _ = _ |- _ => apply (put_returned dev file H) in R as [-> _] end; reflexivity.
Qed.

Lemma put_truth {A E} (dev : device E) file (m : plan A) a : result file m = Ok a -> forall n,
  (forall j q b, nth_error (asked file m) j = Some q -> nth_error file (Z.to_nat q) = Some b -> dev (n + j)%nat q = Byte b) ->
  put_to dev n m = (Returned (Ok a), asked file m).
Proof.
  revert a. induction m as [o|p k IH]; intros a R n H; [cbn in R; rewrite R; reflexivity|].
  cbn [put_to]. cbn [carried_out] in *. rewrite byte_at_nth in *. destruct (nth_error file (Z.to_nat p)) as [b|] eqn:B; [|discriminate].
  specialize (IH b a). destruct (carried_out file (k b)) as [o l]. cbn [fst snd] in *.
  pose proof (H 0%nat p b eq_refl B) as D. rewrite Nat.add_0_r in D. rewrite D, (IH R (S n)); [reflexivity|].
  intros j q c Q C. specialize (H (S j) q c Q C). rewrite <- plus_n_Sm in H. exact H.
Qed.

Lemma device_undisturbed {E} (dev : device E) file cfg p f : 0 <= p -> Z.of_nat (length file) < 2 ^ 63 ->
  read_font_set cfg file p = Ok f ->
  (forall n q b, font_set_part (overflow_checks cfg) file p f q -> nth_error file (Z.to_nat q) = Some b -> dev n q = Byte b) ->
  exists place, fst (put_to dev 0 (font_set_plan cfg p)) = Returned (Ok (f, place)).
Proof.
  intros P L R N. rewrite <- (font_set_agrees cfg file p P) in R.
  destruct (font_set_taken cfg file p) as [[f' place]| | |] eqn:T; try discriminate. injection R as ->. exists place.
  rewrite <- (proj1 (plans_agree cfg file p P)) in T.
  rewrite (put_truth dev file _ _ T); [reflexivity|]. intros j q b Q B. apply N; [|exact B].
  apply (font_set_parts cfg file p P L f place T q). eapply nth_error_In; eauto.
Qed.

(** ** Devices that answer anything *)

(** A device of bounded size gives these answers, one after the other. *)
Inductive path {A} : plan A -> list byte -> outcome A -> Prop :=
| path_done o : path (Done o) [] o
| path_ask p k b bs o : p < 2 ^ 63 -> path (k b) bs o -> path (Ask p k) (b :: bs) o.

Lemma put_path {A E} (dev : device E) (m : plan A) : sized dev -> forall n o, fst (put_to dev n m) = Returned o ->
  (exists bs, path m bs o) \/ o = Err UnexpectedEof.
Proof.
  intros Sz. induction m as [o'|p k IH]; intros n o R; cbn [put_to] in R.
  - injection R as <-. left. exists []. constructor.
  - destruct (dev n p) as [b| |e] eqn:D.
    + destruct (Z_lt_dec p (2 ^ 63)) as [L|L]; [|exfalso; apply (Sz n p b); [lia|exact D]].
      specialize (IH b (S n) o). destruct (put_to dev (S n) (k b)) as [r l]. destruct (IH R) as [[bs Pa]|Eo]; [|auto].
      left. exists (b :: bs). constructor; assumption.
    + right. injection R as <-. reflexivity.
    + discriminate.
Qed.

Lemma path_thereafter {A B} (m : plan A) (k : A -> plan B) bs o : path (thereafter m k) bs o ->
  (exists b1 b2 a, bs = b1 ++ b2 /\ path m b1 (Ok a) /\ path (k a) b2 o) \/
  (exists o', path m bs o' /\ match o', o with
     | Err e, Err e' => e = e' | Panic w, Panic w' => w = w' | OutOfFuel, OutOfFuel => True | _, _ => False end).
Proof.
  revert bs o. induction m as [o'|p next IH]; intros bs o H; cbn [thereafter] in H.
  - destruct o' as [a|e|w|].
    + left. exists [], bs, a. repeat split; [constructor|exact H].
    + right. inversion H; subst. exists (Err e). split; [constructor|reflexivity].
    + right. inversion H; subst. exists (Panic w). split; [constructor|reflexivity].
    + right. inversion H; subst. exists OutOfFuel. split; [constructor|exact I].
  - inversion H as [|p' k' b bs' o' L H']; subst. apply IH in H' as [(b1 & b2 & a & -> & H1 & H2)|(o' & H1 & H2)].
    + left. exists (b :: b1), b2, a. repeat split; [constructor; assumption|exact H2].
    + right. exists o'. split; [constructor; assumption|exact H2].
Qed.

(** Readers that ask for one byte after the other: they have read the answers. *)
Definition replays {A} (pl : planner A) (rd : reader A) : Prop := forall here bs o, path (pl here) bs o ->
  forall r, match o with
  | Ok (x, there) => rd (bs ++ r) = Ok (x, r) /\ there = here + Z.of_nat (length bs) /\ there <= Z.max here (2 ^ 63)
  | Err e => rd (bs ++ r) = Err e
  | Panic w => rd (bs ++ r) = Panic w
  | OutOfFuel => rd (bs ++ r) = OutOfFuel
  end.

Lemma replays_done {A} (a : A) : replays (fun here => Done (Ok (a, here))) (fun s => Ok (a, s)).
Proof. intros here bs o H r. inversion H; subst. cbn. repeat split; lia. Qed.

Lemma replays_fail {A} (o : outcome (A * Z)) (o' : outcome (A * list byte)) :
  match o, o' with Err e, Err e' => e = e' | Panic w, Panic w' => w = w' | OutOfFuel, OutOfFuel => True | _, _ => False end ->
  replays (fun _ => Done o) (fun _ => o').
Proof. intros H here bs o1 P r. inversion P; subst. destruct o1, o'; try contradiction; subst; reflexivity. Qed.

Lemma replays_bind {A B} (pl : planner A) rd (pk : A -> planner B) k :
  replays pl rd -> (forall a, replays (pk a) (k a)) ->
  replays (fun here => let! (a, here) := pl here in pk a here) (fun s => let* (a, r) := rd s in k a r).
Proof.
  intros H1 H2 here bs o P r. apply path_thereafter in P as [(b1 & b2 & [a there] & -> & P1 & P2)|(o' & P1 & M)].
  - destruct (H1 _ _ _ P1 (b2 ++ r)) as (R & T & Le). rewrite <- app_assoc, R. cbn [bind].
    pose proof (H2 a _ _ _ P2 r) as G. destruct o as [[x t2]| | |]; try exact G.
    destruct G as (G & T2 & L2). split; [exact G|]. rewrite app_length. lia.
  - pose proof (H1 _ _ _ P1 r) as G. destruct o', o; try contradiction; subst; rewrite G; reflexivity.
Qed.

Lemma replays_pure {A B} (o : outcome A) (pk : A -> planner B) k : (forall a, replays (pk a) (k a)) ->
  replays (fun here => let! a := Done o in pk a here) (fun s => let* a := o in k a s).
Proof.
  intros H here bs o' P r. destruct o as [a|e|w|]; cbn [thereafter bind] in *.
  - exact (H a here bs o' P r).
  - inversion P; reflexivity.
  - inversion P; reflexivity.
  - inversion P; reflexivity.
Qed.

Lemma replays_if {A} (c : bool) (p1 p2 : planner A) r1 r2 : replays p1 r1 -> replays p2 r2 ->
  replays (fun here => if c then p1 here else p2 here) (fun s => if c then r1 s else r2 s).
Proof. destruct c; auto. Qed.

Lemma replays_same {A} (pl pl' : planner A) rd rd' : replays pl rd ->
  (forall here, pl' here = pl here) -> (forall s, rd' s = rd s) -> replays pl' rd'.
Proof. intros H P R here bs o Pa r. rewrite P in Pa. rewrite R. exact (H here bs o Pa r). Qed.

Lemma byte_replays : replays byte_plan take_byte.
Proof.
  intros here bs o P r. inversion P as [|p' k' b bs' o' L P']; subst. inversion P'; subst. cbn. repeat split. lia.
Qed.

Lemma u8_replays : replays u8_plan take_u8.
Proof.
  eapply replays_same.
  - apply (replays_bind _ _ (fun b here => Done (Ok (bz b, here))) (fun b s => Ok (bz b, s)) byte_replays).
    intros b. apply replays_done.
  - reflexivity.
  - intros [|b s]; reflexivity.
Qed.

Lemma u16_replays : replays u16_plan take_u16.
Proof.
  eapply replays_same.
  - eapply replays_bind; [exact byte_replays|]. intros b1. eapply replays_bind; [exact byte_replays|]. intros b0.
    apply (replays_done (bz b1 * 2 ^ 8 + bz b0)).
  - reflexivity.
  - intros [|b1 [|b0 s]]; reflexivity.
Qed.

Lemma u8x3_replays : replays u8x3_plan take_u8x3.
Proof.
  eapply replays_same.
  - eapply replays_bind; [exact byte_replays|]. intros b2. eapply replays_bind; [exact byte_replays|]. intros b1.
    eapply replays_bind; [exact byte_replays|]. intros b0. apply (replays_done (bz b2, bz b1, bz b0)).
  - reflexivity.
  - intros [|b2 [|b1 [|b0 s]]]; reflexivity.
Qed.

Lemma u32_replays : replays u32_plan take_u32.
Proof.
  eapply replays_same.
  - eapply replays_bind; [exact byte_replays|]. intros b3. eapply replays_bind; [exact byte_replays|]. intros b2.
    eapply replays_bind; [exact byte_replays|]. intros b1. eapply replays_bind; [exact byte_replays|]. intros b0.
    apply (replays_done (bz b3 * 2 ^ 24 + bz b2 * 2 ^ 16 + bz b1 * 2 ^ 8 + bz b0)).
  - reflexivity.
  - intros [|b3 [|b2 [|b1 [|b0 s]]]]; reflexivity.
Qed.

Lemma n_replays {A} (pl : planner A) rd n : replays pl rd -> replays (n_plan pl n) (take_n rd n).
Proof.
  intros H. induction n as [|n IH]; cbn [n_plan take_n]; [apply replays_done|].
  eapply replays_bind; [exact H|]. intros x. eapply replays_bind; [exact IH|]. intros xs. apply replays_done.
Qed.

Lemma vec_replays {A} cfg size (pl : planner A) rd enc n :
  replays pl rd -> sound rd enc -> consumes enc -> replays (vec_plan cfg size pl n) (take_vec cfg size rd n).
Proof.
  intros H Hs Hc. eapply replays_same.
  - apply (replays_if (preallocates cfg && (isize_max <? n * size)));
      [apply (replays_fail (Panic CapacityOverflow) (Panic CapacityOverflow)); reflexivity|apply n_replays, H].
  - reflexivity.
  - intros s. destruct (Z.leb_spec 0 n) as [Hn|Hn]; [exact (take_vec_loop cfg size rd enc n s Hs Hc Hn)|].
    unfold take_vec. rewrite Z.min_l by lia. reflexivity.
Qed.

Ltac again := first
  [ exact byte_replays | exact u8_replays | exact u16_replays | exact u8x3_replays | exact u32_replays
  | apply replays_done | apply replays_fail; first [reflexivity | exact I] | assumption
  | apply replays_if | apply replays_pure; intros ?
  | eapply replays_bind; [|intros ?] ].

Lemma offset_replays size : replays (offset_plan size) (read_offset size).
Proof.
  unfold offset_plan, read_offset. do 2 (apply replays_if; [again|]). apply replays_if; [|repeat again].
  eapply replays_bind; [again|]. intros ((v0 & v1) & v2). again.
Qed.

Lemma elements_replay cfg offs : replays (elements_plan cfg offs) (read_elements cfg offs).
Proof.
  induction offs as [|o1 [|o2 offs] IH]; [repeat again|repeat again|].
  cbn [elements_plan read_elements]. destruct (Z.ltb_spec o2 o1); [again|].
  again; [|again; [exact IH|again]].
  eapply vec_replays; [again|apply take_byte_sound|intros e v ->; discriminate].
Qed.

Lemma index_replays cfg : replays (index_plan cfg) (read_index cfg).
Proof.
  unfold index_plan, read_index. again; [again|]. again; [again|]. again; [again|].
  again; [apply n_replays, offset_replays|]. destruct a1 as [|[|[| |]|] offs]; try again; [apply elements_replay|again].
Qed.

Lemma header_replays : replays header_plan read_header.
Proof. unfold header_plan, read_header. repeat again. Qed.

Lemma range1_replays : replays range1_plan read_range1.
Proof. unfold range1_plan, read_range1. repeat again. Qed.

Lemma range2_replays : replays range2_plan read_range2.
Proof. unfold range2_plan, read_range2. repeat again. Qed.

Lemma ranges_replay pl rd fuel n : replays pl rd -> forall found,
  replays (ranges_plan pl fuel n found) (read_ranges rd fuel n found).
Proof.
  intros H. induction fuel as [|fuel IH]; intros found; cbn [ranges_plan read_ranges].
  - again; again.
  - again; [|again]. eapply replays_bind; [exact H|]. intros range. eapply replays_bind; [apply IH|]. intros (ranges & found'). again.
Qed.

Lemma character_set0_replays cfg n : replays (character_set0_plan cfg n) (read_character_set0 cfg n).
Proof.
  unfold character_set0_plan, read_character_set0. again; [again|]. again; [again|]. again.
  again; [|again].
  eapply vec_replays; [again|apply take_u16_sound|apply u16_consumes].
Qed.

Lemma character_set1_replays n : replays (character_set1_plan n) (read_character_set1 n).
Proof.
  unfold character_set1_plan, read_character_set1. again; [again|]. again; [again|].
  eapply replays_bind with (rd := fun s => read_ranges read_range1 (S (length s)) n 1 s).
  - eapply replays_same; [apply ranges_replay, range1_replays|reflexivity|].
    intros s. apply (ranges_fuel 1); [apply range1_reader|right; lia|left; lia].
  - intros (ranges & found). repeat again.
Qed.

Lemma character_set2_replays n : replays (character_set2_plan n) (read_character_set2 n).
Proof.
  unfold character_set2_plan, read_character_set2. again; [again|]. again; [again|].
  eapply replays_bind with (rd := fun s => read_ranges read_range2 (S (length s)) n 1 s).
  - eapply replays_same; [apply ranges_replay, range2_replays|reflexivity|].
    intros s. apply (ranges_fuel 2); [apply range2_reader|right; lia|left; lia].
  - intros (ranges & found). repeat again.
Qed.

Lemma code_range_replays : replays code_range_plan read_code_range.
Proof. unfold code_range_plan, read_code_range. repeat again. Qed.

Lemma supplement_replays : replays supplement_plan read_supplement.
Proof. unfold supplement_plan, read_supplement. repeat again. Qed.

Lemma encoding0_replays cfg : replays (encoding0_plan cfg) (read_encoding0 cfg).
Proof.
  unfold encoding0_plan, read_encoding0. again; [again|]. again; [again|]. again; [again|]. again; [|again].
  eapply vec_replays; [again|apply take_u8_sound|apply u8_consumes].
Qed.

Lemma encoding1_replays cfg : replays (encoding1_plan cfg) (read_encoding1 cfg).
Proof.
  unfold encoding1_plan, read_encoding1. again; [again|]. again; [again|]. again; [again|]. again; [|again].
  eapply vec_replays; [apply code_range_replays|apply read_code_range_sound|apply code_range_consumes].
Qed.

Lemma encoding_supplemental_replays cfg : replays (encoding_supplemental_plan cfg) (read_encoding_supplemental cfg).
Proof.
  unfold encoding_supplemental_plan, read_encoding_supplemental. again; [again|]. again; [again|]. again; [|again].
  eapply vec_replays; [apply supplement_replays|apply read_supplement_sound|apply supplement_consumes].
Qed.

Lemma range3_replays : replays range3_plan read_range3.
Proof. unfold range3_plan, read_range3. repeat again. Qed.

Lemma dictionary_encoding0_replays cfg n : replays (dictionary_encoding0_plan cfg n) (read_dictionary_encoding0 cfg n).
Proof.
  unfold dictionary_encoding0_plan, read_dictionary_encoding0. again; [again|]. again; [again|]. again; [|again].
  eapply vec_replays; [again|apply take_u8_sound|apply u8_consumes].
Qed.

Lemma dictionary_encoding3_replays cfg : replays (dictionary_encoding3_plan cfg) (read_dictionary_encoding3 cfg).
Proof.
  unfold dictionary_encoding3_plan, read_dictionary_encoding3. again; [again|]. again; [again|]. again; [again|].
  again; [|again; [again|again]].
  eapply vec_replays; [apply range3_replays|apply read_range3_sound|apply range3_consumes].
Qed.

(** The formats are looked at twice. *)
Definition as_read {A} (rd : reader A) (here : Z) (bs : list byte) (o : outcome (A * Z)) : Prop :=
  forall r, match o with
  | Ok (x, there) => rd (bs ++ r) = Ok (x, r) /\ there = here + Z.of_nat (length bs) /\ there <= Z.max here (2 ^ 63)
  | Err e => rd (bs ++ r) = Err e
  | Panic w => rd (bs ++ r) = Panic w
  | OutOfFuel => rd (bs ++ r) = OutOfFuel
  end.

Lemma peeked {A} here (k : Z -> plan A) bs o : path (let! f := peek_plan here in k f) bs o ->
  exists b bs', bs = b :: bs' /\ path (k (bz b)) bs' o.
Proof. intros P. inversion P as [|p' k' b bs' o' L P']; subst. exists b, bs'. split; [reflexivity|exact P']. Qed.

Lemma begun {A} here (k : Z -> Z -> plan A) bs o : path (let! (f, h) := u8_plan here in k f h) bs o ->
  exists b bs', bs = b :: bs'.
Proof. intros P. inversion P as [|p' k' b bs' o' L P']; subst. eauto. Qed.

Lemma as_read_same {A} (rd rd' : reader A) here b bs o : as_read rd here (b :: bs) o ->
  (forall s, rd' (b :: s) = rd (b :: s)) -> as_read rd' here (b :: bs) o.
Proof. intros H E r. specialize (H r). cbn [app] in *. destruct o as [[x t]| | |]; rewrite E; exact H. Qed.

Lemma as_read_err {A} (rd : reader A) here b bs o : as_read rd here (b :: bs) o ->
  (forall s, rd (b :: s) = Err Other) -> o = Err Other.
Proof.
  intros H E. specialize (H []). cbn [app] in H. rewrite E in H. destruct o as [[x t]| | |].
  - destruct H as [H _]. discriminate.
  - congruence.
  - discriminate.
  - discriminate.
Qed.

Lemma character_set_again cfg n here bs o : path (character_set_plan cfg n here) bs o ->
  o = Err Other \/ exists bs', as_read (read_character_set cfg n) here bs' o.
Proof.
  intros P. apply peeked in P as (b & bs' & -> & P).
  destruct (bz b =? 0); [|destruct (bz b =? 1); [|destruct (bz b =? 2)]].
  - pose proof (character_set0_replays cfg n here bs' o P) as R. apply begun in P as (c & bs & ->).
    destruct (bz c =? 0) eqn:Ec.
    + right. exists (c :: bs). apply (as_read_same _ _ _ _ _ _ R). intros s.
      unfold read_character_set, peek_u8. cbn [take_u8 bind]. rewrite Ec. reflexivity.
    + left. apply (as_read_err _ _ _ _ _ R). intros s. unfold read_character_set0. cbn [take_u8 bind]. rewrite Ec. reflexivity.
  - pose proof (character_set1_replays n here bs' o P) as R. apply begun in P as (c & bs & ->).
    destruct (bz c =? 1) eqn:Ec.
    + right. exists (c :: bs). apply (as_read_same _ _ _ _ _ _ R). intros s.
      unfold read_character_set, peek_u8. cbn [take_u8 bind]. rewrite Ec. destruct (Z.eqb_spec (bz c) 0); [lia|reflexivity].
    + left. apply (as_read_err _ _ _ _ _ R). intros s. unfold read_character_set1. cbn [take_u8 bind]. rewrite Ec. reflexivity.
  - pose proof (character_set2_replays n here bs' o P) as R. apply begun in P as (c & bs & ->).
    destruct (bz c =? 2) eqn:Ec.
    + right. exists (c :: bs). apply (as_read_same _ _ _ _ _ _ R). intros s.
      unfold read_character_set, peek_u8. cbn [take_u8 bind]. rewrite Ec.
      destruct (Z.eqb_spec (bz c) 0); [lia|]. destruct (Z.eqb_spec (bz c) 1); [lia|reflexivity].
    + left. apply (as_read_err _ _ _ _ _ R). intros s. unfold read_character_set2. cbn [take_u8 bind]. rewrite Ec. reflexivity.
  - left. inversion P. reflexivity.
Qed.

Lemma encoding_again cfg here bs o : path (encoding_plan cfg here) bs o ->
  o = Err Other \/ exists bs', as_read (read_encoding cfg) here bs' o \/ as_read (read_encoding_supplemental cfg) here bs' o.
Proof.
  intros P. apply peeked in P as (b & bs' & -> & P).
  destruct (bz b =? 0); [|destruct (bz b =? 1); [|destruct (0 <? Z.land (bz b) 0x80)]].
  - pose proof (encoding0_replays cfg here bs' o P) as R. apply begun in P as (c & bs & ->).
    destruct (bz c =? 0) eqn:Ec.
    + right. exists (c :: bs). left. apply (as_read_same _ _ _ _ _ _ R). intros s.
      unfold read_encoding, peek_u8. cbn [take_u8 bind]. rewrite Ec. reflexivity.
    + left. apply (as_read_err _ _ _ _ _ R). intros s. unfold read_encoding0. cbn [take_u8 bind]. rewrite Ec. reflexivity.
  - pose proof (encoding1_replays cfg here bs' o P) as R. apply begun in P as (c & bs & ->).
    destruct (bz c =? 1) eqn:Ec.
    + right. exists (c :: bs). left. apply (as_read_same _ _ _ _ _ _ R). intros s.
      unfold read_encoding, peek_u8. cbn [take_u8 bind]. rewrite Ec. destruct (Z.eqb_spec (bz c) 0); [lia|reflexivity].
    + left. apply (as_read_err _ _ _ _ _ R). intros s. unfold read_encoding1. cbn [take_u8 bind]. rewrite Ec. reflexivity.
  - right. exists bs'. right. exact (encoding_supplemental_replays cfg here bs' o P).
  - left. inversion P. reflexivity.
Qed.

Lemma select_again cfg n here bs o : path (dictionary_encoding_plan cfg n here) bs o ->
  o = Err Other \/ exists bs', as_read (read_dictionary_encoding cfg n) here bs' o \/ as_read (read_dictionary_encoding0 cfg n) here bs' o.
Proof.
  intros P. apply peeked in P as (b & bs' & -> & P).
  destruct (bz b =? 0); [|destruct (bz b =? 3)].
  - right. exists bs'. right. exact (dictionary_encoding0_replays cfg n here bs' o P).
  - pose proof (dictionary_encoding3_replays cfg here bs' o P) as R. apply begun in P as (c & bs & ->).
    destruct (bz c =? 3) eqn:Ec.
    + right. exists (c :: bs). left. apply (as_read_same _ _ _ _ _ _ R). intros s.
      unfold read_dictionary_encoding, peek_u8. cbn [take_u8 bind]. rewrite Ec. destruct (Z.eqb_spec (bz c) 0); [lia|reflexivity].
    + left. apply (as_read_err _ _ _ _ _ R). intros s. unfold read_dictionary_encoding3. cbn [take_u8 bind]. rewrite Ec. reflexivity.
  - left. inversion P. reflexivity.
Qed.

(** What can come of a plan, whatever the answers. *)
Section Anything.
Context (cfg : config).

Definition guarded {A} (R : A -> Prop) (o : outcome A) : Prop :=
  match o with
  | Ok a => R a
  | Err _ => True
  | Panic k => possible_panic cfg k
  | OutOfFuel => False
  end.

Definition ever {A} (R : A -> Prop) (m : plan A) : Prop := forall bs o, path m bs o -> guarded R o.

Lemma ever_bind {A B} (Q : A -> Prop) (R : B -> Prop) m (k : A -> plan B) :
  ever Q m -> (forall a, Q a -> ever R (k a)) -> ever R (thereafter m k).
Proof.
  intros H K bs o P. apply path_thereafter in P as [(b1 & b2 & a & -> & P1 & P2)|(o' & P1 & M)].
  - exact (K a (H _ _ P1) _ _ P2).
  - pose proof (H _ _ P1) as G. destruct o', o; try contradiction; subst; exact G.
Qed.

Lemma ever_done {A} (R : A -> Prop) o : guarded R o -> ever R (Done o).
Proof. intros H bs o' P. inversion P; subst. exact H. Qed.

Lemma ever_settled {A} (R : A -> Prop) o : settled o -> (forall a, o = Ok a -> R a) -> ever R (Done o).
Proof. intros S H. apply ever_done. destruct o; cbn in *; auto; contradiction. Qed.

(** Tables that are read once from the front to the back. *)
Definition table {A} (here : Z) (enc : list byte -> A -> Prop) (x : A * Z) : Prop :=
  here <= snd x /\ exists e, enc e (fst x).

Lemma as_read_guarded {A} rd here bs o (enc : list byte -> A -> Prop) :
  as_read rd here bs o -> total rd -> sound rd enc -> guarded (table here enc) o.
Proof.
  intros R T So. specialize (R []). rewrite app_nil_r in R. specialize (T bs). destruct o as [[x t]|e|w|]; cbn.
  - destruct R as (R & Et & _). split; [cbn; lia|]. apply So in R as (e & _ & X). eauto.
  - exact I.
  - rewrite R in T. destruct T.
  - rewrite R in T. destruct T.
Qed.

Lemma ever_replays {A} (pl : planner A) rd enc here : replays pl rd -> total rd -> sound rd enc ->
  ever (table here enc) (pl here).
Proof. intros H T So bs o P. eapply as_read_guarded; eauto. exact (H here bs o P). Qed.

Lemma ever_index here : ever (table here index_encoding) (index_plan cfg here).
Proof. eapply ever_replays; [apply index_replays|apply read_index_settled|apply read_index_sound]. Qed.

Lemma header_total : total read_header.
Proof. intros [|a [|b [|c [|d s]]]]; exact I. Qed.

Lemma ever_header here : ever (table here header_encoding) (header_plan here).
Proof. eapply ever_replays; [apply header_replays|apply header_total|apply read_header_sound]. Qed.

Lemma ever_jump p offset : 0 <= p -> ever (fun here => 0 <= here) (Done (jumped cfg p offset)).
Proof.
  intros P. apply ever_done. destruct (jumped cfg p offset) as [here|e|k|] eqn:J; cbn; [exact (jumped_nonneg _ _ _ _ P J)|exact I| |];
    unfold jumped, add_u64 in J; destruct (in_u64 _); try discriminate;
    destruct (overflow_checks cfg) eqn:C; try discriminate; injection J as <-; exact C.
Qed.

Lemma vec_outcome {A} size (rd : reader A) n s : total rd ->
  match take_vec cfg size rd n s with Panic k => possible_panic cfg k | OutOfFuel => False | _ => True end.
Proof.
  intros T. unfold take_vec. destruct (preallocates cfg) eqn:C; cbn [andb].
  - destruct (isize_max <? n * size); [exact C|].
    pose proof (take_n_total rd T (Z.to_nat (Z.min n (Z.of_nat (length s) + 1))) s) as G.
    destruct (take_n _ _ _); try contradiction; exact I.
  - pose proof (take_n_total rd T (Z.to_nat (Z.min n (Z.of_nat (length s) + 1))) s) as G.
    destruct (take_n _ _ _); try contradiction; exact I.
Qed.

Lemma ever_chunk size here : 0 <= here -> - 2 ^ 31 <= size < 2 ^ 31 ->
  ever (fun x => Z.of_nat (length (fst x)) = size) (vec_plan cfg 1 byte_plan (as_usize size) here).
Proof.
  intros P B bs o Pa.
  assert (V : replays (vec_plan cfg 1 byte_plan (as_usize size)) (take_vec cfg 1 take_byte (as_usize size))).
  { eapply vec_replays; [exact byte_replays|apply take_byte_sound|intros e v ->; discriminate]. }
  specialize (V here bs o Pa []). rewrite app_nil_r in V.
  pose proof (vec_outcome 1 take_byte (as_usize size) bs take_byte_total) as G.
  destruct o as [[chunk t]|e|w|]; cbn; [|exact I|rewrite V in G; exact G|rewrite V in G; exact G].
  destruct V as (V & Et & Le). apply (take_vec_sound _ _ _ (fun e b => e = [b])) in V as (T1 & e & Eb & T2).
  - apply each_byte in T2 as ->. rewrite app_nil_r in Eb. subst bs. unfold as_usize, as_u64 in T1.
    destruct (Z_lt_dec size 0) as [N|N].
    + exfalso. replace (size mod 2 ^ 64) with (size + 2 ^ 64) in T1
        by (symmetry; rewrite <- (Z_mod_plus_full size 1), Z.mul_1_l; apply Z.mod_small; lia). lia.
    + rewrite Z.mod_small in T1 by lia. exact T1.
  - apply take_byte_sound.
  - intros e' b ->. discriminate.
  - unfold as_usize, as_u64. apply Z.mod_pos_bound. lia.
Qed.

Lemma zero_set s : match read_character_set cfg 0 s with
  | Ok (_, r) => 2 ^ 64 - 1 <= Z.of_nat (length s)
  | Err _ => True
  | Panic k => possible_panic cfg k
  | OutOfFuel => False
  end.
Proof.
  destruct s as [|b s]; [exact I|]. unfold read_character_set, peek_u8. cbn [take_u8 bind].
  destruct (bz b =? 0) eqn:E0; [|destruct (bz b =? 1) eqn:E1; [|destruct (bz b =? 2) eqn:E2; [|exact I]]].
  - unfold read_character_set0. cbn [take_u8 bind]. rewrite E0. cbn [negb]. unfold sub_usize.
    change (in_u64 (0 - 1)) with false. cbv iota.
    destruct (overflow_checks cfg) eqn:C; [exact C|]. cbn [bind].
    change (as_usize (0 - 1)) with (2 ^ 64 - 1).
    pose proof (vec_outcome 2 take_u16 (2 ^ 64 - 1) s take_u16_total) as G.
    destruct (take_vec cfg 2 take_u16 (2 ^ 64 - 1) s) as [[ids r]| | |] eqn:T; cbn [bind]; try exact G.
    apply (take_vec_sound _ _ _ u16_encoding) in T as (T1 & e & -> & T2);
      auto using take_u16_sound, u16_consumes; [|lia].
    apply (each_consumes_length _ _ _ u16_consumes) in T2. cbv beta iota. cbn [length]. rewrite app_length.
    lia.
  - unfold read_character_set1. cbn [take_u8 bind]. rewrite E1. exact I.
  - unfold read_character_set2. cbn [take_u8 bind]. rewrite E2. exact I.
Qed.

Lemma ever_character_set n here : 0 <= here -> 0 <= n < 2 ^ 62 ->
  ever (table here (character_set_encoding n)) (character_set_plan cfg n here).
Proof.
  intros P G bs o Pa. apply character_set_again in Pa as [->|(bs' & R)]; [exact I|].
  destruct (Z.eq_dec n 0) as [->|N].
  - specialize (R []). rewrite app_nil_r in R. pose proof (zero_set bs') as Z0. destruct o as [[x t]|e|w|]; cbn.
    + destruct R as (R & Et & Le). rewrite R in Z0. lia.
    + exact I.
    + rewrite R in Z0. exact Z0.
    + rewrite R in Z0. exact Z0.
  - assert (S0 : sane_count n) by (unfold sane_count; lia).
    apply (as_read_guarded _ _ _ _ _ R); auto using read_character_set_total, read_character_set_sound.
Qed.

Definition loose_encoding (x : encoding) : Prop :=
  (exists e, any_encoding e x) \/
  exists f n e supplements, bz n = Z.of_nat (length supplements) /\ each supplement_encoding e supplements /\
    x = EncSupplemental (bz f) (bz n) supplements.

Lemma ever_encoding here : ever (fun x => loose_encoding (fst x)) (encoding_plan cfg here).
Proof.
  intros bs o Pa. apply encoding_again in Pa as [->|(bs' & [R|R])]; [exact I| |].
  - pose proof (as_read_guarded _ _ _ _ _ R (read_encoding_total cfg) (read_encoding_sound cfg)) as G.
    destruct o as [[x t]| | |]; auto. destruct G as (_ & G). left. exact G.
  - specialize (R []). rewrite app_nil_r in R. unfold read_encoding_supplemental in R.
    destruct bs' as [|f [|n bs']]; cbn [take_u8 bind] in R.
    1, 2: destruct o as [[x t]| | |]; [destruct R; discriminate|exact I|discriminate|discriminate].
    pose proof (bz_range n) as Bn.
    assert (T : settled (take_vec cfg 4 read_supplement (bz n) bs')).
    { apply take_vec_total; [apply read_supplement_total|]. unfold isize_max. lia. }
    destruct (take_vec cfg 4 read_supplement (bz n) bs') as [[xs r]| | |] eqn:V; cbn [bind] in R; try contradiction.
    + destruct o as [[x t]| | |]; try discriminate. destruct R as (R & _ & _). injection R as <- ->. right.
      apply (take_vec_sound _ _ _ supplement_encoding) in V as (L & e & -> & X);
        auto using read_supplement_sound, supplement_consumes; [|lia].
      exists f, n, e, xs. auto.
    + destruct o as [[x t]| | |]; [destruct R; discriminate|exact I|discriminate|discriminate].
Qed.

Lemma ever_select n here : 0 <= n < 2 ^ 62 ->
  ever (fun x => select_loosely (debug_assertions cfg) n (fst x)) (dictionary_encoding_plan cfg n here).
Proof.
  intros G bs o Pa. apply select_again in Pa as [->|(bs' & [R|R])]; [exact I| |].
  - assert (T : total (read_dictionary_encoding cfg n)) by (apply (read_select_total cfg []); lia).
    assert (So : sound (read_dictionary_encoding cfg n) (select_encoding n)) by (apply (read_select_sound cfg []); lia).
    pose proof (as_read_guarded _ _ _ _ _ R T So) as H.
    destruct o as [[x t]| | |]; auto. destruct H as (_ & H). left. exact H.
  - specialize (R []). rewrite app_nil_r in R. unfold read_dictionary_encoding0 in R.
    destruct bs' as [|f bs']; cbn [take_u8 bind] in R.
    { destruct o as [[x t]| | |]; [destruct R; discriminate|exact I|discriminate|discriminate]. }
    destruct (debug_assertions cfg && negb (bz f =? 0)) eqn:C.
    { apply andb_true_iff in C as [C _]. destruct o as [[x t]| |k|]; [destruct R; discriminate|exact I| |discriminate].
      injection R as <-. exact C. }
    assert (T : settled (take_vec cfg 1 take_u8 n bs')).
    { apply take_vec_total; [apply take_u8_total|unfold isize_max; lia]. }
    destruct (take_vec cfg 1 take_u8 n bs') as [[xs r]| | |] eqn:V; cbn [bind] in R; try contradiction.
    + destruct o as [[x t]| | |]; try discriminate. destruct R as (R & _ & _). injection R as <- ->.
      apply (take_vec_sound _ _ _ u8_encoding) in V as (L & e & -> & X);
        auto using take_u8_sound, u8_consumes; [|lia].
      apply each_u8 in X as ->. rewrite map_length in L. cbn [fst].
      destruct (Z.eqb_spec (bz f) 0) as [F|F].
      * left. rewrite F. exists (x00 :: e). constructor. exact L.
      * right. cbn [negb] in C. rewrite andb_true_r in C. split; [exact C|]. exists f, e. auto.
    + destruct o as [[x t]| | |]; [destruct R; discriminate|exact I|discriminate|discriminate].
Qed.

Lemma ever_double top o : ever (fun x => operands top o (fst x) (snd x)) (Done (need_double top o)).
Proof.
  apply ever_settled; [apply need_double_settled|]. intros [a b] H. apply need_double_iff, H.
Qed.

Lemma ever_single top o : ever (operand top o) (Done (need_single top o)).
Proof. apply ever_settled; [apply need_single_settled|]. intros a H. apply need_single_iff, H. Qed.

Lemma ever_sum a b : ever (fun _ => True) (Done (add_i32 cfg a b)).
Proof.
  apply ever_done. unfold add_i32. destruct (in_i32 (a + b)); [exact I|]. destruct (overflow_checks cfg) eqn:C; [exact C|exact I].
Qed.

Lemma ever_private p top : 0 <= p -> bounded top -> ever (fun x => private_loosely top (fst x)) (private_plan cfg p top).
Proof.
  intros P B. unfold private_plan. eapply ever_bind; [apply ever_double|]. intros [size offset] D. cbn [fst snd] in D.
  destruct (bounded_double _ _ _ _ B D) as [B1 _].
  eapply ever_bind; [apply ever_jump, P|]. intros here Nh. cbv beta in Nh.
  eapply ever_bind; [apply ever_chunk; assumption|]. intros [chunk here'] L. cbn [fst] in L.
  eapply ever_bind with (Q := dictionary_data chunk).
  { apply ever_settled; [apply read_operations_settled|]. intros ops H. apply read_operations_iff, H. }
  intros ops O. eapply ever_bind with (Q := fun x => match x with Some v => operand ops Op_Subrs v | None => no_operand ops Op_Subrs end).
  { apply ever_settled; [apply try_single_settled|]. intros x H. apply try_single_iff in H. exact H. }
  intros [another|] An.
  - eapply ever_bind; [apply ever_sum|]. intros sum _. eapply ever_bind; [apply ever_jump, P|]. intros there _.
    eapply ever_bind; [apply ever_index|]. intros [x h] (_ & e & X). cbn [fst] in X. apply ever_done. cbn.
    exists size, offset, chunk. repeat split; auto. right. exists another, e. auto.
  - apply ever_done. cbn. exists size, offset, chunk. repeat split; auto.
Qed.

Lemma ever_privates p tops : 0 <= p -> Forall bounded tops -> forall here,
  ever (fun x => Forall2 private_loosely tops (fst x)) (privates_plan cfg p here tops).
Proof.
  intros P. induction 1 as [|top tops B F IH]; intros here; cbn [privates_plan].
  - apply ever_done. constructor.
  - eapply ever_bind; [apply ever_private; assumption|]. intros [r h] R. cbn [fst] in R.
    eapply ever_bind; [apply IH|]. intros [rs h'] Rs. apply ever_done. cbn in *. constructor; assumption.
Qed.

Lemma ever_dictionaries d : ever (fun opss => Forall2 dictionary_data (data d) opss) (Done (dictionaries_try_into cfg d)).
Proof. apply ever_settled; [apply dictionaries_settled|]. intros opss H. apply tables_iff in H. exact H. Qed.

Lemma ever_cid p top cs : 0 <= p -> bounded top -> 0 <= count cs < 2 ^ 62 ->
  ever (fun x => cid_loosely (debug_assertions cfg) top (count cs) (fst x)) (cid_plan cfg p top cs).
Proof.
  intros P B G. unfold cid_plan.
  destruct (operations_get top Op_ROS) as [[|n0 [|n1 [|n2 [|n3 ns]]]]|] eqn:O; try (apply ever_done; exact I).
  apply operand_list_iff in O.
  eapply ever_bind; [apply ever_single|]. intros select Se. eapply ever_bind; [apply ever_jump, P|]. intros h1 _.
  eapply ever_bind; [apply ever_select, G|]. intros [enc h2] X. cbn [fst] in X.
  eapply ever_bind; [apply ever_single|]. intros array Ar. eapply ever_bind; [apply ever_jump, P|]. intros h3 _.
  eapply ever_bind; [apply ever_index|]. intros [ds h4] (_ & ea & Xa). cbn [fst] in Xa.
  eapply ever_bind; [apply ever_dictionaries|]. intros opss D. cbv beta in D.
  eapply ever_bind; [apply ever_privates; [exact P|eapply dictionaries_bounded; eauto]|]. intros [rs h5] R. cbn [fst] in R.
  eapply ever_bind with (Q := fun v => exists a, n0 = Integer a /\ 0 <= a /\ v = a mod 2 ^ 16).
  { apply ever_settled; [apply string_id_settled|]. intros v H. apply string_id_iff in H. exact H. }
  intros v0 (a & -> & Na & ->).
  eapply ever_bind with (Q := fun v => exists a, n1 = Integer a /\ 0 <= a /\ v = a mod 2 ^ 16).
  { apply ever_settled; [apply string_id_settled|]. intros v H. apply string_id_iff in H. exact H. }
  intros v1 (b & -> & Nb & ->).
  apply ever_done. cbn. exists a, b, select, array, ds, ea. cbn. repeat split; auto.
Qed.

Lemma ever_record p top cs : 0 <= p -> bounded top -> 0 <= count cs < 2 ^ 62 ->
  ever (fun x => record_loosely (debug_assertions cfg) top (count cs) (fst x)) (record_plan cfg p top cs).
Proof.
  intros P B G. pose proof (absent_iff top Op_ROS) as A. unfold record_plan, map_contains. destruct (map_get top Op_ROS) eqn:M.
  - eapply ever_bind; [apply ever_cid; assumption|]. intros [r h] R. apply ever_done. cbn in *. split; [|exact R].
    rewrite <- A. discriminate.
  - eapply ever_bind; [apply ever_private; assumption|]. intros [r h] R. apply ever_done. cbn in *. split; [|exact R].
    apply A. reflexivity.
Qed.

Lemma ever_font p i ops g : 0 <= p -> bounded ops -> length (character_strings g) = i ->
  ever (fun x => exists f, font_operations f = ops /\ font_loosely (debug_assertions cfg) f /\ fst x = push g f)
    (font_plan cfg p i ops g).
Proof.
  intros P B L. unfold font_plan.
  assert (N : forall cs, nth_error (character_strings g ++ [cs]) i = Some cs).
  { intros cs. rewrite nth_error_app2 by lia. replace (i - _)%nat with 0%nat by lia. reflexivity. }
  eapply ever_bind; [apply ever_single|]. intros strings Ss. eapply ever_bind; [apply ever_jump, P|]. intros h1 _.
  eapply ever_bind; [apply ever_single|]. intros format Sf. unfold character_strings_plan.
  eapply ever_bind with (Q := fun x => format = 2 /\ exists e, index_encoding e (fst x)).
  { destruct (Z.eqb_spec format 2) as [->|]; [|apply ever_done; exact I].
    intros bs o Pa. pose proof (ever_index h1 bs o Pa) as H. destruct o as [[x t]| | |]; auto.
    destruct H as (_ & H). split; [reflexivity|exact H]. }
  intros [cs h2] (-> & e & X). cbn [fst] in X. cbv zeta. rewrite (N cs).
  destruct (index_count _ _ X) as [_ G].
  eapply ever_bind; [apply ever_single|]. intros set Sc.
  eapply ever_bind with (Q := fun x => character_set_loosely set (count cs) (fst x)).
  { unfold character_set_loosely. destruct (Z.eqb_spec set 0); [apply ever_done; cbn; auto|].
    destruct (Z.eqb_spec set 1); [apply ever_done; cbn; auto|]. destruct (Z.eqb_spec set 2); [apply ever_done; cbn; auto|].
    eapply ever_bind; [apply ever_jump, P|]. intros h3 Nh. cbv beta in Nh.
    intros bs o Pa. apply ever_character_set in Pa; [|exact Nh|lia]. destruct o as [[x t]| | |]; auto.
    destruct Pa as (_ & Pa). cbn in *. right; right; right. split; [lia|exact Pa]. }
  intros [c h4] Cs. cbn [fst] in Cs. eapply ever_bind; [apply ever_single|]. intros code Se.
  eapply ever_bind with (Q := fun x => encoding_loosely code (fst x)).
  { unfold encoding_loosely. destruct (Z.eqb_spec code 0); [apply ever_done; cbn; auto|].
    destruct (Z.eqb_spec code 1); [apply ever_done; cbn; auto|].
    eapply ever_bind; [apply ever_jump, P|]. intros h3 _.
    intros bs o Pa. apply ever_encoding in Pa. destruct o as [[x t]| | |]; auto.
    cbn in *. right; right. split; [lia|exact Pa]. }
  intros [enc h5] En. cbn [fst] in En.
  eapply ever_bind; [apply ever_record; [exact P|exact B|lia]|]. intros [r h6] R. cbn [fst] in R.
  apply ever_done. cbn.
  exists {| font_operations := ops; font_encoding := enc; font_character_set := c;
            font_character_strings := cs; font_record := r |}. split; [reflexivity|]. split; [|reflexivity].
  exists strings, set, code, e. cbn. auto 10.
Qed.

Lemma ever_fonts p opss : 0 <= p -> Forall bounded opss -> forall here i g, length (character_strings g) = i ->
  ever (fun x => exists fs, map font_operations fs = opss /\ Forall (font_loosely (debug_assertions cfg)) fs /\
    fst x = fold_left push fs g) (fonts_plan cfg p here i opss g).
Proof.
  intros P. induction 1 as [|ops opss B F IH]; intros here i g L; cbn [fonts_plan].
  - apply ever_done. exists []. auto.
  - eapply ever_bind; [apply ever_font; assumption|]. intros [g1 h] (f & <- & Ff & Eg). cbn [fst] in Eg. subst g1.
    intros bs o Pa. apply IH in Pa; [|cbn [push character_strings]; rewrite app_length; cbn; lia].
    destruct o as [x| | |]; auto. destruct Pa as (fs & <- & Fs & Ex). exists (f :: fs). repeat split; auto.
Qed.

Lemma ever_font_set p : 0 <= p -> ever (fun x => font_set_loosely (debug_assertions cfg) (fst x)) (font_set_plan cfg p).
Proof.
  intros P. unfold font_set_plan. eapply ever_bind; [apply ever_header|]. intros [h h0] (_ & eh & Xh). cbn [fst] in Xh.
  eapply ever_bind; [apply ever_jump, P|]. intros h1 _.
  eapply ever_bind; [apply ever_index|]. intros [names h2] (_ & e1 & X1). cbn [fst] in X1.
  eapply ever_bind; [apply ever_index|]. intros [ds h3] (_ & e2 & X2). cbn [fst] in X2.
  eapply ever_bind; [apply ever_dictionaries|]. intros opss D. cbv beta in D.
  eapply ever_bind; [apply ever_index|]. intros [strings h4] (_ & e3 & X3). cbn [fst] in X3.
  eapply ever_bind; [apply ever_index|]. intros [subs h5] (_ & e4 & X4). cbn [fst] in X4.
  eapply ever_bind; [apply ever_fonts; [exact P|eapply dictionaries_bounded; eauto|reflexivity]|].
  intros [g h6] (fs & M & Fs & Eg). cbn [fst] in Eg. subst g. apply ever_done. cbn.
  destruct (pushed fs {| encodings := []; character_sets := []; character_strings := []; records := [] |}) as (E1 & E2 & E3 & E4).
  exists eh, e1, e2, e3, e4, ds, fs. cbn. rewrite E1, E2, E3, E4. cbn. repeat split; auto.
Qed.

End Anything.

Lemma any_device {E} (dev : device E) n cfg p o : sized dev -> 0 <= p ->
  fst (put_to dev n (font_set_plan cfg p)) = Returned o ->
  match o with
  | Ok (f, _) => font_set_loosely (debug_assertions cfg) f
  | Err _ => True
  | Panic k => possible_panic cfg k
  | OutOfFuel => False
  end.
Proof.
  intros Sz P R. apply (put_path dev _ Sz) in R as [(bs & Pa)| ->]; [|exact I].
  apply (ever_font_set cfg p P) in Pa. destruct o as [[f t]| | |]; exact Pa.
Qed.

(** On a file that stays what it is two of the panics do not occur. *)
Lemma still_panics cfg tape p k : 0 <= p < 2 ^ 63 -> Z.of_nat (length tape) < 2 ^ 63 -> read_font_set cfg tape p = Panic k ->
  k = ArithmeticOverflow \/ k = CapacityOverflow.
Proof.
  intros P L R. apply font_set_panic_iff in R; [|exact P|exact L].
  assert (Pp : forall top, private_panic (overflow_checks cfg) (preallocates cfg) tape p top k -> k = ArithmeticOverflow \/ k = CapacityOverflow).
  { intros top (size & offset & _ & [[-> _]|[[-> _]|[-> _]]]); auto. }
  destruct R as (eh & h & e1 & e2 & e3 & e4 & n & d & s & sb & fs & top & after & _ & _ & _ & _ & _ & _ & _ & _ & _ & F).
  destruct F as (strings & _ & [[-> _]|(e & x & set & _ & _ & _ & _ & [C|(c & code & _ & _ & [[-> _]|(y & _ & R)])])]); auto.
  - destruct C as (_ & [[-> _]|(_ & _ & [[_ ->]|(_ & _ & ->)])]); auto.
  - destruct R as [[_ R]|[_ R]]; [|eauto]. destruct R as (a & b & c' & select & _ & _ & [[-> _]|(e' & x' & array & _ & _ & _ & [[-> _]|R])]); auto.
    destruct R as (ea & ds & before & ops & aft & rs & _ & _ & _ & _ & R). eauto.
Qed.

(** A file, but for the answer to one request. *)
Definition changing (file : list byte) (at_request : nat) (instead : byte) : device unit := fun n p =>
  match nth_error file (Z.to_nat p) with
  | Some b => Byte (if Nat.eqb n at_request then instead else b)
  | None => Ended
  end.

Lemma changing_sized file i c : Z.of_nat (length file) <= 2 ^ 63 -> sized (changing file i c).
Proof.
  intros L n p b P. unfold changing. replace (nth_error file (Z.to_nat p)) with (@None byte); [discriminate|].
  symmetry. apply nth_error_None. lia.
Qed.

Lemma selector_changes : exists dev : device unit, sized dev /\
  fst (put_to dev 0 (font_set_plan dev_profile 0)) = Returned (Panic DebugAssertion) /\
  exists f place c ids, fst (put_to dev 0 (font_set_plan release_profile 0)) = Returned (Ok (f, place)) /\
    fs_records f = [CharacterIDKeyed c] /\ cid_encoding c = DictFormat0 3 ids /\
    forall n e, ~ select_encoding n e (cid_encoding c).
Proof.
  exists (changing cid_keyed 40 x00). split; [apply changing_sized; cbn; lia|]. split; [vm_compute; reflexivity|].
  eexists _, _, _, _. split; [vm_compute; reflexivity|]. split; [reflexivity|]. split; [reflexivity|].
  intros n e H. inversion H.
Qed.

Lemma encoding_changes : exists dev : device unit, sized dev /\
  exists f place n supplements, fst (put_to dev 0 (font_set_plan dev_profile 0)) = Returned (Ok (f, place)) /\
    fs_encodings f = [EncSupplemental 0 n supplements] /\ forall e, ~ any_encoding e (EncSupplemental 0 n supplements).
Proof.
  exists (changing name_keyed 41 x80). split; [apply changing_sized; cbn; lia|].
  eexists _, _, _, _. split; [vm_compute; reflexivity|]. split; [reflexivity|].
  intros e H. inversion H; subst; [match goal with P : plain_encoding _ _ |- _ => inversion P end|lia].
Qed.

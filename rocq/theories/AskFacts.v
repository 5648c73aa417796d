(** AskFacts: for which bytes of the tape it is asked, and how often. *)
From Verif Require Import Base Float C1Number C1Operation C1Index C1Glyphs C1FontSet C1Tape C1Plan BaseFacts
  SpecNumber NumberFacts SpecOperation OperationFacts SpecIndex IndexFacts StringFacts SpecGlyphs GlyphFacts
  SpecFontSet FontSetFacts LayoutFacts SpecFile FileFacts SpecTape TapeFacts PlanFacts SpecParts SpecSize SizeFacts WeightFacts.
Local Open Scope list_scope.
Local Open Scope Z_scope.

(** ** Readers that do not jump *)

(** Such a reader asks for the bytes from where it stands on, [n] of them in a row, some of
    them again but no more than [extra] times.  If it is successful these are the bytes it
    leaves behind; if not, it may have asked for the one at the end of the tape. *)
Definition linear {A} (least extra : nat) (pl : planner A) : Prop := forall tape here, 0 <= here ->
  exists n : nat,
    (n <= length (asked tape (pl here)) <= n + extra)%nat /\
    (forall q, In q (asked tape (pl here)) <-> here <= q < here + Z.of_nat n) /\
    match result tape (pl here) with
    | Ok (_, there) => (least <= n)%nat /\ there = here + Z.of_nat n /\ (n = O \/ there <= Z.of_nat (length tape))
    | _ => here + Z.of_nat n <= Z.max here (Z.of_nat (length tape)) + 1
    end.

Lemma linear_weaken {A} l l' x x' (pl : planner A) : (l' <= l)%nat -> (x <= x')%nat -> linear l x pl -> linear l' x' pl.
Proof.
  intros Hl Hx H tape here Hh. destruct (H tape here Hh) as (n & L & Q & R). exists n. split; [lia|]. split; [exact Q|].
  destruct (result tape (pl here)) as [[a there]| | |]; try exact R. destruct R as (? & ? & ?). repeat split; auto. lia.
Qed.

Lemma linear_done {A} (a : A) : linear 0 0 (fun here => Done (Ok (a, here))).
Proof. intros tape here H. exists O. cbn. repeat split; try lia. Qed.

Lemma linear_fail {A} l (o : outcome (A * Z)) : match o with Ok _ => False | _ => True end -> linear l 0 (fun _ => Done o).
Proof. intros H tape here Hh. exists O. cbn. repeat split; try lia. destruct o; try contradiction; lia. Qed.

Lemma linear_byte : linear 1 0 byte_plan.
Proof.
  intros tape here H. exists 1%nat. unfold byte_plan. cbn [carried_out]. unfold byte_at, rest_at.
  destruct (Z.leb_spec (Z.of_nat (length tape)) here) as [L|L].
  - cbn. repeat split; try lia.
  - destruct (skipn (Z.to_nat here) tape) as [|b s] eqn:E; cbn; repeat split; try lia.
Qed.

Lemma linear_bind {A B} l1 l2 x1 x2 (pl : planner A) (pk : A -> planner B) :
  linear l1 x1 pl -> (forall a, linear l2 x2 (pk a)) ->
  linear (l1 + l2) (x1 + x2) (fun here => let! (a, here) := pl here in pk a here).
Proof.
  intros H1 H2 tape here Hh. destruct (H1 tape here Hh) as (n1 & L1 & Q1 & R1).
  rewrite asked_thereafter, result_thereafter. destruct (result tape (pl here)) as [[a h1]| | |]; cbn [bind].
  2,3,4: exists n1; rewrite app_nil_r; split; [lia|split; [exact Q1|lia]].
  destruct R1 as (Z1 & -> & E1).
  destruct (H2 a tape (here + Z.of_nat n1) ltac:(lia)) as (n2 & L2 & Q2 & R2).
  exists (n1 + n2)%nat. rewrite app_length. split; [lia|]. split.
  { intros q. rewrite in_app_iff, Q1, Q2. lia. }
  destruct (result tape (pk a (here + Z.of_nat n1))) as [[b h2]| | |]; lia.
Qed.

Lemma linear_first {A B} l1 x1 x2 (pl : planner A) (pk : A -> planner B) :
  linear l1 x1 pl -> (forall a, linear 0 x2 (pk a)) ->
  linear l1 (x1 + x2) (fun here => let! (a, here) := pl here in pk a here).
Proof. intros H1 H2. rewrite <- (Nat.add_0_r l1). apply linear_bind; assumption. Qed.

Lemma linear_then {A B} x1 x2 (pl : planner A) (pk : A -> planner B) :
  linear 0 x1 pl -> (forall a, linear 0 x2 (pk a)) ->
  linear 0 (x1 + x2) (fun here => let! (a, here) := pl here in pk a here).
Proof. apply (linear_bind 0 0). Qed.

Lemma linear_pure {A B} l x (o : outcome A) (pk : A -> planner B) : (forall a, linear l x (pk a)) ->
  linear l x (fun here => let! a := Done o in pk a here).
Proof.
  intros H. destruct o as [a|e|w|]; cbn [thereafter]; [apply H|..];
    (eapply linear_weaken; [|apply Nat.le_0_l|apply linear_fail; exact I]; reflexivity).
Qed.

Lemma linear_peek {A} x (pk : Z -> planner A) : (forall b, linear 1 x (pk b)) ->
  linear 1 (S x) (fun here => let! b := peek_plan here in pk b here).
Proof.
  intros H tape here Hh. rewrite asked_thereafter, result_thereafter.
  unfold peek_plan, u8_plan, byte_plan. cbn [thereafter carried_out]. unfold byte_at.
  destruct (rest_at tape here) as [|b s] eqn:E; cbn [hd_error fst snd bind].
  { exists 1%nat. cbn. repeat split; try lia. }
  assert (B : here < Z.of_nat (length tape)).
  { unfold rest_at in E. destruct (Z.leb_spec (Z.of_nat (length tape)) here); [discriminate|lia]. }
  destruct (H (bz b) tape here Hh) as (n & L & Q & R). exists (Nat.max 1 n). cbn [app length In]. split; [lia|]. split.
  { intros q. rewrite Q. lia. }
  destruct (result tape (pk (bz b) here)) as [[a there]| | |]; lia.
Qed.

Lemma linear_if {A} l x (c : bool) (p1 p2 : planner A) : linear l x p1 -> linear l x p2 ->
  linear l x (fun here => if c then p1 here else p2 here).
Proof. destruct c; auto. Qed.

(** ** Tables *)

Ltac line := first
  [ apply linear_done | apply linear_fail; exact I | assumption
  | apply linear_if | apply linear_pure; intros ?
  | apply (linear_first 1 0 0); [|intros ?] | apply (linear_then 0 0); [|intros ?] ].

Ltac weaker H := first [exact H | eapply linear_weaken; [| |exact H]; lia].

Lemma linear_u8 : linear 1 0 u8_plan.
Proof. unfold u8_plan. line; [exact linear_byte|line]. Qed.

Ltac byte := first [weaker linear_byte | weaker linear_u8].

Lemma linear_u16 : linear 1 0 u16_plan.
Proof. unfold u16_plan. line; [byte|]. line; [byte|]. line. Qed.
Lemma linear_u8x3 : linear 1 0 u8x3_plan.
Proof. unfold u8x3_plan. line; [byte|]. do 2 (line; [byte|]). line. Qed.
Lemma linear_u32 : linear 1 0 u32_plan.
Proof. unfold u32_plan. line; [byte|]. do 3 (line; [byte|]). line. Qed.
Lemma linear_n {A} (pl : planner A) n : linear 0 0 pl -> linear 0 0 (n_plan pl n).
Proof. intros H. induction n as [|n IH]; cbn [n_plan]; [line|]. line; [exact H|]. line; [exact IH|]. line. Qed.
Lemma linear_vec {A} cfg size (pl : planner A) n : linear 0 0 pl -> linear 0 0 (vec_plan cfg size pl n).
Proof. intros H. unfold vec_plan. line; [line|]. apply linear_n, H. Qed.

Lemma linear_offset size : linear 1 0 (offset_plan size).
Proof.
  unfold offset_plan. line; [exact linear_u8|]. line; [exact linear_u16|]. line.
  - apply (linear_first 1 0 0); [exact linear_u8x3|]. intros ((a & b) & c). line.
  - line; [exact linear_u32|line].
Qed.

Lemma linear_elements cfg offs : linear 0 0 (elements_plan cfg offs).
Proof.
  induction offs as [|o1 [|o2 offs] IH]; [apply (linear_done [])|apply (linear_done [])|].
  cbn [elements_plan]. line; [line|]. line; [apply linear_vec; byte|]. line; [exact IH|]. line.
Qed.

Lemma linear_index cfg : linear 1 0 (index_plan cfg).
Proof.
  unfold index_plan. line; [exact linear_u16|]. line; [line|]. line; [byte|]. line; [apply linear_n; weaker (linear_offset a0)|].
  destruct a1 as [|[|[| |]|] offs]; try (line; fail). line; [apply linear_elements|]. line.
Qed.

Lemma linear_character_strings cfg format : linear 1 0 (character_strings_plan cfg format).
Proof. unfold character_strings_plan. line; [apply linear_index|line]. Qed.

Lemma linear_header : linear 1 0 header_plan.
Proof. unfold header_plan. line; [byte|]. do 3 (line; [byte|]). line. Qed.

Lemma linear_range1 : linear 0 0 range1_plan.
Proof. unfold range1_plan. line; [weaker linear_u16|]. line; [byte|]. line. Qed.
Lemma linear_range2 : linear 0 0 range2_plan.
Proof. unfold range2_plan. line; [weaker linear_u16|]. line; [weaker linear_u16|]. line. Qed.
Lemma linear_ranges pl n : linear 0 0 pl -> forall fuel found, linear 0 0 (ranges_plan pl fuel n found).
Proof.
  intros H. induction fuel as [|fuel IH]; intros found; cbn [ranges_plan]; line; [line|line|..|line].
  apply (linear_then 0 0); [exact H|]. intros range. apply (linear_then 0 0); [apply IH|]. intros (rs & k). line.
Qed.

Lemma linear_character_set cfg n : linear 1 1 (character_set_plan cfg n).
Proof.
  unfold character_set_plan. apply linear_peek. intros b. line; [|line; [|line; [|line]]].
  - unfold character_set0_plan. line; [byte|]. line; [line|]. line. line; [apply linear_vec; weaker linear_u16|]. line.
  - unfold character_set1_plan. line; [byte|]. line; [line|].
    apply (linear_then 0 0); [apply linear_ranges, linear_range1|]. intros (rs & k). line; line.
  - unfold character_set2_plan. line; [byte|]. line; [line|].
    apply (linear_then 0 0); [apply linear_ranges, linear_range2|]. intros (rs & k). line; line.
Qed.

Lemma linear_code_range : linear 0 0 code_range_plan.
Proof. unfold code_range_plan. line; [byte|]. line; [byte|]. line. Qed.
Lemma linear_supplement : linear 0 0 supplement_plan.
Proof. unfold supplement_plan. line; [byte|]. line; [weaker linear_u16|]. line. Qed.

Lemma linear_encoding cfg : linear 1 1 (encoding_plan cfg).
Proof.
  unfold encoding_plan. apply linear_peek. intros b. line; [|line; [|line; [|line]]].
  - unfold encoding0_plan. line; [byte|]. line; [line|]. line; [byte|]. line; [apply linear_vec; byte|]. line.
  - unfold encoding1_plan. line; [byte|]. line; [line|]. line; [byte|]. line; [apply linear_vec, linear_code_range|]. line.
  - unfold encoding_supplemental_plan. line; [byte|]. line; [byte|]. line; [apply linear_vec, linear_supplement|]. line.
Qed.

Lemma linear_range3 : linear 0 0 range3_plan.
Proof. unfold range3_plan. line; [weaker linear_u16|]. line; [byte|]. line. Qed.

Lemma linear_dictionary_encoding cfg n : linear 1 1 (dictionary_encoding_plan cfg n).
Proof.
  unfold dictionary_encoding_plan. apply linear_peek. intros b. line; [|line; [|line]].
  - unfold dictionary_encoding0_plan. line; [byte|]. line; [line|]. line; [apply linear_vec; byte|]. line.
  - unfold dictionary_encoding3_plan. line; [byte|]. line; [line|]. line; [weaker linear_u16|].
    line; [apply linear_vec, linear_range3|]. line; [weaker linear_u16|]. line.
Qed.

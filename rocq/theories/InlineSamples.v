(** InlineSamples: glyphs for the examples of PropInline. *)
From Coq Require Import Reals.
From Verif Require Import Base Float T2Number T2Operation T2Program SpecProgram SpecInline RunFacts ExecutionFacts ProgramFacts
  StackFacts RewriteFacts IdentityFacts InlineFacts.
Local Open Scope list_scope.
Local Open Scope Z_scope.

Lemma selects_sample table a v i code : integral a v -> biased (Z.of_nat (length table)) (Z.of_nat i - v) ->
  nth_error table i = Some code -> selects table a code.
Proof.
  intros I B N. exists v, (Z.of_nat i - v). split; [exact I|]. split; [exact B|]. split; [lia|].
  replace (v + (Z.of_nat i - v)) with (Z.of_nat i) by lia. rewrite Nat2Z.id. exact N.
Qed.

(** The first and the second subroutine of a small table. *)
Lemma first_selected table code : Z.of_nat (length table) < 1240 -> nth_error table 0 = Some code ->
  selects table (f32_of_i32 (-107)) code.
Proof. intros L N. apply (selects_sample table _ (-107) 0); auto; [apply integral_of_i32; lia|]. left. lia. Qed.
Lemma second_selected table code : Z.of_nat (length table) < 1240 -> nth_error table 1 = Some code ->
  selects table (f32_of_i32 (-106)) code.
Proof. intros L N. apply (selects_sample table _ (-106) 1); auto; [apply integral_of_i32; lia|]. left. lia. Qed.

Lemma first_number : t2_number [x20] (f32_of_i32 (-107)).
Proof. apply number_sample. vm_compute. reflexivity. Qed.
Lemma second_number : t2_number [x21] (f32_of_i32 (-106)).
Proof. apply number_sample. vm_compute. reflexivity. Qed.

Lemma two_numbers e x e' x' : t2_number e x -> t2_number e' x' -> straight (e ++ e').
Proof.
  intros N N'. apply (straight_number e x); auto. rewrite <- (app_nil_r e'). apply (straight_number e' x'); auto. constructor.
Qed.
Lemma one_number e x : t2_number e x -> straight e.
Proof. intros N. rewrite <- (app_nil_r e). apply (straight_number e x); auto. constructor. Qed.

(** 5 6 rmoveto, -107 callsubr, -106 callgsubr, endchar; the local subroutine is 1 2 rlineto, -106 callgsubr, return, and
    the second of the global ones is 3 hlineto return. *)
Definition called_line : list byte := [x8e] ++ t2_bytes T2_HLineTo ++ t2_bytes T2_Return.
Definition nested_locals : list (list byte) :=
  [([x8c] ++ [x8d]) ++ t2_bytes T2_RLineTo ++ [x21] ++ t2_bytes T2_CallGSubr ++ t2_bytes T2_Return ++ []].
Definition nested_globals : list (list byte) := [[x0b]; called_line].
Definition nested_code : list byte :=
  ([x90] ++ [x91]) ++ t2_bytes T2_RMoveTo ++ [x20] ++ t2_bytes T2_CallSubr ++ [x21] ++ t2_bytes T2_CallGSubr ++ t2_bytes T2_EndChar ++ [].

(** The local subroutine is inlined, and the global one has become the first of the local ones. *)
Definition flat_locals : list (list byte) := [called_line].
Definition flat_code : list byte :=
  ([x90] ++ [x91]) ++ t2_bytes T2_RMoveTo ++ ([x8c] ++ [x8d]) ++ t2_bytes T2_RLineTo ++ [x20] ++ t2_bytes T2_CallSubr ++
  [x20] ++ t2_bytes T2_CallSubr ++ t2_bytes T2_EndChar ++ [].

Definition lines (b b' : list byte) : Prop := b = called_line /\ b' = called_line.

Lemma line_rewritten cfg k g l g' l' bodies : rewritten cfg k g l g' l' bodies called_line [] called_line.
Proof.
  apply (rewritten_piece _ _ _ _ _ _ _ [x8e] [x8e]); try discriminate.
  - apply alike_refl, (one_number _ (f32_of_i32 3)). apply number_sample. vm_compute. reflexivity.
  - apply rewritten_operator; [reflexivity|]. rewrite <- (app_nil_r (t2_bytes T2_Return)). apply rewritten_returns.
Qed.

Lemma nested_rewritten cfg k : rewritten cfg k nested_globals nested_locals [] flat_locals lines nested_code [] flat_code.
Proof.
  assert (S2 : called nested_globals nested_locals T2_CallGSubr (f32_of_i32 (-106)) called_line).
  { right. split; [reflexivity|]. apply second_selected; reflexivity. }
  assert (S1 : called [] flat_locals T2_CallSubr (f32_of_i32 (-107)) called_line).
  { left. split; [reflexivity|]. apply first_selected; reflexivity. }
  apply (rewritten_piece _ _ _ _ _ _ _ ([x90] ++ [x91]) ([x90] ++ [x91])); try discriminate.
  { apply alike_refl, (two_numbers _ (f32_of_i32 5) _ (f32_of_i32 6)); apply number_sample; vm_compute; reflexivity. }
  apply rewritten_operator; [reflexivity|].
  eapply (rewritten_inline _ _ _ _ _ _ _ [x20] (f32_of_i32 (-107)) T2_CallSubr).
  { exact first_number. }
  { left. split; [reflexivity|]. apply first_selected; reflexivity. }
  apply (rewritten_piece _ _ _ _ _ _ _ ([x8c] ++ [x8d]) ([x8c] ++ [x8d])); try discriminate.
  { apply alike_refl, (two_numbers _ (f32_of_i32 1) _ (f32_of_i32 2)); apply number_sample; vm_compute; reflexivity. }
  apply rewritten_operator; [reflexivity|].
  eapply (rewritten_call _ _ _ _ _ _ _ [x21] (f32_of_i32 (-106)) T2_CallGSubr called_line [x20] (f32_of_i32 (-107)) T2_CallSubr called_line);
    [exact second_number|exact S2|exact first_number|exact S1|split; reflexivity|].
  apply rewritten_return.
  eapply (rewritten_call _ _ _ _ _ _ _ [x21] (f32_of_i32 (-106)) T2_CallGSubr called_line [x20] (f32_of_i32 (-107)) T2_CallSubr called_line);
    [exact second_number|exact S2|exact first_number|exact S1|split; reflexivity|].
  apply rewritten_end. auto.
Qed.

(** -107 callsubr; the subroutines are -106 callsubr endchar, and endchar. *)
Definition left_behind : list (list byte) := [[x21] ++ t2_bytes T2_CallSubr ++ t2_bytes T2_EndChar ++ []; t2_bytes T2_EndChar ++ []].

Lemma trailing_matters cfg : exists k (bodies : list byte -> list byte -> Prop) locals code code',
  (forall b b', bodies b b' -> rewritten cfg k [] locals [] locals bodies b [] b') /\
  masks_of cfg k (new_program code [] locals) /\
  rewritten cfg k [] locals [] locals bodies code [] code' /\
  ~ seen_alike cfg (new_program code [] locals) (new_program code' [] locals).
Proof.
  exists 0%nat, (fun b b' => b = t2_bytes T2_EndChar ++ [] /\ b' = t2_bytes T2_EndChar ++ []), left_behind,
    ([x20] ++ t2_bytes T2_CallSubr ++ []), ([x21] ++ t2_bytes T2_CallSubr ++ t2_bytes T2_EndChar ++ []).
  split; [|split; [|split]].
  - intros b b' [-> ->]. apply rewritten_end. auto.
  - apply maskless_masks. repeat constructor; cbn; intros H; decompose [or] H; try discriminate; contradiction.
  - eapply (rewritten_inline _ _ _ _ _ _ _ [x20] (f32_of_i32 (-107)) T2_CallSubr).
    + exact first_number.
    + left. split; [reflexivity|]. apply first_selected; reflexivity.
    + eapply (rewritten_call _ _ _ _ _ _ _ [x21] (f32_of_i32 (-106)) T2_CallSubr _ [x21] (f32_of_i32 (-106)) T2_CallSubr);
        [exact second_number|left; split; [reflexivity|apply second_selected; reflexivity]
        |exact second_number|left; split; [reflexivity|apply second_selected; reflexivity]|split; reflexivity|].
      apply rewritten_end. auto.
  - intros [S1 S2]. eapply (seen_differently cfg (new_program _ [] left_behind) (new_program _ [] left_behind));
      [| |split; intros; symmetry; [apply S1|apply S2]];
      (split; [discriminate|]); exists 9%nat; destruct cfg as [[] [] []]; vm_compute; reflexivity.
Qed.

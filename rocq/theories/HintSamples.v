(** HintSamples: character strings with and without hints. *)
From Coq Require Import Lia.
From Verif Require Import Base Float T2Number T2Operation T2Program BaseFacts SpecProgram SpecHint T2NumberFacts StepFacts RunFacts
  IdentityFacts WidthSamples.
Local Open Scope list_scope.
Local Open Scope Z_scope.

Section Samples.
Context (cfg : config).

Fixpoint apart_ok (fuel : nat) (p : program) : bool :=
  match fuel with
  | O => false
  | S fuel' =>
      match push_operands (S (length (routine p))) (stack p) (routine p) with
      | Ok (st, code, r) =>
          match read_t2_operator code r with
          | Ok (o, _) => negb (hint_operator o) || match stack p with [] => true | _ => false end
          | _ => true
          end
      | _ => true
      end &&
      match step cfg p with
      | Ok (Again q) | Ok (Yield (Some _) q) => apart_ok fuel' q
      | _ => true
      end
  end.

Lemma apart_ok_here fuel p o st : apart_ok fuel p = true -> about_to p o st -> hint_operator o = true -> stack p = [].
Proof.
  intros H (e & xs & r & R & E & ->) M. destruct fuel as [|fuel]; [discriminate|]. cbn [apart_ok] in H.
  apply andb_prop in H as [H _]. rewrite R in H. rewrite (push_operands_app _ _ E) in H by lia.
  destruct (read_t2_operator_complete o r) as (b & t & Eb & N & RO).
  rewrite Eb in H, RO. cbn [app] in H, RO. rewrite push_operands_stop in H by auto. rewrite RO, M in H. cbn in H.
  destruct (stack p); [reflexivity|discriminate].
Qed.

Lemma apart_ok_sound fuel p : apart_ok fuel p = true -> hints_apart cfg p.
Proof.
  intros H ops q o st T. revert fuel H. induction T as [p|p p' ops q E T IH|p x p' ops q E T IH]; intros fuel H A M.
  - eapply apart_ok_here; eauto.
  - destruct fuel as [|fuel]; [discriminate|]. cbn [apart_ok] in H. apply andb_prop in H as [_ H]. rewrite E in H. eauto.
  - destruct fuel as [|fuel]; [discriminate|]. cbn [apart_ok] in H. apply andb_prop in H as [_ H]. rewrite E in H. eauto.
Qed.
End Samples.

Ltac kept e xs o := eapply (unhinted_kept _ e xs o); [numbers|reflexivity|].
Ltac stems_out e xs o := eapply (unhinted_stems _ e xs o); [numbers|reflexivity|].
Ltac mask_out e xs o m := eapply (unhinted_mask _ e xs o m); [numbers|reflexivity|reflexivity|].

(** 7 1 2 hstemhm 3 4 hintmask, 5 hmoveto -107 callsubr endchar, and 6 hlineto hintmask, return. *)
Definition hinted : list byte :=
  [x92; x8c; x8d; x12; x8e; x8f; x13; xc0; x90; x16; x20; x0a; x0e].
Definition hinted_subroutine : list byte := [x91; x06; x13; x40; x0b].
(** 5 hmoveto -107 callsubr endchar, and 6 hlineto return. *)
Definition bared : list byte := [x90; x16; x20; x0a; x0e].
Definition bared_subroutine : list byte := [x91; x06; x0b].

Lemma sample_bared : unhinted 1 hinted bared /\ Forall2 (unhinted 1) [hinted_subroutine] [bared_subroutine].
Proof.
  split; [|constructor; [|constructor]].
  - stems_out [x92; x8c; x8d] (map f32_of_i32 [7; 1; 2]) T2_HStemHM.
    mask_out [x8e; x8f] (map f32_of_i32 [3; 4]) T2_HintMask [xc0].
    kept [x90] (map f32_of_i32 [5]) T2_HMoveTo. kept [x20] (map f32_of_i32 [-107]) T2_CallSubr.
    kept (@nil byte) (@nil f32) T2_EndChar. constructor.
  - kept [x91] (map f32_of_i32 [6]) T2_HLineTo.
    mask_out (@nil byte) (@nil f32) T2_HintMask [x40].
    kept (@nil byte) (@nil f32) T2_Return. constructor.
Qed.

Lemma sample_hints : forall cfg,
  unhinted 1 hinted bared /\ Forall2 (unhinted 1) [hinted_subroutine] [bared_subroutine] /\
  masks_of cfg 1 (new_program hinted [] [hinted_subroutine]) /\ hints_apart cfg (new_program hinted [] [hinted_subroutine]) /\
  shows cfg (new_program hinted [] [hinted_subroutine])
    (Ok ([(T2_HStemHM, map f32_of_i32 [1; 2]); (T2_HintMask, []); (T2_HMoveTo, map f32_of_i32 [5]);
          (T2_HLineTo, map f32_of_i32 [6]); (T2_HintMask, [])], Some (f32_of_i32 7))).
Proof.
  intros cfg. destruct sample_bared as [U F]. split; [exact U|]. split; [exact F|]. clear U F.
  split; [apply (masks_ok_sound cfg 1 12); destruct cfg as [[] [] []]; vm_compute; reflexivity|].
  split; [apply (apart_ok_sound cfg 12); destruct cfg as [[] [] []]; vm_compute; reflexivity|].
  destruct cfg as [[] [] []];
    (eexists; split; [split; [|exists 12%nat; vm_compute; reflexivity]; discriminate|vm_compute; reflexivity]).
Qed.

Lemma sample_first_move : forall cfg, t2_number [x92] (f32_of_i32 7) /\
  first_clearing cfg (new_program bared [] [bared_subroutine]) T2_HMoveTo (map f32_of_i32 [5]) /\
  may_have_width T2_HMoveTo = true /\ left_over T2_HMoveTo (map f32_of_i32 [5]) [].
Proof.
  intros cfg. split; [apply number_sample; vm_compute; reflexivity|]. split; [|split; [reflexivity|]].
  - split; [left; reflexivity|]. exists (new_program bared [] [bared_subroutine]), [x90], (map f32_of_i32 [5]), [x20; x0a; x0e].
    split; [apply trace_stop|]. split; [reflexivity|]. split; [numbers|reflexivity].
  - right. split; [discriminate|]. exists (map f32_of_i32 [5]). split; [reflexivity|].
    split; [reflexivity|]. intros m -> _. apply le_n.
Qed.

(** 1 2 abs hstem 3 4 rlineto endchar *)
Lemma sample_computed : forall cfg, exists code code' ops w,
  unhinted 0 code code' /\ masks_of cfg 0 (new_program code [] []) /\
  shows cfg (new_program code [] []) (Ok (ops, w)) /\
  forall w', ~ shows cfg (new_program code' [] []) (Ok (outline ops, w')).
Proof.
  intros cfg. exists [x8c; x8d; x0c; x09; x01; x8e; x8f; x05; x0e], [x8c; x8d; x0c; x09; x8e; x8f; x05; x0e],
    [(T2_HStem, map f32_of_i32 [1; 2]); (T2_RLineTo, map f32_of_i32 [3; 4])], None.
  split; [|split; [|split]].
  - kept [x8c; x8d] (map f32_of_i32 [1; 2]) T2_Abs. stems_out (@nil byte) (@nil f32) T2_HStem.
    kept [x8e; x8f] (map f32_of_i32 [3; 4]) T2_RLineTo. kept (@nil byte) (@nil f32) T2_EndChar. constructor.
  - apply (masks_ok_sound cfg 0 12); destruct cfg as [[] [] []]; vm_compute; reflexivity.
  - destruct cfg as [[] [] []];
      (eexists; split; [split; [|exists 12%nat; vm_compute; reflexivity]; discriminate|vm_compute; reflexivity]).
  - intros w' (r & R & E).
    assert (R' : exists q, runs cfg (new_program [x8c; x8d; x0c; x09; x8e; x8f; x05; x0e] [] [])
      (Ok ([(T2_RLineTo, map f32_of_i32 [1; 2; 3; 4])], q))).
    { destruct cfg as [[] [] []]; (eexists; split; [discriminate|exists 12%nat; vm_compute; reflexivity]). }
    destruct R' as (q & R'). rewrite (runs_det _ _ _ _ R R') in E. discriminate.
Qed.

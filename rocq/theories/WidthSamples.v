(** WidthSamples: character strings with and without the right width. *)
From Coq Require Import Lia.
From Verif Require Import Base Float T2Number T2Operation T2Program BaseFacts SpecProgram SpecWidth IdentityFacts.
Local Open Scope list_scope.
Local Open Scope Z_scope.

Ltac numbers := repeat (first [apply each_nil | eapply (each_cons t2_number [_]); [apply number_sample; vm_compute; reflexivity|]]).

Ltac passes op code ys :=
  eapply clearing_emit with (o := op) (e := code) (xs := map f32_of_i32 ys);
  [reflexivity | numbers | vm_compute; reflexivity | ].
Ltac goes_on := eapply clearing_again; [vm_compute; reflexivity | ].
Ltac ends code ys :=
  eapply clearing_end with (e := code) (xs := map f32_of_i32 ys);
  [reflexivity | numbers | vm_compute; reflexivity].

Lemma sample_whole : forall cfg, exists l q,
  clearing cfg (new_program [x92; x20; x0a; x8e; x16; x0e] [] [[x8c; x8d; x01; x0b]]) l q /\
  width_in_place l /\ specified l = Some (f32_of_i32 7) /\ length l = 3%nat.
Proof.
  intros [[] [] []]; do 2 eexists; (split; [
    goes_on; passes T2_HStem [x8c; x8d] [1; 2]; goes_on; passes T2_HMoveTo [x8e] [3]; ends (@nil byte) (@nil Z)
  | split; [| split; vm_compute; reflexivity]]);
  left; (split; [reflexivity|]); exists (f32_of_i32 7); right; (split; [discriminate|]);
  exists (map f32_of_i32 [1; 2]); (split; [vm_compute; reflexivity|]); (split; [exists 0%nat; reflexivity|]);
  intros m (k & ->) Hm; cbn in Hm |- *; lia.
Qed.

(** 1 2 hstemhm 4 5 hintmask 3 hmoveto endchar *)
Lemma sample_implicit : forall cfg, exists code l q,
  clearing cfg (new_program code [] []) l q /\ runs cfg (new_program code [] []) (Ok ([
    (T2_HStemHM, map f32_of_i32 [1; 2]); (T2_HintMask, []); (T2_HMoveTo, map f32_of_i32 [3])], q)) /\
  l = [(T2_HStemHM, map f32_of_i32 [1; 2]); (T2_HintMask, map f32_of_i32 [4; 5]);
       (T2_HMoveTo, map f32_of_i32 [3]); (T2_EndChar, [])] /\
  specified l = None /\ width q = Some (f32_of_i32 5).
Proof.
  intros [[] [] []]; exists [x8c; x8d; x12; x8f; x90; x13; x00; x8e; x16; x0e]; do 2 eexists; (split; [
    passes T2_HStemHM [x8c; x8d] [1; 2]; passes T2_HintMask [x8f; x90] [4; 5]; passes T2_HMoveTo [x8e] [3];
    ends (@nil byte) (@nil Z)
  | split; [split; [discriminate|exists 5%nat; vm_compute; reflexivity] | split; [|split]; vm_compute; reflexivity]]).
Qed.

(** DeepSamples: character strings with and without a place for the width. *)
From Coq Require Import Lia.
From Verif Require Import Base Float T2Number T2Operation T2Program BaseFacts SpecProgram SpecDeep RunFacts IdentityFacts WidthSamples.
Local Open Scope list_scope.
Local Open Scope Z_scope.

(** -107 callsubr 3 hmoveto endchar, the subroutine being 1 2 hstem return. *)
Lemma sample_first : forall cfg,
  t2_number [x92] (f32_of_i32 7) /\
  first_clearing cfg (new_program [x20; x0a; x8e; x16; x0e] [] [[x8c; x8d; x01; x0b]]) T2_HStem (map f32_of_i32 [1; 2]) /\
  may_have_width T2_HStem = true /\ left_over T2_HStem (map f32_of_i32 [1; 2]) [].
Proof.
  intros cfg. split; [apply number_sample; vm_compute; reflexivity|]. split; [|split; [reflexivity|]].
  - split; [left; reflexivity|]. destruct cfg as [[] [] []];
    (eexists; exists [x8c; x8d], (map f32_of_i32 [1; 2]), [x0b];
     split; [eapply trace_again; [vm_compute; reflexivity|apply trace_stop]|];
     split; [reflexivity|]; split; [numbers|vm_compute; reflexivity]).
  - right. split; [discriminate|]. exists (map f32_of_i32 [1; 2]). split; [reflexivity|].
    split; [exists 0%nat; reflexivity|]. intros m _ H. exact H.
Qed.

(** 1 hlineto endchar *)
Lemma sample_line : forall cfg, exists code e w st,
  t2_number e w /\ first_clearing cfg (new_program code [] []) T2_HLineTo st /\ left_over T2_HLineTo st [] /\
  ~ same_but_width cfg w (new_program code [] []) (new_program (e ++ code) [] []).
Proof.
  intros cfg. exists [x8c; x06; x0e], [x92], (f32_of_i32 7), (map f32_of_i32 [1]).
  split; [apply number_sample; vm_compute; reflexivity|]. split; [|split].
  - split; [left; reflexivity|]. exists (new_program [x8c; x06; x0e] [] []), [x8c], (map f32_of_i32 [1]), [x0e].
    split; [apply trace_stop|]. split; [reflexivity|]. split; [numbers|reflexivity].
  - right. split; [discriminate|]. exists (map f32_of_i32 [1]). split; [reflexivity|].
    split; [left; exists 0%nat; reflexivity|]. intros m _ H. exact H.
  - intros (_ & B & _).
    assert (S : exists v, shows cfg (new_program [x8c; x06; x0e] [] []) (Ok ([(T2_HLineTo, map f32_of_i32 [1])], v))).
    { exists None. destruct cfg as [[] [] []];
      (eexists; split; [split; [|exists 3%nat; vm_compute; reflexivity]; discriminate|vm_compute; reflexivity]). }
    apply B in S as (r & R & E). clear B.
    assert (R' : exists q, runs cfg (new_program ([x92] ++ [x8c; x06; x0e]) [] []) (Ok ([(T2_HLineTo, map f32_of_i32 [7; 1])], q))).
    { destruct cfg as [[] [] []]; (eexists; split; [discriminate|exists 3%nat; vm_compute; reflexivity]). }
    destruct R' as (q & R'). rewrite (runs_det _ _ _ _ R R') in E. discriminate.
Qed.

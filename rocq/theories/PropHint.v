(** PropHint: property C86. *)
From Verif Require Import Base Float T2Operation T2Program SpecProgram SpecHint HintFacts HintSamples.
Local Open Scope list_scope.

(** C86. Without its hints a glyph has the same outline. *)
Theorem C86_outline : forall (cfg : config) (k : nat), (Z.of_nat k < 2 ^ 60)%Z ->
  forall (code code' : list byte) (globals globals' locals locals' : list (list byte)),
  unhinted k code code' -> Forall2 (unhinted k) globals globals' -> Forall2 (unhinted k) locals locals' ->
  masks_of cfg k (new_program code globals locals) -> hints_apart cfg (new_program code globals locals) ->
  (forall ops, emits cfg (new_program code globals locals) ops ->
    emits cfg (new_program code' globals' locals') (outline ops)) /\
  (forall ops w, shows cfg (new_program code globals locals) (Ok (ops, w)) ->
    exists w', shows cfg (new_program code' globals' locals') (Ok (outline ops, w'))).
Proof. exact outlines. Qed.
Print Assumptions C86_outline.

(** The width, which may have stood in front of the hints, can be put in front of what is left. *)
Theorem C86_width : forall (cfg : config) (k : nat), (Z.of_nat k < 2 ^ 60)%Z ->
  forall (code code' : list byte) (globals globals' locals locals' : list (list byte))
    (ops : list t2_operation) (w : f32) (e : list byte) (o : t2_operator) (arguments : list f32),
  unhinted k code code' -> Forall2 (unhinted k) globals globals' -> Forall2 (unhinted k) locals locals' ->
  masks_of cfg k (new_program code globals locals) -> hints_apart cfg (new_program code globals locals) ->
  shows cfg (new_program code globals locals) (Ok (ops, Some w)) -> t2_number e w ->
  first_clearing cfg (new_program code' globals' locals') o arguments -> may_have_width o = true ->
  left_over o arguments [] ->
  shows cfg (new_program (e ++ code') globals' locals') (Ok (outline ops, Some w)).
Proof. exact outlines_width. Qed.
Print Assumptions C86_width.

(** It matters that the arguments of the hints are right in front of them. *)
Theorem C86_computed : forall cfg, exists code code' ops w,
  unhinted 0 code code' /\ masks_of cfg 0 (new_program code [] []) /\
  shows cfg (new_program code [] []) (Ok (ops, w)) /\
  forall w', ~ shows cfg (new_program code' [] []) (Ok (outline ops, w')).
Proof. exact sample_computed. Qed.
Print Assumptions C86_computed.

Example C86_case : forall cfg,
  unhinted 1 hinted bared /\ Forall2 (unhinted 1) [hinted_subroutine] [bared_subroutine] /\
  masks_of cfg 1 (new_program hinted [] [hinted_subroutine]) /\ hints_apart cfg (new_program hinted [] [hinted_subroutine]) /\
  shows cfg (new_program hinted [] [hinted_subroutine])
    (Ok ([(T2_HStemHM, map f32_of_i32 [1; 2]%Z); (T2_HintMask, []); (T2_HMoveTo, map f32_of_i32 [5]%Z);
          (T2_HLineTo, map f32_of_i32 [6]%Z); (T2_HintMask, [])], Some (f32_of_i32 7))).
Proof. exact sample_hints. Qed.

Example C86_width_case : forall cfg, t2_number [x92] (f32_of_i32 7) /\
  first_clearing cfg (new_program bared [] [bared_subroutine]) T2_HMoveTo (map f32_of_i32 [5]%Z) /\
  may_have_width T2_HMoveTo = true /\ left_over T2_HMoveTo (map f32_of_i32 [5]%Z) [].
Proof. exact sample_first_move. Qed.

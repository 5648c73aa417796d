(** PropDeep: property C84. *)
From Verif Require Import Base Float T2Operation T2Program BaseFacts SpecProgram SpecDeep DeepFacts DeepSamples.
Local Open Scope list_scope.

(** C84. Code that does without operands does the same with more of them below, until it clears the stack. *)
Theorem C84_deeper : forall (deep : list f32) (cfg : config) (p q : program),
  trace cfg p [] q -> trace cfg (deepened deep p) [] (deepened deep q).
Proof. exact trace_deep. Qed.
Print Assumptions C84_deeper.

(** So a number in front of a character string is its width and changes nothing else, if the first operator
    that clears the stack may have the width and leaves nothing over. *)
Theorem C84_width : forall (cfg : config) (w : f32) (code : list byte) (globals locals : list (list byte))
    (e : list byte) (o : t2_operator) (arguments : list f32),
  t2_number e w -> first_clearing cfg (new_program code globals locals) o arguments ->
  may_have_width o = true -> left_over o arguments [] ->
  same_but_width cfg w (new_program code globals locals) (new_program (e ++ code) globals locals).
Proof. exact width_in_front. Qed.
Print Assumptions C84_width.

Example C84_width_case : forall cfg,
  t2_number [x92] (f32_of_i32 7) /\
  first_clearing cfg (new_program [x20; x0a; x8e; x16; x0e] [] [[x8c; x8d; x01; x0b]]) T2_HStem (map f32_of_i32 [1; 2]%Z) /\
  may_have_width T2_HStem = true /\ left_over T2_HStem (map f32_of_i32 [1; 2]%Z) [].
Proof. exact sample_first. Qed.

(** One width can take the place of another. *)
Theorem C84_changed : forall (cfg : config) (w w' : f32) (code : list byte) (globals locals : list (list byte))
    (e e' : list byte) (o : t2_operator) (arguments : list f32),
  t2_number e w -> t2_number e' w' -> first_clearing cfg (new_program code globals locals) o arguments ->
  may_have_width o = true -> left_over o arguments [] ->
  same_but_width cfg w' (new_program (e ++ code) globals locals) (new_program (e' ++ code) globals locals).
Proof. exact width_changed. Qed.
Print Assumptions C84_changed.

(** Other operators take the number for one of their own. *)
Theorem C84_lines : forall cfg, exists code e w arguments,
  t2_number e w /\ first_clearing cfg (new_program code [] []) T2_HLineTo arguments /\ left_over T2_HLineTo arguments [] /\
  ~ same_but_width cfg w (new_program code [] []) (new_program (e ++ code) [] []).
Proof. exact sample_line. Qed.
Print Assumptions C84_lines.

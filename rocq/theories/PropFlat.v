(** PropFlat: property C87. *)
From Verif Require Import Base Float T2Operation T2Program SpecProgram SpecFlat InlineSamples FlatFacts InlineFacts.
Local Open Scope list_scope.
Local Open Scope Z_scope.

(** C87. Without subroutines the same glyphs can be written. *)
Theorem C87_flat : forall (cfg : config) (k : nat), Z.of_nat k < 2 ^ 60 ->
  forall (globals locals : list (list byte)) (code : list byte),
  Z.of_nat (length globals) < 2 ^ 31 -> Z.of_nat (length locals) < 2 ^ 31 ->
  masks_of cfg k (new_program code globals locals) -> ends_cleanly cfg (new_program code globals locals) ->
  literal k globals locals code ->
  exists code', flat k code' /\ seen_alike cfg (new_program code globals locals) (new_program code' [] []).
Proof. exact flattened. Qed.
Print Assumptions C87_flat.

Theorem C87_succeeds : forall (cfg : config) (k : nat), Z.of_nat k < 2 ^ 60 ->
  forall (globals locals : list (list byte)) (code : list byte) (ops : list t2_operation) (w : option f32),
  Z.of_nat (length globals) < 2 ^ 31 -> Z.of_nat (length locals) < 2 ^ 31 ->
  masks_of cfg k (new_program code globals locals) -> literal k globals locals code ->
  shows cfg (new_program code globals locals) (Ok (ops, w)) ->
  exists code', flat k code' /\ shows cfg (new_program code' [] []) (Ok (ops, w)).
Proof. exact flattened_success. Qed.
Print Assumptions C87_succeeds.

(** Such glyphs come to an end. *)
Theorem C87_ends : forall (cfg : config) (k : nat), Z.of_nat k < 2 ^ 60 ->
  forall (globals locals : list (list byte)) (code : list byte),
  Z.of_nat (length globals) < 2 ^ 31 -> Z.of_nat (length locals) < 2 ^ 31 ->
  masks_of cfg k (new_program code globals locals) -> ends_cleanly cfg (new_program code globals locals) ->
  literal k globals locals code -> exists r, runs cfg (new_program code globals locals) r.
Proof. exact flattened_halts. Qed.
Print Assumptions C87_ends.

(** A glyph with a subroutine that calls another, which the glyph calls as well. *)
Example C87_case : literal 0 nested_globals nested_locals nested_code /\
  masks_of dev_profile 0 (new_program nested_code nested_globals nested_locals) /\
  ends_cleanly dev_profile (new_program nested_code nested_globals nested_locals).
Proof.
  split; [exact nested_literal|]. split; [apply maskless_masks|apply endless_cleanly];
    repeat constructor; cbn; intros H; decompose [or] H; try discriminate; contradiction.
Qed.

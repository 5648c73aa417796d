(** PropInline: property C83. *)
From Coq Require Import Reals.
From Verif Require Import Base Float T2Number T2Operation T2Program SpecInline RunFacts RewriteFacts IdentityFacts InlineFacts InlineSamples.
Local Open Scope list_scope.
Local Open Scope Z_scope.

(** C83. Subroutines can be inlined, renumbered, and moved between the tables: if [bodies] says which subroutines have taken
    the place of which, and the code and all of these have been rewritten accordingly, the program returns the same
    operations and the same width, or fails in the same way. *)
Theorem C83_rewritten : forall (cfg : config) (k : nat), Z.of_nat k < 2 ^ 60 ->
  forall (globals locals globals' locals' : list (list byte)),
  Z.of_nat (length globals) < 2 ^ 31 -> Z.of_nat (length locals) < 2 ^ 31 ->
  Z.of_nat (length globals') < 2 ^ 31 -> Z.of_nat (length locals') < 2 ^ 31 ->
  forall (bodies : list byte -> list byte -> Prop),
  (forall b b', bodies b b' -> rewritten cfg k globals locals globals' locals' bodies b [] b') ->
  forall (code code' : list byte),
  masks_of cfg k (new_program code globals locals) -> ends_cleanly cfg (new_program code globals locals) ->
  rewritten cfg k globals locals globals' locals' bodies code [] code' ->
  seen_alike cfg (new_program code globals locals) (new_program code' globals' locals').
Proof. exact programs_inlined. Qed.
Print Assumptions C83_rewritten.

(** A program that succeeds still does, with the same result. *)
Theorem C83_succeeds : forall (cfg : config) (k : nat), Z.of_nat k < 2 ^ 60 ->
  forall (globals locals globals' locals' : list (list byte)) (bodies : list byte -> list byte -> Prop) (code code' : list byte),
  Z.of_nat (length globals) < 2 ^ 31 -> Z.of_nat (length locals) < 2 ^ 31 ->
  Z.of_nat (length globals') < 2 ^ 31 -> Z.of_nat (length locals') < 2 ^ 31 ->
  (forall b b', bodies b b' -> rewritten cfg k globals locals globals' locals' bodies b [] b') ->
  masks_of cfg k (new_program code globals locals) ->
  rewritten cfg k globals locals globals' locals' bodies code [] code' ->
  forall ops w, shows cfg (new_program code globals locals) (Ok (ops, w)) -> shows cfg (new_program code' globals' locals') (Ok (ops, w)).
Proof. exact success_inlined. Qed.
Print Assumptions C83_succeeds.

(** The two conditions on the program hold if the bytes of the operators in question do not occur: hintmask and cntrmask
    anywhere, and endchar in the subroutines. *)
Theorem C83_maskless : forall (cfg : config) (k : nat) (code : list byte) (globals locals : list (list byte)),
  Forall (fun c => ~ In x13 c /\ ~ In x14 c) (code :: globals ++ locals) -> masks_of cfg k (new_program code globals locals).
Proof. exact maskless_masks. Qed.
Print Assumptions C83_maskless.

Theorem C83_ends : forall (cfg : config) (code : list byte) (globals locals : list (list byte)),
  Forall (fun c => ~ In x0e c) (globals ++ locals) -> ends_cleanly cfg (new_program code globals locals).
Proof. exact endless_cleanly. Qed.
Print Assumptions C83_ends.

(** The second condition is needed: what is left in an inlined subroutine after a call that ends the program is an error
    that inlining removes. *)
Theorem C83_trailing : forall (cfg : config), exists k (bodies : list byte -> list byte -> Prop) locals code code',
  (forall b b', bodies b b' -> rewritten cfg k [] locals [] locals bodies b [] b') /\
  masks_of cfg k (new_program code [] locals) /\
  rewritten cfg k [] locals [] locals bodies code [] code' /\
  ~ seen_alike cfg (new_program code [] locals) (new_program code' [] locals).
Proof. exact trailing_matters. Qed.
Print Assumptions C83_trailing.

(** A local subroutine that calls a global one is inlined, and the global one becomes a local one with another number. *)
Example C83_case : seen_alike dev_profile (new_program nested_code nested_globals nested_locals) (new_program flat_code [] flat_locals).
Proof.
  apply (C83_rewritten dev_profile 0) with (bodies := lines); try reflexivity.
  - intros b b' [-> ->]. apply line_rewritten.
  - apply C83_maskless. repeat constructor; cbn; intros H; decompose [or] H; try discriminate; contradiction.
  - apply C83_ends. repeat constructor; cbn; intros H; decompose [or] H; try discriminate; contradiction.
  - apply nested_rewritten.
Qed.
Example C83_case_shows : exists ops q, run dev_profile 20 (new_program nested_code nested_globals nested_locals) = Ok (ops, q) /\
  map fst ops = [T2_RMoveTo; T2_RLineTo; T2_HLineTo; T2_HLineTo] /\ flat_code <> nested_code /\ flat_locals <> nested_locals.
Proof. eexists _, _. split; [vm_compute; reflexivity|]. split; [reflexivity|]. split; discriminate. Qed.

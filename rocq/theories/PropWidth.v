(** PropWidth: property C42 for all character strings, those with subroutines and expressions included. *)
From Verif Require Import Base Float T2Operation T2Program BaseFacts SpecProgram SpecWidth WidthFacts WidthSamples.
Local Open Scope list_scope.

(** Every execution that ends has a list of the operators that clear the stack, with their arguments; those
    before the final [endchar] are the operations returned. *)
Theorem C42_surpluses : forall (cfg : config) (p : program) (ops : list t2_operation) (q : program),
  runs cfg p (Ok (ops, q)) ->
  exists l tail, clearing cfg p (l ++ tail) q /\
    Forall2 (fun op a => fst op = fst a /\ fst a <> T2_EndChar /\
      exists surplus, longest (fst a) (snd a) surplus (snd op)) ops l /\
    (tail = [] \/ exists arguments, tail = [(T2_EndChar, arguments)]).
Proof. exact run_clearing. Qed.
Print Assumptions C42_surpluses.

(** The width is exactly the top-most surplus argument of the first of them that has any. *)
Theorem C42_exactly : forall (cfg : config) (code : list byte) (globals locals : list (list byte))
    (l : list (t2_operator * list f32)) (q : program),
  clearing cfg (new_program code globals locals) l q ->
  forall w, first_surplus l w <-> w = width q.
Proof. exact clearing_exactly. Qed.
Print Assumptions C42_exactly.

(** So it is the one of the specification if the first of them has the width and nothing else left over, or if
    nothing is left over by any of them.  Missing is the rest: implicit stem hints in front of a mask, accented
    characters, and strings that leave something over later. *)
Theorem C42_whole_partial : forall (cfg : config) (code : list byte) (globals locals : list (list byte))
    (l : list (t2_operator * list f32)) (q : program),
  clearing cfg (new_program code globals locals) l q -> width_in_place l -> width q = specified l.
Proof. exact in_place. Qed.
Print Assumptions C42_whole_partial.

(** 7 -107 callsubr 3 hmoveto endchar, the subroutine being 1 2 hstem return. *)
Example C42_whole_case : forall cfg, exists l q,
  clearing cfg (new_program [x92; x20; x0a; x8e; x16; x0e] [] [[x8c; x8d; x01; x0b]]) l q /\
  width_in_place l /\ specified l = Some (f32_of_i32 7) /\ length l = 3%nat.
Proof. exact sample_whole. Qed.

(** A mask with implicit stem hints spoils the width also where it is not the first operator: the specification
    says that there is no width, and the program has one. *)
Theorem C42_implicit_refuted : forall cfg, exists code l q,
  clearing cfg (new_program code [] []) l q /\ runs cfg (new_program code [] []) (Ok ([
    (T2_HStemHM, map f32_of_i32 [1; 2]%Z); (T2_HintMask, []); (T2_HMoveTo, map f32_of_i32 [3]%Z)], q)) /\
  l = [(T2_HStemHM, map f32_of_i32 [1; 2]%Z); (T2_HintMask, map f32_of_i32 [4; 5]%Z);
       (T2_HMoveTo, map f32_of_i32 [3]%Z); (T2_EndChar, [])] /\
  specified l = None /\ width q = Some (f32_of_i32 5).
Proof. exact sample_implicit. Qed.
Print Assumptions C42_implicit_refuted.

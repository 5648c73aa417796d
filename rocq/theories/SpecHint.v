(** SpecHint: character strings without their hints. *)
From Verif Require Import Base Float T2Operation T2Program.
From Verif Require Export SpecProgram SpecRewrite SpecWidth SpecDeep.

Definition hint_operator (o : t2_operator) : bool := stem_operator o || mask_operator o.

(** The code on the right is that on the left without the hint operators, the numbers right in front
    of them and their masks, which have [k] bytes. *)
Inductive unhinted (k : nat) : list byte -> list byte -> Prop :=
| unhinted_nothing : unhinted k [] []
| unhinted_kept e xs o c c' :
    each t2_number e xs -> hint_operator o = false -> unhinted k c c' ->
    unhinted k (e ++ t2_bytes o ++ c) (e ++ t2_bytes o ++ c')
| unhinted_stems e xs o c c' :
    each t2_number e xs -> stem_operator o = true -> unhinted k c c' ->
    unhinted k (e ++ t2_bytes o ++ c) c'
| unhinted_mask e xs o m c c' :
    each t2_number e xs -> mask_operator o = true -> length m = k -> unhinted k c c' ->
    unhinted k (e ++ t2_bytes o ++ m ++ c) c'.

(** All arguments of the hint operators are numbers right in front of them. *)
Definition hints_apart (cfg : config) (p : program) : Prop :=
  forall ops q o st, trace cfg p ops q -> about_to q o st -> hint_operator o = true -> stack q = [].

(** The operations that draw. *)
Definition outline (ops : list t2_operation) : list t2_operation :=
  filter (fun op => path_operator (fst op)) ops.

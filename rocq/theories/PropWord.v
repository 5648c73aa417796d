(** PropWord: properties C92 and C93. *)
From Verif Require Import Base Float C1Operation C1FontSet T2Operation T2Program C1Word T2Word FontSetSamples WordFacts WordRunFacts WordBoundFacts.
Local Open Scope list_scope.
Local Open Scope Z_scope.

(** C92. What the rest of the development assumes is a [usize] of 64 bits. *)
Theorem C92_wide : forall (cfg : config) (tape : list byte) (position : Z),
  word_font_set 64 cfg tape position = read_font_set cfg tape position.
Proof. exact wide_font_set. Qed.
Print Assumptions C92_wide.

(** A file that fits in the memory of a 32-bit machine reads there as it does on a 64-bit one. *)
Theorem C92_read : forall (cfg : config) (tape : list byte) (position : Z) (f : font_set),
  Z.of_nat (length tape) < 2 ^ 31 ->
  (word_font_set 32 cfg tape position = Ok f <-> word_font_set 64 cfg tape position = Ok f).
Proof. exact narrow_read_wide. Qed.
Print Assumptions C92_read.

(** One that does not read fails in the same way, but for one case: where a 64-bit machine reports the
    end of the file, a 32-bit one may panic for want of address space. *)
Theorem C92_fails : forall (cfg : config) (tape : list byte) (position : Z),
  Z.of_nat (length tape) < 2 ^ 31 ->
  word_font_set 32 cfg tape position = word_font_set 64 cfg tape position \/
  (preallocates cfg = true /\ word_font_set 32 cfg tape position = Panic CapacityOverflow /\
   word_font_set 64 cfg tape position = Err UnexpectedEof).
Proof. exact narrow_fails. Qed.
Print Assumptions C92_fails.

(** Header, and an index of one name of 2^31 bytes. *)
Definition long_name : list byte := [x01; x00; x04; x01; x00; x01; x04; x00; x00; x00; x01; x80; x00; x00; x01].

Example C92_differs : word_font_set 32 release_profile long_name 0 = Panic CapacityOverflow /\
  word_font_set 64 release_profile long_name 0 = Err UnexpectedEof.
Proof. split; vm_compute; reflexivity. Qed.

Example C92_case : word_font_set 32 dev_profile name_keyed 0 = Ok name_keyed_value /\
  word_font_set 32 release_profile ([x07; x07] ++ cid_keyed) 2 = Ok cid_keyed_value.
Proof. split; vm_compute; reflexivity. Qed.

(** C93. *)
Theorem C93_wide : forall (cfg : config) (fuel : nat) (p : program), word_run 64 cfg fuel p = run cfg fuel p.
Proof. exact wide_run. Qed.
Print Assumptions C93_wide.

(** A glyph that calls no subroutines is executed alike, whatever the outcome. *)
Theorem C93_no_subroutines : forall (cfg : config) (fuel : nat) (code : list byte),
  Z.of_nat (length code) < 2 ^ 32 ->
  word_run 32 cfg fuel (new_program code [] []) = word_run 64 cfg fuel (new_program code [] []).
Proof. exact word_plain. Qed.
Print Assumptions C93_no_subroutines.

(** So is any glyph that a checked build accepts on a 64-bit machine, if it declares fewer than 2^32 - 7
    stem hints; and this in every build. *)
Theorem C93_within : forall (cfg cfg' : config) (fuel : nat) (code : list byte) (g l : list (list byte))
    (ops : list t2_operation) (q : program),
  overflow_checks cfg = true -> word_run 64 cfg fuel (new_program code g l) = Ok (ops, q) -> stems q + 7 < 2 ^ 32 ->
  word_run 32 cfg' fuel (new_program code g l) = Ok (ops, q).
Proof. exact word_within. Qed.
Print Assumptions C93_within.

(** So is any glyph, whether it is well-formed or not, on which a checked 32-bit build does not panic. *)
Theorem C93_quiet : forall (cfg cfg' : config) (fuel : nat) (code : list byte) (g l : list (list byte))
    (r : outcome (list t2_operation * program)),
  overflow_checks cfg = true -> word_run 32 cfg fuel (new_program code g l) = r -> (forall k, r <> Panic k) ->
  word_run 32 cfg' fuel (new_program code g l) = r /\ word_run 64 cfg' fuel (new_program code g l) = r.
Proof. exact word_quiet. Qed.
Print Assumptions C93_quiet.

(** In a checked build the only other outcome is a panic. *)
Theorem C93_checked : forall (cfg : config) (fuel : nat) (code : list byte) (g l : list (list byte)),
  overflow_checks cfg = true ->
  word_run 32 cfg fuel (new_program code g l) = word_run 64 cfg fuel (new_program code g l) \/
  word_run 32 cfg fuel (new_program code g l) = Panic ArithmeticOverflow.
Proof. exact word_checked. Qed.
Print Assumptions C93_checked.

(** And it does happen, with code and subroutines that fit in the memory of such a machine. *)
Theorem C93_bound : forall (cfg : config), overflow_checks cfg = true ->
  exists (code : list byte) (subroutines : list (list byte)) (fuel : nat) (ops : list t2_operation) (q : program),
  Z.of_nat (length code) < 2 ^ 30 /\ length subroutines = 32%nat /\
  Forall (fun s => (length s <= 5)%nat) subroutines /\
  word_run 64 cfg fuel (new_program code [] subroutines) = Ok (ops, q) /\
  word_run 32 cfg fuel (new_program code [] subroutines) = Panic ArithmeticOverflow.
Proof. exact deep_bound. Qed.
Print Assumptions C93_bound.

(** In an unchecked build the same glyph is drawn there without complaint and without its last movement. *)
Theorem C93_silent : forall (cfg : config), overflow_checks cfg = false ->
  exists (code : list byte) (subroutines : list (list byte)) (fuel : nat)
    (ops : list t2_operation) (q : program) (ops' : list t2_operation) (q' : program),
  Z.of_nat (length code) < 2 ^ 30 /\ length subroutines = 32%nat /\
  Forall (fun s => (length s <= 5)%nat) subroutines /\
  word_run 64 cfg fuel (new_program code [] subroutines) = Ok (ops, q) /\
  word_run 32 cfg fuel (new_program code [] subroutines) = Ok (ops', q') /\
  In (T2_HMoveTo, [f32_of_i32 0]) ops /\ ~ In (T2_HMoveTo, [f32_of_i32 0]) ops'.
Proof. exact deep_silent. Qed.
Print Assumptions C93_silent.

(** 0 0 hstemhm 0 0 0 0 hintmask [a0] endchar; the second half of it also as a subroutine. *)
Example C93_case : match word_run 32 dev_profile 9 (new_program [x8b; x8b; x12; x8b; x8b; x8b; x8b; x13; xa0; x0e] [] []) with
  | Ok (_, q) => stems q = 3 | _ => False end.
Proof. vm_compute. reflexivity. Qed.
Example C93_case_calls :
  match word_run 64 dev_profile 9 (new_program [x8b; x8b; x12; x20; x0a; x0e] [] [[x8b; x8b; x8b; x8b; x13; xa0; x0b]]) with
  | Ok (_, q) => stems q = 3 | _ => False end.
Proof. vm_compute. reflexivity. Qed.
(** hintmask with too few bytes behind a call that declares nine stems. *)
Example C93_case_quiet : word_run 32 dev_profile 9
    (new_program [x20; x0a; x13; xa0] [] [[x8b; x8b; x8b; x8b; x8b; x8b; x8b; x8b; x8b; x8b; x8b; x8b; x8b; x8b; x8b; x8b; x8b; x8b; x01; x0b]]) =
  Err UnexpectedEof.
Proof. vm_compute. reflexivity. Qed.

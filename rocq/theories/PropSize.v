(** PropSize: properties C60, C61 and C66. *)
From Verif Require Import Base Float C1Number C1Operation C1Index C1Glyphs C1FontSet T2Operation T2Program SpecProgram SpecSize SizeFacts
  RecursionFacts BaseFacts RunFacts ProgramFacts WeightFacts GrowthFacts FontSetSamples.
Local Open Scope list_scope.
Local Open Scope nat_scope.

(** C60. Operations and operands, and what is left on the stack, [b] being the length of the longest
    subroutine and [d] a depth that calls do not exceed. *)
Theorem C60_programs : forall (cfg : config) (code : list byte) (g l : list (list byte)) (b d : nat)
    (ops : list t2_operation) (q : program),
  Forall (fun c => length c <= b) g -> Forall (fun c => length c <= b) l ->
  trace cfg (new_program code g l) ops q ->
  (exists ops' q', trace cfg (new_program code g l) ops' q' /\ d < length (callers q')) \/
  count_operations ops + length (stack q) <= length code * S b ^ d.
Proof. exact program_size. Qed.
Print Assumptions C60_programs.

Theorem C60_no_subroutines : forall (cfg : config) (code : list byte) (ops : list t2_operation) (q : program),
  trace cfg (new_program code [] []) ops q -> count_operations ops + length (stack q) <= length code.
Proof. exact program_size_alone. Qed.
Print Assumptions C60_no_subroutines.

(** With subroutines there can be exponentially many operations. *)
Theorem C60_growth : forall (cfg : config) (n : nat), n <= 214 ->
  exists (code : list byte) (l : list (list byte)) (ops : list t2_operation) (q : program),
    length code + length (concat l) = 5 + 5 * n /\ trace cfg (new_program code [] l) ops q /\
    nexts cfg q (Ok (None, q)) /\ length ops = 2 ^ n.
Proof. exact program_grows. Qed.
Print Assumptions C60_growth.

Theorem C60_dictionaries : forall (s : list byte) (t : operations),
  read_operations s = Ok t -> count_operations t <= length s.
Proof. exact dictionary_size. Qed.
Print Assumptions C60_dictionaries.

Theorem C60_indices : forall (cfg : config) (s : list byte) (x : index) (r : list byte),
  read_index cfg s = Ok (x, r) -> Z.of_nat (length s) = (index_size x + Z.of_nat (length r))%Z.
Proof. exact index_size_read. Qed.
Print Assumptions C60_indices.

(** Two numbers and an operator: the bound is attained. *)
Example C60_case : exists q, trace dev_profile (new_program [x8b; x8c; x15] [] []) [(T2_RMoveTo, map f32_of_i32 [0%Z; 1%Z])] q /\
  count_operations [(T2_RMoveTo, map f32_of_i32 [0%Z; 1%Z])] + length (stack q) = length [x8b; x8c; x15].
Proof.
  eexists. split; [eapply trace_emit; [vm_compute; reflexivity|constructor]|reflexivity].
Qed.

(** Four moves, by two calls of a subroutine of two moves. *)
Example C60_case_calls :
  match run dev_profile 20 (new_program [x20; x0a; x20; x0a; x0e] [] [[x8b; x16; x8c; x16; x0b]]) with
  | Ok (ops, _) => count_operations ops = 8 | _ => False end.
Proof. vm_compute. reflexivity. Qed.

Example C60_case_dictionary : match read_operations [x8b; x8c; x05; x8d; x11] with
  | Ok t => count_operations t = 5 | _ => False end.
Proof. vm_compute. reflexivity. Qed.

Example C60_case_index : match read_index dev_profile [x00; x02; x01; x01; x02; x04; x41; x42; x43; xff] with
  | Ok (x, r) => index_size x = 9%Z /\ r = [xff] | _ => False end.
Proof. split; reflexivity. Qed.

(** C61. [next] calls itself once per operator that returns nothing; [next cfg n] is [OutOfFuel] if there are
    more than [n] such calls inside one another.  Any number of them is possible. *)
Theorem C61_refuted : forall (cfg : config) (n : nat), exists (code : list byte) (q : program),
  length code = 1 + 2 * S n /\
  next cfg (S n) (new_program code [] []) = OutOfFuel /\
  next cfg (S (S n)) (new_program code [] []) = Ok (None, q).
Proof. exact deep. Qed.
Print Assumptions C61_refuted.

(** They are no more than the bytes there are to execute. *)
Theorem C61_partial : forall (cfg : config) (code : list byte) (g l : list (list byte)) (b d : nat)
    (ops : list t2_operation) (p : program),
  Forall (fun c => length c <= b) g -> Forall (fun c => length c <= b) l ->
  trace cfg (new_program code g l) ops p ->
  next cfg (S (length code * S b ^ d)) p <> OutOfFuel \/
  (exists ops' q', trace cfg (new_program code g l) ops' q' /\ d < length (callers q')).
Proof. exact shallow. Qed.
Print Assumptions C61_partial.

Theorem C61_no_subroutines_partial : forall (cfg : config) (code : list byte) (ops : list t2_operation) (p : program),
  trace cfg (new_program code [] []) ops p -> next cfg (S (length code)) p <> OutOfFuel.
Proof. exact shallow_alone. Qed.
Print Assumptions C61_no_subroutines_partial.

Example C61_case : exists q, next dev_profile 4 (new_program [x8b; x0c; x0e; x0c; x0e; x16] [] []) =
  Ok (Some (T2_HMoveTo, [f32_of_i32 0]), q).
Proof. eexists. vm_compute. reflexivity. Qed.

(** C66. What a font set holds, in terms of the length of the file, the number of fonts, and the number of
    private dictionaries of all fonts. *)
Theorem C66_bound : forall (cfg : config) (tape : list byte) (p : Z) (f : font_set),
  read_font_set cfg tape p = Ok f ->
  length (fs_records f) = length (fs_operations f) /\
  font_set_weight f <= 2 * length tape + 6 * length tape * length (fs_operations f) +
    3 * length tape * list_sum (map privates (fs_records f)) /\
  length (fs_operations f) <= length tape /\ Forall (fun r => privates r <= length tape) (fs_records f).
Proof. exact font_set_length. Qed.
Print Assumptions C66_bound.

Theorem C66_cubic : forall (cfg : config) (tape : list byte) (p : Z) (f : font_set),
  read_font_set cfg tape p = Ok f ->
  font_set_weight f <= 2 * length tape + 6 * length tape ^ 2 + 3 * length tape ^ 3.
Proof. exact font_set_cubic. Qed.
Print Assumptions C66_cubic.

(** The exponent is needed: fonts can share what they refer to in the file, but not in memory. *)
Theorem C66_growth : forall (cfg : config) (n : nat), 1 <= n -> (Z.of_nat n < 2 ^ 16)%Z ->
  exists (tape : list byte) (f : font_set),
    length tape = 25 + 57 * n /\ read_font_set cfg tape 0 = Ok f /\ n ^ 3 <= font_set_weight f.
Proof. exact font_set_grows. Qed.
Print Assumptions C66_growth.

Example C66_case : read_font_set dev_profile cid_keyed 0 = Ok cid_keyed_value /\
  0 < font_set_weight cid_keyed_value <= length cid_keyed.
Proof. split; [vm_compute; reflexivity|]. apply conj; apply Nat.leb_le; vm_compute; reflexivity. Qed.

(** A file of 310 bytes, read. *)
Example C66_case_growth : match read_font_set dev_profile (shared_file 5) 0 with
  | Ok f => font_set_weight f = 275 | _ => False end.
Proof. vm_compute. reflexivity. Qed.

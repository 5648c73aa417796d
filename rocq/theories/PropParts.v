(** PropParts: properties C73 and C74. *)
From Verif Require Import Base Float C1Number C1Operation C1Index C1Glyphs C1FontSet C1Tape C1Plan SpecParts SpecSize
  PlanFacts AskFacts PartsFacts OrderFacts WorkFacts FontSetSamples GrowthFacts.
Local Open Scope list_scope.
Local Open Scope Z_scope.

(** C73. A font set stays what it is whatever happens to the file outside of its parts. *)
Theorem C73_elsewhere : forall (cfg : config) (tape tape' : list byte) (p : Z) (f : font_set),
  0 <= p -> Z.of_nat (length tape) < 2 ^ 63 -> read_font_set cfg tape p = Ok f ->
  (forall q, font_set_part (overflow_checks cfg) tape p f q -> same_byte tape tape' q) ->
  read_font_set cfg tape' p = Ok f.
Proof. exact font_set_elsewhere. Qed.
Print Assumptions C73_elsewhere.

(** [carried_out tape (font_set_plan cfg p)] is the outcome of reading, with the place the tape is left at,
    and the list of the places of the bytes that were asked for. *)
Theorem C73_agrees : forall (cfg : config) (tape : list byte) (p : Z), 0 <= p ->
  fst (carried_out tape (font_set_plan cfg p)) = font_set_taken cfg tape p /\
  fst (carried_out tape (count_plan cfg p)) = count_taken cfg tape p.
Proof. exact plans_agree. Qed.
Print Assumptions C73_agrees.

(** The bytes of the parts are asked for and no others. *)
Theorem C73_parts : forall (cfg : config) (tape : list byte) (p : Z), 0 <= p -> Z.of_nat (length tape) < 2 ^ 63 ->
  forall (f : font_set) (place : Z), fst (carried_out tape (font_set_plan cfg p)) = Ok (f, place) ->
  forall q, In q (snd (carried_out tape (font_set_plan cfg p))) <-> font_set_part (overflow_checks cfg) tape p f q.
Proof. exact font_set_parts. Qed.
Print Assumptions C73_parts.

(** They are asked for part by part and in order, the format of a character set, an encoding or a selector
    twice. *)
Theorem C73_order : forall (cfg : config) (tape : list byte) (p : Z), 0 <= p -> Z.of_nat (length tape) < 2 ^ 63 ->
  forall (f : font_set) (place : Z), fst (carried_out tape (font_set_plan cfg p)) = Ok (f, place) ->
  forall l, font_set_order (overflow_checks cfg) tape p f l <-> l = snd (carried_out tape (font_set_plan cfg p)).
Proof. exact order_iff. Qed.
Print Assumptions C73_order.

(** Errors and panics too depend on nothing but what is asked for. *)
Theorem C73_asked : forall (cfg : config) (tape tape' : list byte) (p : Z), 0 <= p ->
  (forall q, In q (snd (carried_out tape (font_set_plan cfg p))) -> same_byte tape tape' q) ->
  carried_out tape' (font_set_plan cfg p) = carried_out tape (font_set_plan cfg p).
Proof. exact font_set_same. Qed.
Print Assumptions C73_asked.

Theorem C73_count_asked : forall (cfg : config) (tape tape' : list byte) (p : Z), 0 <= p ->
  (forall q, In q (snd (carried_out tape (count_plan cfg p))) -> same_byte tape tape' q) ->
  carried_out tape' (count_plan cfg p) = carried_out tape (count_plan cfg p).
Proof. exact count_same. Qed.
Print Assumptions C73_count_asked.

(** Counting asks for the header, and for the two bytes at the size of the header. *)
Theorem C73_count_places : forall (cfg : config) (tape : list byte) (p n place : Z), 0 <= p ->
  fst (carried_out tape (count_plan cfg p)) = Ok (n, place) ->
  exists (b : byte) (start : Z), stands tape (p + 2) [b] /\ located (overflow_checks cfg) p (bz b) start /\
    forall q, In q (snd (carried_out tape (count_plan cfg p))) <-> p <= q < p + 4 \/ start <= q < start + 2.
Proof. exact count_places. Qed.
Print Assumptions C73_count_places.

(** The readers of a single structure ask for the bytes that they take. *)
Theorem C73_readers_agree : forall (cfg : config) (tape : list byte) (here n : Z), 0 <= here ->
  fst (carried_out tape (index_plan cfg here)) = taken (read_index cfg) tape here /\
  fst (carried_out tape (character_set_plan cfg n here)) = taken (read_character_set cfg n) tape here /\
  fst (carried_out tape (encoding_plan cfg here)) = taken (read_encoding cfg) tape here /\
  fst (carried_out tape (dictionary_encoding_plan cfg n here)) = taken (read_dictionary_encoding cfg n) tape here.
Proof. exact reader_plans_agree. Qed.
Print Assumptions C73_readers_agree.

Theorem C73_readers : forall (cfg : config) (tape : list byte) (here n : Z), 0 <= here ->
  (forall x there, fst (carried_out tape (index_plan cfg here)) = Ok (x, there) ->
    forall q, In q (snd (carried_out tape (index_plan cfg here))) <-> here <= q < there) /\
  (forall c there, fst (carried_out tape (character_set_plan cfg n here)) = Ok (c, there) ->
    forall q, In q (snd (carried_out tape (character_set_plan cfg n here))) <-> here <= q < there) /\
  (forall e there, fst (carried_out tape (encoding_plan cfg here)) = Ok (e, there) ->
    forall q, In q (snd (carried_out tape (encoding_plan cfg here))) <-> here <= q < there) /\
  (forall e there, fst (carried_out tape (dictionary_encoding_plan cfg n here)) = Ok (e, there) ->
    forall q, In q (snd (carried_out tape (dictionary_encoding_plan cfg n here))) <-> here <= q < there).
Proof. exact places. Qed.
Print Assumptions C73_readers.

Theorem C73_readers_order : forall (cfg : config) (tape : list byte) (here n : Z),
  (exists k, snd (carried_out tape (index_plan cfg here)) = span here k) /\
  (exists k, snd (carried_out tape (character_set_plan cfg n here)) = here :: span here k) /\
  (exists k, snd (carried_out tape (encoding_plan cfg here)) = here :: span here k) /\
  (exists k, snd (carried_out tape (dictionary_encoding_plan cfg n here)) = here :: span here k).
Proof. exact readers_ordered. Qed.
Print Assumptions C73_readers_order.

(** A font set between other bytes, which change. *)
Example C73_case : let tape := [xff] ++ cid_keyed ++ [x00] in let tape' := [x01] ++ cid_keyed in
  read_font_set dev_profile tape 1 = Ok cid_keyed_value /\
  (forall q, font_set_part true tape 1 cid_keyed_value q -> same_byte tape tape' q) /\
  ~ same_byte tape tape' 0 /\ read_font_set dev_profile tape' 1 = Ok cid_keyed_value.
Proof.
  intros tape tape'. split; [vm_compute; reflexivity|]. split; [|split; [|vm_compute; reflexivity]].
  - intros q I.
    apply (C73_parts dev_profile tape 1 ltac:(lia) ltac:(vm_compute; reflexivity) cid_keyed_value 59
             ltac:(vm_compute; reflexivity)) in I.
    assert (K : Forall (fun q => 0 <= q /\ byte_at tape q = byte_at tape' q)
                  (snd (carried_out tape (font_set_plan dev_profile 1)))).
    { vm_compute. repeat constructor; discriminate. }
    rewrite Forall_forall in K. destruct (K q I) as [N E]. intros b.
    rewrite <- !byte_at_stands by assumption. rewrite E. reflexivity.
  - intros H. specialize (H xff). rewrite <- !byte_at_stands in H by lia. vm_compute in H. destruct H as [H _].
    discriminate (H eq_refl).
Qed.

(** The format of the selector is asked for twice. *)
Example C73_case_order : exists a b, snd (carried_out cid_keyed (font_set_plan dev_profile 0)) =
  span 0 a ++ Z.of_nat a :: span (Z.of_nat a) b /\ (0 < a)%nat /\ (0 < b)%nat.
Proof. exists 40%nat, 18%nat. split; [vm_compute; reflexivity|lia]. Qed.

(** The last byte of the sample is missing: an error which stays whatever the byte in front is. *)
Example C73_case_error : let tape := [xff] ++ removelast cid_keyed in let tape' := [x01] ++ removelast cid_keyed in
  fst (carried_out tape (font_set_plan dev_profile 1)) = Err UnexpectedEof /\
  Forall (fun q => 1 <= q <= 58) (snd (carried_out tape (font_set_plan dev_profile 1))) /\
  carried_out tape' (font_set_plan dev_profile 1) = carried_out tape (font_set_plan dev_profile 1).
Proof.
  split; [vm_compute; reflexivity|]. split; [|vm_compute; reflexivity]. vm_compute. repeat constructor; discriminate.
Qed.

Example C73_case_count : carried_out cid_keyed (count_plan dev_profile 0) = (Ok (1, 6), [0; 1; 2; 3; 4; 5]).
Proof. vm_compute. reflexivity. Qed.

Example C73_case_reader : carried_out [xff; x00; x01; x01; x01; x02; x41; xff] (index_plan dev_profile 1) =
  (Ok ({| count := 1; offset_size := 1; offsets := [1; 2]; data := [[x41]] |}, 7), [1; 2; 3; 4; 5; 6]).
Proof. vm_compute. reflexivity. Qed.

Local Open Scope nat_scope.

(** C74. How many bytes are asked for, each counted as often as it is asked for; whatever the outcome is. *)
Theorem C74_bound : forall (cfg : config) (tape : list byte) (p : Z), (0 <= p)%Z ->
  length (snd (carried_out tape (font_set_plan cfg p))) <= 2 * (length tape + 2) ^ 3.
Proof. exact font_set_le. Qed.
Print Assumptions C74_bound.

(** In terms of the number of fonts and of private dictionaries; no less than half of what is held in memory. *)
Theorem C74_success : forall (cfg : config) (tape : list byte) (p : Z), (0 <= p)%Z ->
  forall (f : font_set) (place : Z), fst (carried_out tape (font_set_plan cfg p)) = Ok (f, place) ->
  length (snd (carried_out tape (font_set_plan cfg p))) <=
    5 * length tape + (5 * length tape + 3) * length (fs_operations f) +
    2 * length tape * list_sum (map privates (fs_records f)) /\
  font_set_weight f <= 2 * length (snd (carried_out tape (font_set_plan cfg p))).
Proof. exact font_set_ok. Qed.
Print Assumptions C74_success.

(** The exponent is needed. *)
Theorem C74_growth : forall (cfg : config) (n : nat), 1 <= n -> (Z.of_nat n < 2 ^ 16)%Z ->
  exists (tape : list byte) (f : font_set) (place : Z),
    length tape = 25 + 57 * n /\ fst (carried_out tape (font_set_plan cfg 0)) = Ok (f, place) /\
    n ^ 3 <= 2 * length (snd (carried_out tape (font_set_plan cfg 0))).
Proof. exact work_grows. Qed.
Print Assumptions C74_growth.

Theorem C74_readers : forall (cfg : config) (tape : list byte) (here n : Z), (0 <= here)%Z ->
  length (snd (carried_out tape (index_plan cfg here))) <= length tape + 1 /\
  length (snd (carried_out tape (character_set_plan cfg n here))) <= length tape + 2 /\
  length (snd (carried_out tape (encoding_plan cfg here))) <= length tape + 2 /\
  length (snd (carried_out tape (dictionary_encoding_plan cfg n here))) <= length tape + 2.
Proof. exact readers_le. Qed.
Print Assumptions C74_readers.

(** 58 bytes, one of which is asked for twice. *)
Example C74_case : length cid_keyed = 58 /\ length (snd (carried_out cid_keyed (font_set_plan dev_profile 0))) = 59.
Proof. vm_compute. split; reflexivity. Qed.

Example C74_case_growth : length (shared_file 5) = 310 /\
  length (snd (carried_out (shared_file 5) (font_set_plan dev_profile 0))) = 802.
Proof. vm_compute. split; reflexivity. Qed.

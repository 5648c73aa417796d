(** PropDevice: properties C79 and C80. *)
From Verif Require Import Base Float C1Number C1Operation C1Index C1Glyphs C1FontSet C1Tape C1Plan SpecDevice DeviceFacts FontSetSamples.
Local Open Scope list_scope.
Local Open Scope Z_scope.

(** C79. A failure of the device is what the caller gets, and only the first of them. *)
Theorem C79_faults : forall (A E : Type) (dev : device E) (file : list byte) (m : plan A) (e : E), holds dev file ->
  fst (put_to dev 0 m) = Failed e <-> exists k, first_failure dev (snd (carried_out file m)) k e.
Proof. exact (fun A E dev file m e H => put_failed dev file H m e). Qed.
Print Assumptions C79_faults.

(** Without one, it is what is read from the file, be it a value, an error or a panic. *)
Theorem C79_results : forall (A E : Type) (dev : device E) (file : list byte) (m : plan A) (o : outcome A), holds dev file ->
  fst (put_to dev 0 m) = Returned o <-> fst (carried_out file m) = o /\ no_failure dev (snd (carried_out file m)).
Proof. exact (fun A E dev file m o H => put_returned dev file H m o). Qed.
Print Assumptions C79_results.

(** Nothing is tried again, and nothing is asked for thereafter. *)
Theorem C79_stopped : forall (A E : Type) (dev : device E) (file : list byte) (m : plan A), holds dev file ->
  (no_failure dev (snd (carried_out file m)) -> snd (put_to dev 0 m) = snd (carried_out file m)) /\
  forall k e, first_failure dev (snd (carried_out file m)) k e ->
    snd (put_to dev 0 m) = firstn (S k) (snd (carried_out file m)).
Proof. exact (fun A E dev file m H => put_asked dev file H m). Qed.
Print Assumptions C79_stopped.

(** For font sets: no device that fails now and then leads to a font set, an error or a panic
    the file does not lead to. *)
Theorem C79_font_sets : forall (E : Type) (dev : device E) (file : list byte) (cfg : config) (p : Z), 0 <= p -> holds dev file ->
  (forall f place, fst (put_to dev 0 (font_set_plan cfg p)) = Returned (Ok (f, place)) -> read_font_set cfg file p = Ok f) /\
  (forall e, fst (put_to dev 0 (font_set_plan cfg p)) = Returned (Err e) -> read_font_set cfg file p = Err e) /\
  (forall k, fst (put_to dev 0 (font_set_plan cfg p)) = Returned (Panic k) -> read_font_set cfg file p = Panic k).
Proof. exact (fun E => @device_font_sets E). Qed.
Print Assumptions C79_font_sets.

(** What the device does with the bytes outside of the parts of the font set does not matter. *)
Theorem C79_unread : forall (E : Type) (dev : device E) (file : list byte) (cfg : config) (p : Z) (f : font_set),
  0 <= p -> Z.of_nat (length file) < 2 ^ 63 -> read_font_set cfg file p = Ok f ->
  (forall n q b, font_set_part (overflow_checks cfg) file p f q -> nth_error file (Z.to_nat q) = Some b -> dev n q = Byte b) ->
  exists place, fst (put_to dev 0 (font_set_plan cfg p)) = Returned (Ok (f, place)).
Proof. exact (fun E => @device_undisturbed E). Qed.
Print Assumptions C79_unread.

(** C80. Whatever the answers are, and if they contradict each other, the font set that comes of
    them has well-formed tables, and there are no other panics than those of the build. *)
Theorem C80_tables : forall (E : Type) (dev : device E) (cfg : config) (p : Z) (f : font_set) (place : Z),
  sized dev -> 0 <= p -> fst (put_to dev 0 (font_set_plan cfg p)) = Returned (Ok (f, place)) ->
  font_set_loosely (debug_assertions cfg) f.
Proof. exact (fun E dev cfg p f place Sz P R => any_device dev 0 cfg p (Ok (f, place)) Sz P R). Qed.
Print Assumptions C80_tables.

Theorem C80_panics : forall (E : Type) (dev : device E) (cfg : config) (p : Z) (k : panic),
  sized dev -> 0 <= p -> fst (put_to dev 0 (font_set_plan cfg p)) = Returned (Panic k) -> possible_panic cfg k.
Proof. exact (fun E dev cfg p k Sz P R => any_device dev 0 cfg p (Panic k) Sz P R). Qed.
Print Assumptions C80_panics.

Theorem C80_ends : forall (E : Type) (dev : device E) (cfg : config) (p : Z),
  sized dev -> 0 <= p -> fst (put_to dev 0 (font_set_plan cfg p)) <> Returned OutOfFuel.
Proof. exact (fun E dev cfg p Sz P R => any_device dev 0 cfg p OutOfFuel Sz P R). Qed.
Print Assumptions C80_ends.

(** A file that stays what it is does not cause the panic of the assertion. *)
Theorem C80_still : forall (cfg : config) (tape : list byte) (p : Z) (k : panic),
  0 <= p < 2 ^ 63 -> Z.of_nat (length tape) < 2 ^ 63 -> read_font_set cfg tape p = Panic k ->
  k = ArithmeticOverflow \/ k = CapacityOverflow.
Proof. exact still_panics. Qed.
Print Assumptions C80_still.

(** One that changes does, or it gives a selector of a format that no file has. *)
Theorem C80_assertion : exists dev : device unit, sized dev /\
  fst (put_to dev 0 (font_set_plan dev_profile 0)) = Returned (Panic DebugAssertion) /\
  exists f place c ids, fst (put_to dev 0 (font_set_plan release_profile 0)) = Returned (Ok (f, place)) /\
    fs_records f = [CharacterIDKeyed c] /\ cid_encoding c = DictFormat0 3 ids /\
    forall n e, ~ select_encoding n e (cid_encoding c).
Proof. exact selector_changes. Qed.
Print Assumptions C80_assertion.

(** So does the encoding. *)
Theorem C80_supplements : exists dev : device unit, sized dev /\
  exists f place n supplements, fst (put_to dev 0 (font_set_plan dev_profile 0)) = Returned (Ok (f, place)) /\
    fs_encodings f = [EncSupplemental 0 n supplements] /\ forall e, ~ any_encoding e (EncSupplemental 0 n supplements).
Proof. exact encoding_changes. Qed.
Print Assumptions C80_supplements.

(** A device that fails once, at the tenth request, and does not at the next attempt. *)
Definition shaky : device nat := fun n p =>
  if Nat.eqb n 9 then Failure 7%nat
  else match nth_error name_keyed (Z.to_nat p) with Some b => Byte b | None => Ended end.

Example C79_holds : holds shaky name_keyed.
Proof. intros n p. unfold shaky. destruct (Nat.eqb n 9); [exact I|]. destruct (nth_error name_keyed (Z.to_nat p)) eqn:B; exact B || reflexivity. Qed.
Example C79_case : put_to shaky 0 (font_set_plan dev_profile 0) = (Failed 7%nat, span 0 10) /\
  first_failure shaky (snd (carried_out name_keyed (font_set_plan dev_profile 0))) 9 7%nat.
Proof.
  split; [vm_compute; reflexivity|]. split.
  - exists 9. split; vm_compute; reflexivity.
  - intros j p e L _. unfold shaky. destruct (Nat.eqb_spec j 9); [lia|]. destruct (nth_error _ _); discriminate.
Qed.
(** One that fails everywhere but in the file. *)
Example C79_case_unread : let dev : device nat := fun n p =>
    if (p <? 1) || (58 <? p) then Failure n
    else match nth_error ([xff] ++ cid_keyed) (Z.to_nat p) with Some b => Byte b | None => Ended end in
  fst (put_to dev 0 (font_set_plan dev_profile 1)) = Returned (Ok (cid_keyed_value, 59)) /\
  fst (put_to dev 0 (font_set_plan dev_profile 0)) = Failed 0%nat.
Proof. split; vm_compute; reflexivity. Qed.

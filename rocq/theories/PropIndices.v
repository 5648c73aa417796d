(** Properties C14 to C20: indices, names, strings and dictionaries. *)
From Coq Require Import String.
From Verif Require Import Base Float C1Number C1Operation Utf8 C1Index BaseFacts SpecIndex IndexFacts SpecUtf8
  SpecStrings Utf8Facts OperationFacts StringFacts.
Local Open Scope list_scope.
Local Open Scope Z_scope.

(** C14. The bytes of an index are read as the index, up to their end, in every
    profile; and nothing else is read as an index. *)
Theorem C14_index_round_trip :
  forall (cfg : config) (size : Z) (chunks : list (list byte)) (r : list byte),
  index_fits size chunks ->
  read_index cfg (index_bytes size chunks ++ r) = Ok (index_value size chunks, r).
Proof. exact (fun cfg size chunks r F =>
  proj2 (read_index_iff cfg _ _ r) (ex_intro _ size (ex_intro _ chunks (conj F (conj eq_refl eq_refl))))). Qed.
Print Assumptions C14_index_round_trip.

Theorem C14_index_only : forall (cfg : config) (s : list byte) (x : index) (r : list byte),
  read_index cfg s = Ok (x, r) <->
  exists size chunks, index_fits size chunks /\
    s = index_bytes size chunks ++ r /\ x = index_value size chunks.
Proof. exact read_index_iff. Qed.
Print Assumptions C14_index_only.

Definition sample_chunks : list (list byte) := [[x41; x42]; []; [x43]].
Example C14_case : index_fits 2 sample_chunks /\
  index_bytes 2 sample_chunks =
    [x00; x03; x02; x00; x01; x00; x03; x00; x03; x00; x04; x41; x42; x43].
Proof. split; [split; [cbv; reflexivity|right; split; [lia|cbv; reflexivity]]|reflexivity]. Qed.

(** C15. *)
Theorem C15_index_consistent : forall (cfg : config) (s : list byte) (x : index) (r : list byte),
  read_index cfg s = Ok (x, r) ->
  count x = Z.of_nat (length (data x)) /\
  (data x <> [] ->
    length (offsets x) = S (length (data x)) /\
    nth 0 (offsets x) 0 = 1 /\
    (forall i, (i < length (data x))%nat ->
       nth i (offsets x) 0 <= nth (S i) (offsets x) 0 /\
       Z.of_nat (length (nth i (data x) [])) = nth (S i) (offsets x) 0 - nth i (offsets x) 0) /\
    exists header,
      Z.of_nat (length header) = 3 + offset_size x * (count x + 1) /\
      s = header ++ concat (data x) ++ r) /\
  (data x = [] -> offsets x = [] /\ exists header, length header = 2%nat /\ s = header ++ r).
Proof. exact read_index_consistent. Qed.
Print Assumptions C15_index_consistent.

Example C15_case : exists x, read_index dev_profile (index_bytes 2 sample_chunks ++ [xff]) = Ok (x, [xff]).
Proof. eexists. reflexivity. Qed.

(** C16. *)
Theorem C16_malformed_rejected : forall (cfg : config) (s : list byte),
  (forall size chunks r, index_fits size chunks -> s <> index_bytes size chunks ++ r) ->
  exists k, read_index cfg s = Err k.
Proof. exact read_index_rejects. Qed.
Print Assumptions C16_malformed_rejected.

Theorem C16_truncated_rejected : forall (cfg : config) (e1 e2 : list byte) (x : index),
  index_encoding (e1 ++ e2) x -> e2 <> [] -> read_index cfg e1 = Err UnexpectedEof.
Proof. exact read_index_eof. Qed.
Print Assumptions C16_truncated_rejected.

Theorem C16_no_panic : forall (cfg : config) (s : list byte), settled (read_index cfg s).
Proof. exact read_index_settled. Qed.
Print Assumptions C16_no_panic.

Example C16_case_size : read_index dev_profile [x00; x01; x05; x01; x01] = Err Other.
Proof. reflexivity. Qed.
Example C16_case_first : read_index dev_profile [x00; x01; x01; x02; x02] = Err Other.
Proof. reflexivity. Qed.
Example C16_case_decreasing : read_index dev_profile [x00; x02; x01; x01; x03; x02; x41; x42] = Err Other.
Proof. reflexivity. Qed.
Example C16_case_truncated : index_encoding ([x00; x01; x01; x01; x03; x41] ++ [x42])
    (index_value 1 [[x41; x42]]) /\ [x42] <> [].
Proof.
  split; [|discriminate]. exists 1, [[x41; x42]]. split; [|split; reflexivity].
  split; [cbv; reflexivity|right; split; [lia|cbv; reflexivity]].
Qed.

(** C17. *)
Theorem C17_names : forall x : index, exists strings,
  names_try_into x = Ok strings /\
  Forall2 (fun chunk string =>
    lossy chunk string /\ well_formed_utf8 string /\ (well_formed_utf8 chunk -> string = chunk))
    (data x) strings.
Proof. exact names_spec. Qed.
Print Assumptions C17_names.

(** The lossy decoding is a function of the bytes. *)
Theorem C17_lossy_determined : forall s t : list byte, lossy s t -> forall u, lossy s u -> t = u.
Proof. exact lossy_functional. Qed.
Print Assumptions C17_lossy_determined.

Example C17_case : names_try_into (index_value 1 [[x41; xc3; xa9]; [x41; xc3; x42]]) =
  Ok [[x41; xc3; xa9]; [x41; xef; xbf; xbd; x42]].
Proof. reflexivity. Qed.

(** C18. *)
Theorem C18_standard : forall (x : index) (id : Z), 0 <= id < 391 ->
  exists name, standard_name id = Some name /\ strings_get x id = Some (list_byte_of_string name).
Proof. exact strings_get_standard. Qed.
Print Assumptions C18_standard.

Theorem C18_custom : forall (x : index) (id : Z) (chunk : list byte), 391 <= id ->
  nth_error (data x) (Z.to_nat (id - 391)) = Some chunk ->
  exists string, strings_get x id = Some string /\ lossy chunk string /\
    (well_formed_utf8 chunk -> string = chunk).
Proof. exact strings_get_custom. Qed.
Print Assumptions C18_custom.

Theorem C18_beyond : forall (x : index) (id : Z),
  391 + Z.of_nat (length (data x)) <= id -> strings_get x id = None.
Proof. exact strings_get_beyond. Qed.
Print Assumptions C18_beyond.

Example C18_case : strings_get (index_value 2 sample_chunks) 393 = Some [x43] /\
  strings_get (index_value 2 sample_chunks) 390 = Some (list_byte_of_string "Semibold").
Proof. split; reflexivity. Qed.

(** C19. *)
Theorem C19_standard_names : forall id : Z, get_standard_string id = standard_name id.
Proof. exact standard_string_name. Qed.
Print Assumptions C19_standard_names.

Theorem C19_standard_defined : forall id : Z,
  (exists name, get_standard_string id = Some name) <-> 0 <= id < 391.
Proof. exact standard_string_defined. Qed.
Print Assumptions C19_standard_defined.

Theorem C19_standard_distinct : forall (i j : Z) (name : string),
  get_standard_string i = Some name -> get_standard_string j = Some name -> i = j.
Proof. exact standard_string_injective. Qed.
Print Assumptions C19_standard_distinct.

Example C19_case : standard_name 0 = Some ".notdef"%string /\
  standard_name 228 = Some "zcaron"%string /\ standard_name 378 = Some "Ydieresissmall"%string.
Proof. repeat split. Qed.

(** C20. *)
Theorem C20_all_decode : forall (cfg : config) (d : index) (opss : list operations),
  dictionaries_try_into cfg d = Ok opss <->
  Forall2 (fun chunk ops => read_operations chunk = Ok ops) (data d) opss.
Proof. exact dictionaries_iff. Qed.
Print Assumptions C20_all_decode.

Theorem C20_no_panic : forall (cfg : config) (d : index), settled (dictionaries_try_into cfg d).
Proof. exact dictionaries_settled. Qed.
Print Assumptions C20_no_panic.

Theorem C20_get : forall (cfg : config) (d : index) (i : nat) (chunk : list byte),
  nth_error (data d) i = Some chunk -> dictionaries_get cfg d i = read_operations chunk.
Proof. exact dictionaries_get_inside. Qed.
Print Assumptions C20_get.

Theorem C20_get_agrees : forall cfg d opss i chunk,
  dictionaries_try_into cfg d = Ok opss -> nth_error (data d) i = Some chunk ->
  exists ops, nth_error opss i = Some ops /\ dictionaries_get cfg d i = Ok ops.
Proof. exact dictionaries_entry. Qed.
Print Assumptions C20_get_agrees.

Theorem C20_get_outside : forall (cfg : config) (d : index) (i : nat),
  (length (data d) <= i)%nat ->
  dictionaries_get cfg d i = Panic (if debug_assertions cfg then DebugAssertion else IndexOutOfBounds).
Proof. exact dictionaries_get_outside. Qed.
Print Assumptions C20_get_outside.

Example C20_case : exists opss,
  dictionaries_try_into dev_profile (index_value 1 [[x8c; x01]; [x8c; x8d; x12]]) = Ok opss /\
  length opss = 2%nat.
Proof. eexists. split; [vm_compute; reflexivity|reflexivity]. Qed.

(** C1Index: indices (src/compact1/index/). *)
From Coq Require Import String.
From Verif Require Import Base Float C1Number C1Operation Tables Utf8.
Local Open Scope list_scope.

(** [struct Index] (src/compact1/index/mod.rs:6-15). *)
Record index : Type := {
  count : Z;
  offset_size : Z;
  offsets : list Z;
  data : list (list byte);
}.

(** [Index::default()], and what an index with no elements reads as
    (src/compact1/index/mod.rs:23-28). *)
Definition empty_index : index :=
  {| count := 0; offset_size := 0; offsets := []; data := [] |}.

(** The loop over the elements (src/compact1/index/mod.rs:39-46): consecutive
    offsets must not decrease, and each element is as long as their difference. *)
Fixpoint read_elements (cfg : config) (offs : list Z) (s : list byte)
  : outcome (list (list byte) * list byte) :=
  match offs with
  | o1 :: ((o2 :: _) as rest) =>
      if o2 <? o1 then Err Other
      else
        let* (chunk, s1) := take_vec cfg 1 take_byte (o2 - o1) s in
        let* (chunks, s2) := read_elements cfg rest s1 in
        Ok (chunk :: chunks, s2)
  | _ => Ok ([], s)
  end.

(** [<Index as value::Read>::read] (src/compact1/index/mod.rs:19-54). *)
Definition read_index (cfg : config) : reader index := fun s =>
  let* (n, s1) := take_u16 s in
  if n =? 0 then Ok (empty_index, s1)
  else
    let* (size, s2) := take_u8 s1 in
    let* (offs, s3) := take_n (read_offset size) (Z.to_nat (n + 1)) s2 in
    match offs with
    | 1 :: _ =>
        let* (chunks, s4) := read_elements cfg offs s3 in
        Ok ({| count := n; offset_size := size; offsets := offs; data := chunks |}, s4)
    | _ => Err Other
    end.

(** [<CharacterStrings as walue::Read>::read]
    (src/compact1/index/character_strings.rs:9-18). *)
Definition read_character_strings (cfg : config) (format : Z) : reader index := fun s =>
  if format =? 2 then read_index cfg s else Err Other.

(** [Dictionaries::get] (src/compact1/index/dictionaries.rs:15-18). *)
Definition dictionaries_get (cfg : config) (d : index) (i : nat) : outcome operations :=
  if debug_assertions cfg && negb (Nat.ltb i (length (data d))) then Panic DebugAssertion
  else
    match nth_error (data d) i with
    | Some chunk => read_operations chunk
    | None => Panic IndexOutOfBounds
    end.

(** The loop of [<Vec<Operations> as TryFrom<&Dictionaries>>::try_from]
    (src/compact1/index/dictionaries.rs:26-28). *)
Fixpoint dictionaries_loop (cfg : config) (d : index) (indices : list nat)
  : outcome (list operations) :=
  match indices with
  | [] => Ok []
  | i :: rest =>
      let* ops := dictionaries_get cfg d i in
      let* opss := dictionaries_loop cfg d rest in
      Ok (ops :: opss)
  end.

(** [<Vec<Operations> as TryFrom<&Dictionaries>>::try_from]
    (src/compact1/index/dictionaries.rs:21-31). *)
Definition dictionaries_try_into (cfg : config) (d : index) : outcome (list operations) :=
  dictionaries_loop cfg d (seq 0 (length (data d))).

(** [<Vec<String> as TryFrom<Names>>::try_from] (src/compact1/index/names.rs:9-23). *)
Definition names_try_into (names : index) : outcome (list (list byte)) :=
  Ok (map (fun chunk =>
             match from_utf8 chunk with
             | Some string => string
             | None => from_utf8_lossy chunk
             end) (data names)).

(** [NUMBER_OF_STANDARD_STRINGS] (src/compact1/index/strings.rs:3). *)
Definition number_of_standard_strings : Z := 391.

(** [get_standard_string] (src/compact1/index/strings.rs:25-420). *)
Definition get_standard_string (string_id : Z) : option string :=
  lookup_code string_id standard_strings.

(** [Strings::get] (src/compact1/index/strings.rs:12-22). *)
Definition strings_get (strings : index) (string_id : Z) : option (list byte) :=
  if string_id <? number_of_standard_strings then
    match get_standard_string string_id with
    | Some name => Some (list_byte_of_string name)
    | None => None
    end
  else
    match nth_error (data strings) (Z.to_nat (string_id - number_of_standard_strings)) with
    | Some chunk => Some (from_utf8_lossy chunk)
    | None => None
    end.

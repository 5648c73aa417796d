(** C1Tape: counting and reading font sets (src/compact1/font_set/) once more, with the
    position at which the tape is left.

    In [C1FontSet] the tape after [FontSet::count] and [FontSet::read] is not reported.  A
    tape is its content, which nobody changes, and a position.  What a failed read does to
    the position is not modelled here. *)
From Verif Require Import Base Float C1Number C1Operation C1Index C1Glyphs C1FontSet.

(** [tape.take()] and [tape.take_given(..)]: a value is read where the tape stands, and the
    tape goes on behind it.  For the readers of the crate that do not jump. *)
Definition taken {A : Type} (rd : reader A) (tape : list byte) (here : Z) : outcome (A * Z) :=
  let s := rest_at tape here in
  let* (a, r) := rd s in
  Ok (a, here + (Z.of_nat (length s) - Z.of_nat (length r))).

(** [tape.jump(position + offset as u64)] in [jump_take!(@unwrap ..)] and
    [jump_take_given!(@unwrap ..)] of [typeface]. *)
Definition jumped (cfg : config) (position offset : Z) : outcome Z :=
  add_u64 cfg position (as_u64 offset).

(** [<Record as walue::Read>::read]
    (src/compact1/font_set/character_name_keyed.rs:16-37) and
    [<RecordInner as walue::Read>::read]
    (src/compact1/font_set/character_id_keyed.rs:97-118).  The dictionary is read from a
    cursor of its own. *)
Definition private_taken (cfg : config) (tape : list byte) (position : Z) (top : operations)
  : outcome (private_record * Z) :=
  let* (size, offset) := need_double top Op_Private in
  let* here := jumped cfg position offset in
  let* (chunk, here) := taken (take_vec cfg 1 take_byte (as_usize size)) tape here in
  let* ops := read_operations chunk in
  let* another := try_single ops Op_Subrs in
  match another with
  | Some another_offset =>
      let* sum := add_i32 cfg offset another_offset in
      let* here := jumped cfg position sum in
      let* (subroutines, here) := taken (read_index cfg) tape here in
      Ok ({| private_operations := ops; private_subroutines := subroutines |}, here)
  | None => Ok ({| private_operations := ops; private_subroutines := empty_index |}, here)
  end.

(** [for top_operations in operations.iter() { records.push(..) }]
    (src/compact1/font_set/character_id_keyed.rs:83-85). *)
Fixpoint privates_taken (cfg : config) (tape : list byte) (position here : Z) (tops : list operations)
  : outcome (list private_record * Z) :=
  match tops with
  | [] => Ok ([], here)
  | top :: rest =>
      let* (record, here) := private_taken cfg tape position top in
      let* (records, here) := privates_taken cfg tape position here rest in
      Ok (record :: records, here)
  end.

(** [<Record as walue::Read>::read]
    (src/compact1/font_set/character_id_keyed.rs:66-95). *)
Definition cid_taken (cfg : config) (tape : list byte) (position : Z) (top : operations)
  (character_strings : index) : outcome (cid_record * Z) :=
  match operations_get top Op_ROS with
  | Some [operand0; operand1; operand2] =>
      let* offset := need_single top Op_FDSelect in
      let* here := jumped cfg position offset in
      let* (enc, here) := taken (read_dictionary_encoding cfg (count character_strings)) tape here in
      let* offset := need_single top Op_FDArray in
      let* here := jumped cfg position offset in
      let* (dictionaries, here) := taken (read_index cfg) tape here in
      let* opss := dictionaries_try_into cfg dictionaries in
      let* (records, here) := privates_taken cfg tape position here opss in
      let* r := string_id_of_number operand0 in
      let* o := string_id_of_number operand1 in
      Ok ({| registry := r; ordering := o; cid_supplement := operand2;
             cid_encoding := enc; cid_operations := opss; cid_records := records |}, here)
  | _ => Err Other
  end.

(** [<Record as walue::Read>::read] (src/compact1/font_set/mod.rs:118-137). *)
Definition record_taken (cfg : config) (tape : list byte) (position : Z) (ops : operations)
  (character_strings : index) : outcome (record * Z) :=
  if map_contains ops Op_ROS then
    let* (r, here) := cid_taken cfg tape position ops character_strings in
    Ok (CharacterIDKeyed r, here)
  else
    let* (r, here) := private_taken cfg tape position ops in
    Ok (CharacterNameKeyed r, here).

(** One round of the loop of [FontSet::read] (src/compact1/font_set/mod.rs:78-102).  The tape
    jumps before anything is read, so that the round does not depend on where it stands. *)
Definition font_taken (cfg : config) (tape : list byte) (position : Z)
  (i : nat) (ops : operations) (g : gathered) : outcome (gathered * Z) :=
  let* offset := need_single ops Op_CharStrings in
  let* here := jumped cfg position offset in
  let* format := need_single ops Op_CharStringType in
  let* (cs, here) := taken (read_character_strings cfg format) tape here in
  let css := character_strings g ++ [cs] in
  let* offset := need_single ops Op_CharSet in
  let* (set, here) :=
    if offset =? 0 then Ok (ISOAdobe, here)
    else if offset =? 1 then Ok (ExpertSet, here)
    else if offset =? 2 then Ok (ExpertSubset, here)
    else
      let* here := jumped cfg position offset in
      match nth_error css i with
      | Some cs_i => taken (read_character_set cfg (count cs_i)) tape here
      | None => Panic IndexOutOfBounds
      end in
  let* offset := need_single ops Op_Encoding in
  let* (enc, here) :=
    if offset =? 0 then Ok (Standard, here)
    else if offset =? 1 then Ok (ExpertEncoding, here)
    else
      let* here := jumped cfg position offset in
      taken (read_encoding cfg) tape here in
  match nth_error css i with
  | Some cs_i =>
      let* (r, here) := record_taken cfg tape position ops cs_i in
      Ok ({| encodings := encodings g ++ [enc];
             character_sets := character_sets g ++ [set];
             character_strings := css;
             records := records g ++ [r] |}, here)
  | None => Panic IndexOutOfBounds
  end.

(** [for (i, operations) in operations.iter().enumerate() { .. }]
    (src/compact1/font_set/mod.rs:77-103). *)
Fixpoint fonts_taken (cfg : config) (tape : list byte) (position here : Z)
  (i : nat) (opss : list operations) (g : gathered) : outcome (gathered * Z) :=
  match opss with
  | [] => Ok (g, here)
  | ops :: rest =>
      let* (g', here) := font_taken cfg tape position i ops g in
      fonts_taken cfg tape position here (S i) rest g'
  end.

(** [<FontSet as value::Read>::read] (src/compact1/font_set/mod.rs:65-116): the font set, and
    where the tape stands then. *)
Definition font_set_taken (cfg : config) (tape : list byte) (position : Z) : outcome (font_set * Z) :=
  let* (h, here) := taken read_header tape position in
  let* here := jumped cfg position (header_size h) in
  let* (names, here) := taken (read_index cfg) tape here in
  let* (dictionaries, here) := taken (read_index cfg) tape here in
  let* opss := dictionaries_try_into cfg dictionaries in
  let* (strings, here) := taken (read_index cfg) tape here in
  let* (subroutines, here) := taken (read_index cfg) tape here in
  let* (g, here) := fonts_taken cfg tape position here 0 opss
              {| encodings := []; character_sets := []; character_strings := []; records := [] |} in
  Ok ({| fs_header := h; fs_names := names; fs_operations := opss; fs_strings := strings;
         fs_subroutines := subroutines;
         fs_encodings := encodings g;
         fs_character_strings := character_strings g;
         fs_character_sets := character_sets g;
         fs_records := records g |}, here).

(** [FontSet::count] (src/compact1/font_set/mod.rs:57-62). *)
Definition count_taken (cfg : config) (tape : list byte) (position : Z) : outcome (Z * Z) :=
  let* (h, here) := taken read_header tape position in
  let* here := jumped cfg position (header_size h) in
  taken take_u16 tape here.

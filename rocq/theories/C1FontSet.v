(** C1FontSet: font sets (src/compact1/header.rs, src/compact1/font_set/). *)
From Verif Require Import Base Float C1Number C1Operation C1Index C1Glyphs.

(** [struct Header] (src/compact1/header.rs:3-12). *)
Record header : Type := {
  major : Z;
  minor : Z;
  header_size : Z;
  header_offset_size : Z;
}.

(** [<Header as value::Read>::read] (src/compact1/header.rs:3-12). *)
Definition read_header : reader header := fun s =>
  let* (a, s1) := take_u8 s in
  let* (b, s2) := take_u8 s1 in
  let* (c, s3) := take_u8 s2 in
  let* (d, s4) := take_u8 s3 in
  Ok ({| major := a; minor := b; header_size := c; header_offset_size := d |}, s4).

(** [get!(@single operations, Operator)] (src/compact1/font_set/mod.rs:4-10). *)
Definition need_single (ops : operations) (o : operator) : outcome Z :=
  match get_single ops o with
  | Some (Integer value) => Ok value
  | Some (Real _) => Err Other
  | None => Err Other
  end.

(** [get!(@try @single operations, Operator)] (src/compact1/font_set/mod.rs:11-17). *)
Definition try_single (ops : operations) (o : operator) : outcome (option Z) :=
  match get_single ops o with
  | Some (Integer value) => Ok (Some value)
  | Some (Real _) => Err Other
  | None => Ok None
  end.

(** [get!(@double operations, Operator)] (src/compact1/font_set/mod.rs:18-24). *)
Definition need_double (ops : operations) (o : operator) : outcome (Z * Z) :=
  match get_double ops o with
  | Some (Integer value0, Integer value1) => Ok (value0, value1)
  | Some _ => Err Other
  | None => Err Other
  end.

(** ** Private dictionaries and local subroutines *)

(** [character_name_keyed::Record] (src/compact1/font_set/character_name_keyed.rs:11-14)
    and [character_id_keyed::RecordInner]
    (src/compact1/font_set/character_id_keyed.rs:22-25), which have the same
    fields and the same reader. *)
Record private_record : Type := {
  private_operations : operations;
  private_subroutines : index;
}.

(** [<Record as walue::Read>::read]
    (src/compact1/font_set/character_name_keyed.rs:16-37) and
    [<RecordInner as walue::Read>::read]
    (src/compact1/font_set/character_id_keyed.rs:97-118). *)
Definition read_private (cfg : config) (tape : list byte) (position : Z) (top : operations)
  : outcome private_record :=
  let* (size, offset) := need_double top Op_Private in
  let* s := jump cfg tape position offset in
  let* (chunk, _) := take_vec cfg 1 take_byte (as_usize size) s in
  let* ops := read_operations chunk in
  let* another := try_single ops Op_Subrs in
  match another with
  | Some another_offset =>
      let* sum := add_i32 cfg offset another_offset in
      let* s' := jump cfg tape position sum in
      let* (subroutines, _) := read_index cfg s' in
      Ok {| private_operations := ops; private_subroutines := subroutines |}
  | None => Ok {| private_operations := ops; private_subroutines := empty_index |}
  end.

(** ** Character-ID-keyed fonts *)

(** [Range3] (src/compact1/font_set/character_id_keyed.rs:57-64). *)
Record dictionary_range : Type := {
  first_glyph_id : Z;
  dictionary_id : Z;
}.

(** [character_id_keyed::Encoding]
    (src/compact1/font_set/character_id_keyed.rs:29-55). *)
Inductive dictionary_encoding : Type :=
| DictFormat0 (format : Z) (dictionary_ids : list Z)
| DictFormat3 (format range_count : Z) (ranges : list dictionary_range) (glyph_count : Z).

(** [<Range3 as value::Read>::read] (src/compact1/font_set/character_id_keyed.rs:57-64). *)
Definition read_range3 : reader dictionary_range := fun s =>
  let* (first, s1) := take_u16 s in
  let* (fd, s2) := take_u8 s1 in
  Ok ({| first_glyph_id := first; dictionary_id := fd |}, s2).

(** [<Encoding0 as walue::Read>::read]
    (src/compact1/font_set/character_id_keyed.rs:137-151); [glyphs] is
    [character_strings.count]. *)
Definition read_dictionary_encoding0 (cfg : config) (glyphs : Z) : reader dictionary_encoding :=
  fun s =>
  let* (format, s1) := take_u8 s in
  if debug_assertions cfg && negb (format =? 0) then Panic DebugAssertion
  else
    let* (ids, s2) := take_vec cfg 1 take_u8 glyphs s1 in
    Ok (DictFormat0 format ids, s2).

(** [<Encoding3 as value::Read>::read]
    (src/compact1/font_set/character_id_keyed.rs:43-55). *)
Definition read_dictionary_encoding3 (cfg : config) : reader dictionary_encoding := fun s =>
  let* (format, s1) := take_u8 s in
  if negb (format =? 3) then Err Other
  else
    let* (n, s2) := take_u16 s1 in
    let* (ranges, s3) := take_vec cfg 4 read_range3 n s2 in
    let* (sentinel, s4) := take_u16 s3 in
    Ok (DictFormat3 format n ranges sentinel, s4).

(** [<Encoding as walue::Read>::read]
    (src/compact1/font_set/character_id_keyed.rs:120-135). *)
Definition read_dictionary_encoding (cfg : config) (glyphs : Z) : reader dictionary_encoding :=
  fun s =>
  let* format := peek_u8 s in
  if format =? 0 then read_dictionary_encoding0 cfg glyphs s
  else if format =? 3 then read_dictionary_encoding3 cfg s
  else Err Other.

(** [character_id_keyed::Record] (src/compact1/font_set/character_id_keyed.rs:11-18). *)
Record cid_record : Type := {
  registry : Z;
  ordering : Z;
  cid_supplement : number;
  cid_encoding : dictionary_encoding;
  cid_operations : list operations;
  cid_records : list private_record;
}.

(** [for top_operations in operations.iter() { records.push(..) }]
    (src/compact1/font_set/character_id_keyed.rs:83-85). *)
Fixpoint read_privates (cfg : config) (tape : list byte) (position : Z) (tops : list operations)
  : outcome (list private_record) :=
  match tops with
  | [] => Ok []
  | top :: rest =>
      let* record := read_private cfg tape position top in
      let* records := read_privates cfg tape position rest in
      Ok (record :: records)
  end.

(** [<Record as walue::Read>::read]
    (src/compact1/font_set/character_id_keyed.rs:66-95). *)
Definition read_cid (cfg : config) (tape : list byte) (position : Z) (top : operations)
  (character_strings : index) : outcome cid_record :=
  match operations_get top Op_ROS with
  | Some [operand0; operand1; operand2] =>
      let* offset := need_single top Op_FDSelect in
      let* s := jump cfg tape position offset in
      let* (enc, _) := read_dictionary_encoding cfg (count character_strings) s in
      let* offset := need_single top Op_FDArray in
      let* s := jump cfg tape position offset in
      let* (dictionaries, _) := read_index cfg s in
      let* opss := dictionaries_try_into cfg dictionaries in
      let* records := read_privates cfg tape position opss in
      let* r := string_id_of_number operand0 in
      let* o := string_id_of_number operand1 in
      Ok {| registry := r; ordering := o; cid_supplement := operand2;
            cid_encoding := enc; cid_operations := opss; cid_records := records |}
  | _ => Err Other
  end.

(** ** Font sets *)

(** [enum Record] (src/compact1/font_set/mod.rs:50-53). *)
Inductive record : Type :=
| CharacterIDKeyed (r : cid_record)
| CharacterNameKeyed (r : private_record).

(** [<Record as walue::Read>::read] (src/compact1/font_set/mod.rs:118-137). *)
Definition read_record (cfg : config) (tape : list byte) (position : Z) (ops : operations)
  (character_strings : index) : outcome record :=
  if map_contains ops Op_ROS then
    let* r := read_cid cfg tape position ops character_strings in
    Ok (CharacterIDKeyed r)
  else
    let* r := read_private cfg tape position ops in
    Ok (CharacterNameKeyed r).

(** The vectors the loop of [FontSet::read] pushes to
    (src/compact1/font_set/mod.rs:73-76). *)
Record gathered : Type := {
  encodings : list encoding;
  character_sets : list character_set;
  character_strings : list index;
  records : list record;
}.

(** One round of the loop of [FontSet::read] (src/compact1/font_set/mod.rs:78-102),
    [i] being the number of the round. *)
Definition read_font (cfg : config) (tape : list byte) (position : Z)
  (i : nat) (ops : operations) (g : gathered) : outcome gathered :=
  let* offset := need_single ops Op_CharStrings in
  let* s := jump cfg tape position offset in
  let* format := need_single ops Op_CharStringType in
  let* (cs, _) := read_character_strings cfg format s in
  let css := character_strings g ++ [cs] in
  let* offset := need_single ops Op_CharSet in
  let* set :=
    if offset =? 0 then Ok ISOAdobe
    else if offset =? 1 then Ok ExpertSet
    else if offset =? 2 then Ok ExpertSubset
    else
      let* s := jump cfg tape position offset in
      match nth_error css i with   (* character_strings[i].count *)
      | Some cs_i => let* (set, _) := read_character_set cfg (count cs_i) s in Ok set
      | None => Panic IndexOutOfBounds
      end in
  let* offset := need_single ops Op_Encoding in
  let* enc :=
    if offset =? 0 then Ok Standard
    else if offset =? 1 then Ok ExpertEncoding
    else
      let* s := jump cfg tape position offset in
      let* (enc, _) := read_encoding cfg s in
      Ok enc in
  match nth_error css i with       (* &character_strings[i] *)
  | Some cs_i =>
      let* r := read_record cfg tape position ops cs_i in
      Ok {| encodings := encodings g ++ [enc];
            character_sets := character_sets g ++ [set];
            character_strings := css;
            records := records g ++ [r] |}
  | None => Panic IndexOutOfBounds
  end.

(** [for (i, operations) in operations.iter().enumerate() { .. }]
    (src/compact1/font_set/mod.rs:77-103). *)
Fixpoint read_fonts (cfg : config) (tape : list byte) (position : Z)
  (i : nat) (opss : list operations) (g : gathered) : outcome gathered :=
  match opss with
  | [] => Ok g
  | ops :: rest =>
      let* g' := read_font cfg tape position i ops g in
      read_fonts cfg tape position (S i) rest g'
  end.

(** [struct FontSet] (src/compact1/font_set/mod.rs:36-46). *)
Record font_set : Type := {
  fs_header : header;
  fs_names : index;
  fs_operations : list operations;
  fs_strings : index;
  fs_subroutines : index;
  fs_encodings : list encoding;
  fs_character_strings : list index;
  fs_character_sets : list character_set;
  fs_records : list record;
}.

(** [<FontSet as value::Read>::read] (src/compact1/font_set/mod.rs:65-116), on a
    tape with the given content that stands at [position]. *)
Definition read_font_set (cfg : config) (tape : list byte) (position : Z) : outcome font_set :=
  let* (h, _) := read_header (rest_at tape position) in
  let* s := jump cfg tape position (header_size h) in
  let* (names, s1) := read_index cfg s in
  let* (dictionaries, s2) := read_index cfg s1 in
  let* opss := dictionaries_try_into cfg dictionaries in
  let* (strings, s3) := read_index cfg s2 in
  let* (subroutines, _) := read_index cfg s3 in
  let* g := read_fonts cfg tape position 0 opss
              {| encodings := []; character_sets := []; character_strings := []; records := [] |} in
  Ok {| fs_header := h; fs_names := names; fs_operations := opss; fs_strings := strings;
        fs_subroutines := subroutines;
        fs_encodings := encodings g;
        fs_character_strings := character_strings g;
        fs_character_sets := character_sets g;
        fs_records := records g |}.

(** [FontSet::count] (src/compact1/font_set/mod.rs:57-62). *)
Definition font_set_count (cfg : config) (tape : list byte) (position : Z) : outcome Z :=
  let* (h, _) := read_header (rest_at tape position) in
  let* s := jump cfg tape position (header_size h) in
  let* (n, _) := take_u16 s in
  Ok n.

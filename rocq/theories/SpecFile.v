(** SpecFile: font set files, written from their parts as "The Compact Font Format
    Specification" (Adobe technical note 5176) lays them out.

    This is a writer: the offsets are computed here.  Nothing in the program does this. *)
From Verif Require Import Base Float C1Number C1Operation C1Index C1Glyphs C1FontSet.
From Verif Require Export SpecFontSet.

(** ** Dictionaries *)

(** An integer on five bytes, so that the length does not depend on the value, and
    operations with such operands. *)
Definition five_byte_integer (v : Z) : list byte := x1d :: bytes32 v.
Definition written_operations (ops : list (operator * list Z)) : list byte :=
  flat_map (fun op => flat_map five_byte_integer (snd op) ++ operator_bytes (fst op)) ops.
Definition integer_operations (ops : list (operator * list Z)) : list (operator * list number) :=
  map (fun op => (fst op, map Integer (snd op))) ops.

(** An operand and operations in any encoding. *)
Record operand_source : Type := {
  written_operand : list byte;
  meant_operand : number;
}.
Record dictionary_source : Type := {
  written : list byte;
  meant : list (operator * list number);
}.

(** ** Positions *)

(** Where blocks start that stand one after another. *)
Fixpoint starts (from : Z) (blocks : list (list byte)) : list Z :=
  match blocks with
  | [] => []
  | b :: rest => from :: starts (from + Z.of_nat (length b)) rest
  end.

(** Indices have offsets of four bytes here. *)
Definition four_byte_index (chunks : list (list byte)) : list byte := index_bytes 4 chunks.

(** ** Private dictionaries, followed by the local subroutines if there are some *)
Record private_source : Type := {
  private_dictionary : dictionary_source;
  local_subroutines : list (list byte);
}.

(** The offset of the subroutines counts from the dictionary; the operation takes 6 bytes. *)
Definition private_entries (s : private_source) : list (operator * list Z) :=
  match local_subroutines s with
  | [] => []
  | _ :: _ => [(Op_Subrs, [Z.of_nat (length (written (private_dictionary s))) + 6])]
  end.
Definition private_bytes (s : private_source) : list byte :=
  written (private_dictionary s) ++ written_operations (private_entries s).
Definition private_block (s : private_source) : list byte :=
  private_bytes s ++
  match local_subroutines s with [] => [] | _ :: _ => four_byte_index (local_subroutines s) end.
Definition private_value (s : private_source) : private_record :=
  {| private_operations := table (meant (private_dictionary s) ++ integer_operations (private_entries s));
     private_subroutines := index_value 4 (local_subroutines s) |}.

(** The operation that refers to a private dictionary. *)
Definition private_reference (s : private_source) (start : Z) : list (operator * list Z) :=
  [(Op_Private, [Z.of_nat (length (private_bytes s)); start])].

(** ** Name-keyed and character-ID-keyed fonts *)
Inductive keyed_source : Type :=
| keyed_by_name (private : private_source)
| keyed_by_id (registry ordering : Z) (supplement : operand_source)
    (select : list byte) (selected : C1FontSet.dictionary_encoding) (fonts : list (dictionary_source * private_source)).

(** The private dictionaries of font dictionaries, and the font dictionaries. *)
Definition private_blocks (fonts : list (dictionary_source * private_source)) : list (list byte) :=
  map (fun f => private_block (snd f)) fonts.
Definition font_dictionaries (fonts : list (dictionary_source * private_source)) (start : Z) : list (list byte) :=
  map (fun fs => written (fst (fst fs)) ++ written_operations (private_reference (snd (fst fs)) (snd fs)))
    (combine fonts (starts start (private_blocks fonts))).
Definition font_dictionary_values (fonts : list (dictionary_source * private_source)) (start : Z) : list operations :=
  map (fun fs => table (meant (fst (fst fs)) ++ integer_operations (private_reference (snd (fst fs)) (snd fs))))
    (combine fonts (starts start (private_blocks fonts))).

(** The array of font dictionaries, which is as long wherever the private dictionaries are. *)
Definition array_length (fonts : list (dictionary_source * private_source)) : Z :=
  Z.of_nat (length (four_byte_index (font_dictionaries fonts 0))).

(** What belongs to the kind of a font: the first operations of the top dictionary, the last
    ones, and the data, which start at the given place: the private dictionary; or the
    glyph-to-dictionary encoding, the font dictionaries, and their private dictionaries. *)
Definition keyed_head (k : keyed_source) : dictionary_source :=
  match k with
  | keyed_by_name _ => {| written := []; meant := [] |}
  | keyed_by_id registry ordering supplement _ _ _ =>
      {| written := five_byte_integer registry ++ five_byte_integer ordering ++ written_operand supplement ++
           operator_bytes Op_ROS;
         meant := [(Op_ROS, [Integer registry; Integer ordering; meant_operand supplement])] |}
  end.
Definition keyed_tail (k : keyed_source) (start : Z) : list (operator * list Z) :=
  match k with
  | keyed_by_name private => private_reference private start
  | keyed_by_id _ _ _ select _ _ =>
      [(Op_FDSelect, [start]); (Op_FDArray, [start + Z.of_nat (length select)])]
  end.
Definition keyed_block (k : keyed_source) (start : Z) : list byte :=
  match k with
  | keyed_by_name private => private_block private
  | keyed_by_id _ _ _ select _ fonts =>
      select ++
      four_byte_index (font_dictionaries fonts (start + Z.of_nat (length select) + array_length fonts)) ++
      concat (private_blocks fonts)
  end.
Definition keyed_value (k : keyed_source) (start : Z) : record :=
  match k with
  | keyed_by_name private => CharacterNameKeyed (private_value private)
  | keyed_by_id r o s select selected fonts =>
      CharacterIDKeyed
        {| registry := r; ordering := o; cid_supplement := meant_operand s; cid_encoding := selected;
           cid_operations := font_dictionary_values fonts (start + Z.of_nat (length select) + array_length fonts);
           cid_records := map (fun f => private_value (snd f)) fonts |}
  end.

(** ** Fonts *)

(** A table that is predefined and has a number, or that is in the file. *)
Inductive table_source (A : Type) : Type :=
| predefined (number : Z) (value : A)
| custom (bytes : list byte) (value : A).
Arguments predefined {A} _ _.
Arguments custom {A} _ _.

Definition table_block {A} (t : table_source A) : list byte :=
  match t with predefined _ _ => [] | custom e _ => e end.
Definition table_offset {A} (t : table_source A) (start : Z) : Z :=
  match t with predefined n _ => n | custom _ _ => start end.
Definition table_value {A} (t : table_source A) : A :=
  match t with predefined _ x => x | custom _ x => x end.

Record font_source : Type := {
  top_dictionary_source : dictionary_source;
  glyph_programs : list (list byte);
  glyph_names : table_source character_set;
  glyph_codes : table_source encoding;
  keyed : keyed_source;
}.

(** The places of the parts of a font that starts at the given place. *)
Definition names_start (x : font_source) (start : Z) : Z :=
  start + Z.of_nat (length (four_byte_index (glyph_programs x))).
Definition codes_start (x : font_source) (start : Z) : Z :=
  names_start x start + Z.of_nat (length (table_block (glyph_names x))).
Definition keyed_start (x : font_source) (start : Z) : Z :=
  codes_start x start + Z.of_nat (length (table_block (glyph_codes x))).

Definition font_block (x : font_source) (start : Z) : list byte :=
  four_byte_index (glyph_programs x) ++ table_block (glyph_names x) ++ table_block (glyph_codes x) ++
  keyed_block (keyed x) (keyed_start x start).

Definition font_tail (x : font_source) (start : Z) : list (operator * list Z) :=
  [(Op_CharStrings, [start]);
   (Op_CharSet, [table_offset (glyph_names x) (names_start x start)]);
   (Op_Encoding, [table_offset (glyph_codes x) (codes_start x start)])] ++
  keyed_tail (keyed x) (keyed_start x start).

Definition top_bytes (x : font_source) (start : Z) : list byte :=
  written (keyed_head (keyed x)) ++ written (top_dictionary_source x) ++
  written_operations (font_tail x start).

Definition font_value (x : font_source) (start : Z) : font :=
  {| font_operations := table (meant (keyed_head (keyed x)) ++
       meant (top_dictionary_source x) ++ integer_operations (font_tail x start));
     font_encoding := table_value (glyph_codes x);
     font_character_set := table_value (glyph_names x);
     font_character_strings := index_value 4 (glyph_programs x);
     font_record := keyed_value (keyed x) (keyed_start x start) |}.

(** ** Font sets *)

Record file_source : Type := {
  font_names : list (list byte);
  fonts : list font_source;
  strings : list (list byte);
  global_subroutines : list (list byte);
}.

Definition file_header : list byte := [x01; x00; x04; x04].

(** Fonts one after another, from the given place on: the dictionaries and the data. *)
Definition font_starts (xs : list font_source) (start : Z) : list Z :=
  starts start (map (fun x => font_block x 0) xs).
Definition front (f : file_source) (start : Z) : list byte :=
  file_header ++ four_byte_index (font_names f) ++
  four_byte_index (map (fun xs => top_bytes (fst xs) (snd xs)) (combine (fonts f) (font_starts (fonts f) start))) ++
  four_byte_index (strings f) ++ four_byte_index (global_subroutines f).
Definition front_length (f : file_source) : Z := Z.of_nat (length (front f 0)).

Definition file_bytes (f : file_source) : list byte :=
  front f (front_length f) ++
  concat (map (fun xs => font_block (fst xs) (snd xs)) (combine (fonts f) (font_starts (fonts f) (front_length f)))).

(** What is to be reported about the file. *)
Definition file_fonts (f : file_source) : list font :=
  map (fun xs => font_value (fst xs) (snd xs)) (combine (fonts f) (font_starts (fonts f) (front_length f))).
Definition file_value (f : file_source) : font_set :=
  {| fs_header := {| major := 1; minor := 0; header_size := 4; header_offset_size := 4 |};
     fs_names := index_value 4 (font_names f);
     fs_operations := map font_operations (file_fonts f);
     fs_strings := index_value 4 (strings f);
     fs_subroutines := index_value 4 (global_subroutines f);
     fs_encodings := map font_encoding (file_fonts f);
     fs_character_sets := map font_character_set (file_fonts f);
     fs_character_strings := map font_character_strings (file_fonts f);
     fs_records := map font_record (file_fonts f) |}.

(** ** What can be written *)

Definition short {A} (l : list A) : Prop := Z.of_nat (length l) < 2 ^ 16.

Definition dictionary_valid (d : dictionary_source) : Prop := dictionary_encoding (written d) (meant d).

Definition private_valid (s : private_source) : Prop :=
  dictionary_valid (private_dictionary s) /\ absent (meant (private_dictionary s)) Op_Subrs /\
  short (local_subroutines s).

Definition keyed_valid (glyphs : Z) (k : keyed_source) : Prop :=
  match k with
  | keyed_by_name private => private_valid private
  | keyed_by_id registry ordering supplement select selected fonts =>
      0 <= registry < 2 ^ 16 /\ 0 <= ordering < 2 ^ 16 /\
      operand_encoding (written_operand supplement) (meant_operand supplement) /\
      select_encoding glyphs select selected /\ short fonts /\
      Forall (fun f => dictionary_valid (fst f) /\ private_valid (snd f)) fonts
  end.

Definition names_valid (glyphs : Z) (t : table_source character_set) : Prop :=
  match t with
  | predefined n c => n = 0 /\ c = ISOAdobe \/ n = 1 /\ c = ExpertSet \/ n = 2 /\ c = ExpertSubset
  | custom e c => character_set_encoding glyphs e c
  end.
Definition codes_valid (t : table_source encoding) : Prop :=
  match t with
  | predefined n x => n = 0 /\ x = Standard \/ n = 1 /\ x = ExpertEncoding
  | custom e x => any_encoding e x
  end.

(** The rest of the top dictionary does not say that the font is of the other kind, nor that the
    glyph programs are. *)
Definition font_valid (x : font_source) : Prop :=
  let glyphs := Z.of_nat (length (glyph_programs x)) in
  short (glyph_programs x) /\ dictionary_valid (top_dictionary_source x) /\
  absent (meant (top_dictionary_source x)) Op_ROS /\
  operand (table (meant (top_dictionary_source x))) Op_CharStringType 2 /\
  names_valid glyphs (glyph_names x) /\ codes_valid (glyph_codes x) /\ keyed_valid glyphs (keyed x).

Definition file_valid (f : file_source) : Prop :=
  short (font_names f) /\ short (fonts f) /\ short (strings f) /\ short (global_subroutines f) /\
  Forall font_valid (fonts f) /\ Z.of_nat (length (file_bytes f)) < 2 ^ 31.

(** The operators that the writer adds to a top dictionary. *)
Definition placing (o : operator) : bool :=
  match o with
  | Op_ROS | Op_CharStrings | Op_CharSet | Op_Encoding | Op_Private | Op_FDSelect | Op_FDArray => true
  | _ => false
  end.

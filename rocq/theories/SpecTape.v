(** SpecTape: where a tape stands after a font set has been read from it, in terms of the
    layout of SpecFontSet. *)
From Verif Require Import Base Float C1Number C1Operation C1Index C1Glyphs C1FontSet.
From Verif Require Export SpecFontSet.

(** The bytes [e] stand at an offset from the position, and [place] is behind them. *)
Definition behind (checks : bool) (tape : list byte) (position offset : Z) (e : list byte) (place : Z) : Prop :=
  exists start, located checks position offset start /\ stands tape start e /\
    place = start + Z.of_nat (length e).

(** Behind the local subroutines if there are some, and else behind the private dictionary. *)
Definition private_behind (checks : bool) (tape : list byte) (position : Z) (top : operations)
  (r : private_record) (place : Z) : Prop :=
  exists size offset, operands top Op_Private size offset /\
    (no_operand (private_operations r) Op_Subrs /\
     (exists chunk, Z.of_nat (length chunk) = size /\ behind checks tape position offset chunk place) \/
     exists another sum e,
       operand (private_operations r) Op_Subrs another /\ summed checks offset another sum /\
       behind checks tape position sum e place /\ index_encoding e (private_subroutines r)).

(** Behind what belongs to the private dictionary, the last one if there are several, and behind
    the (empty) array of font dictionaries if there are none. *)
Definition record_behind (checks : bool) (tape : list byte) (position : Z) (top : operations)
  (r : record) (place : Z) : Prop :=
  match r with
  | CharacterNameKeyed r => private_behind checks tape position top r place
  | CharacterIDKeyed r =>
      (exists others o last, combine (cid_operations r) (cid_records r) = others ++ [(o, last)] /\
         private_behind checks tape position o last place) \/
      cid_records r = [] /\
      exists array, operand top Op_FDArray array /\ behind checks tape position array [x00; x00] place
  end.

(** Behind what belongs to the last font, and behind the global subroutines if there are no
    fonts. *)
Definition font_set_behind (checks : bool) (tape : list byte) (position : Z) (f : font_set) (place : Z) : Prop :=
  (exists others top last, combine (fs_operations f) (fs_records f) = others ++ [(top, last)] /\
     record_behind checks tape position top last place) \/
  fs_records f = [] /\
  exists e1 e2 e3 e4 dictionaries,
    index_encoding e1 (fs_names f) /\ index_encoding e2 dictionaries /\
    index_encoding e3 (fs_strings f) /\ index_encoding e4 (fs_subroutines f) /\
    behind checks tape position (header_size (fs_header f)) (e1 ++ e2 ++ e3 ++ e4) place.

(** Font sets read one after another from one tape, each where the one before has left it: the
    values and where the tape stands then.  [rd] is the way in which one is read. *)
Inductive in_a_row {A : Type} (rd : Z -> outcome (A * Z)) : Z -> list A -> Z -> Prop :=
| row_end here : in_a_row rd here [] here
| row_next here a there rest last : rd here = Ok (a, there) -> in_a_row rd there rest last ->
    in_a_row rd here (a :: rest) last.

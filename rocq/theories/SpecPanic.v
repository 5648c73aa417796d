(** SpecPanic: the font sets on which reading panics, the panic being caused by the first
    part that cannot be read. *)
From Verif Require Import Base Float C1Number C1Operation C1Index C1Glyphs C1FontSet.
From Verif Require Export SpecFontSet.

(** Going back from the position, to a place on the tape, overflows where overflow is
    checked. *)
Definition backward (checks : bool) (position offset : Z) : Prop :=
  checks = true /\ offset < 0 <= position + offset.

(** Private dictionaries: the offset, the size, the sum of the two offsets, and the offset
    of the subroutines. *)
Definition private_panic (checks allocates : bool) (tape : list byte) (position : Z) (top : operations)
  (k : panic) : Prop :=
  exists size offset, operands top Op_Private size offset /\
    (k = ArithmeticOverflow /\ backward checks position offset \/
     k = CapacityOverflow /\ ~ backward checks position offset /\ allocates = true /\ size < 0 \/
     k = ArithmeticOverflow /\
     exists chunk ops another,
       found checks tape position offset chunk /\ Z.of_nat (length chunk) = size /\
       dictionary_data chunk ops /\ operand ops Op_Subrs another /\
       (checks = true /\ ~ (- 2 ^ 31 <= offset + another < 2 ^ 31) \/
        backward checks position (offset + another))).

(** Character-ID-keyed fonts. *)
Definition cid_panic (checks allocates : bool) (tape : list byte) (position : Z) (top : operations)
  (glyphs : Z) (k : panic) : Prop :=
  exists a b c select, operand_list top Op_ROS [a; b; c] /\ operand top Op_FDSelect select /\
    (k = ArithmeticOverflow /\ backward checks position select \/
     exists e x array, found checks tape position select e /\ select_encoding glyphs e x /\
       operand top Op_FDArray array /\
       (k = ArithmeticOverflow /\ backward checks position array \/
        exists ea dictionaries before ops after rs,
          found checks tape position array ea /\ index_encoding ea dictionaries /\
          Forall2 dictionary_data (data dictionaries) (before ++ ops :: after) /\
          Forall2 (private_layout checks tape position) before rs /\
          private_panic checks allocates tape position ops k)).

Definition record_panic (checks allocates : bool) (tape : list byte) (position : Z) (top : operations)
  (glyphs : Z) (k : panic) : Prop :=
  ~ absent top Op_ROS /\ cid_panic checks allocates tape position top glyphs k \/
  absent top Op_ROS /\ private_panic checks allocates tape position top k.

(** Character set tables: for no glyphs, one is subtracted from zero. *)
Definition character_set_panic (checks allocates : bool) (tape : list byte) (position offset glyphs : Z)
  (k : panic) : Prop :=
  ~ (0 <= offset <= 2) /\
  (k = ArithmeticOverflow /\ backward checks position offset \/
   glyphs = 0 /\ found checks tape position offset [x00] /\
   (checks = true /\ k = ArithmeticOverflow \/
    checks = false /\ allocates = true /\ k = CapacityOverflow)).

Definition font_panic (checks allocates : bool) (tape : list byte) (position : Z) (top : operations)
  (k : panic) : Prop :=
  exists strings, operand top Op_CharStrings strings /\
    (k = ArithmeticOverflow /\ backward checks position strings \/
     exists e x set,
       operand top Op_CharStringType 2 /\ found checks tape position strings e /\ index_encoding e x /\
       operand top Op_CharSet set /\
       (character_set_panic checks allocates tape position set (count x) k \/
        exists c code,
          character_set_layout checks tape position set (count x) c /\ operand top Op_Encoding code /\
          (k = ArithmeticOverflow /\ backward checks position code \/
           exists y, encoding_layout checks tape position code y /\
             record_panic checks allocates tape position top (count x) k))).

(** Font sets: some fonts can be read, and the next one panics. *)
Definition font_set_panic (checks allocates : bool) (tape : list byte) (position : Z) (k : panic) : Prop :=
  exists eh h e1 e2 e3 e4 names dictionaries strings subroutines fonts top after,
    header_encoding eh h /\ stands tape position eh /\
    found checks tape position (header_size h) (e1 ++ e2 ++ e3 ++ e4) /\
    index_encoding e1 names /\ index_encoding e2 dictionaries /\
    index_encoding e3 strings /\ index_encoding e4 subroutines /\
    Forall2 dictionary_data (data dictionaries) (map font_operations fonts ++ top :: after) /\
    Forall (font_layout checks tape position) fonts /\
    font_panic checks allocates tape position top k.

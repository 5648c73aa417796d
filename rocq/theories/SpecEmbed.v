(** SpecEmbed: font sets with parts before their own beginning. *)
From Verif Require Import Base Float C1Number C1Operation C1Index C1Glyphs C1FontSet.
From Verif Require Export SpecFontSet.

(** The private dictionary, or the local subroutines, would be before the position, or the
    latter too far away. *)
Definition private_before (checks : bool) (tape : list byte) (position : Z) (top : operations) : Prop :=
  exists size offset, operands top Op_Private size offset /\
    (offset < 0 \/
     exists chunk ops another,
       found checks tape position offset chunk /\ Z.of_nat (length chunk) = size /\
       dictionary_data chunk ops /\
       operand ops Op_Subrs another /\ ~ (0 <= offset + another < 2 ^ 31)).

(** So would anything else. *)
Definition part_before (checks : bool) (tape : list byte) (position : Z) (top : operations) : Prop :=
  negative_offset top Op_CharStrings \/ negative_offset top Op_CharSet \/
  negative_offset top Op_Encoding \/ negative_offset top Op_FDSelect \/ negative_offset top Op_FDArray \/
  private_before checks tape position top \/
  exists array e dictionaries chunk ops,
    operand top Op_FDArray array /\ found checks tape position array e /\
    index_encoding e dictionaries /\ In chunk (data dictionaries) /\
    dictionary_data chunk ops /\ private_before checks tape position ops.

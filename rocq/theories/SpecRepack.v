(** SpecRepack: font sets that differ in where their parts stand. *)
From Verif Require Import Base Float C1Number C1Operation C1Index C1Glyphs C1FontSet SpecFontSet.

(** The entries of two dictionaries are the same, but for those of some operators. *)
Definition same_but (os : list operator) (t u : operations) : Prop :=
  forall o, ~ In o os -> forall v, entry t o v <-> entry u o v.

(** The operators of a top dictionary that say where something is, or that it is predefined, or which kind of
    font it is.  What they lead to is compared instead. *)
Definition references : list operator :=
  [Op_ROS; Op_CharStrings; Op_CharSet; Op_Encoding; Op_Private; Op_FDSelect; Op_FDArray].

(** The elements of two indices are the same; the sizes of their offsets need not be. *)
Definition same_elements (x y : index) : Prop := data x = data y.

Definition private_repacked (r s : private_record) : Prop :=
  same_but [Op_Subrs] (private_operations r) (private_operations s) /\
  same_elements (private_subroutines r) (private_subroutines s).

Definition record_repacked (r s : record) : Prop :=
  match r, s with
  | CharacterNameKeyed r, CharacterNameKeyed s => private_repacked r s
  | CharacterIDKeyed r, CharacterIDKeyed s =>
      registry s = registry r /\ ordering s = ordering r /\ cid_supplement s = cid_supplement r /\
      cid_encoding s = cid_encoding r /\
      Forall2 (same_but [Op_Private]) (cid_operations r) (cid_operations s) /\
      Forall2 private_repacked (cid_records r) (cid_records s)
  | _, _ => False
  end.

Definition repacked (f g : font_set) : Prop :=
  same_elements (fs_names f) (fs_names g) /\ same_elements (fs_strings f) (fs_strings g) /\
  same_elements (fs_subroutines f) (fs_subroutines g) /\
  Forall2 (same_but references) (fs_operations f) (fs_operations g) /\
  fs_encodings f = fs_encodings g /\ fs_character_sets f = fs_character_sets g /\
  Forall2 same_elements (fs_character_strings f) (fs_character_strings g) /\
  Forall2 record_repacked (fs_records f) (fs_records g).

(** ** Some of the fonts *)

(** The elements with the given numbers. *)
Definition pick {A} (numbers : list nat) (xs : list A) : list A :=
  flat_map (fun i => match nth_error xs i with Some x => [x] | None => [] end) numbers.

(** A font set with some of the fonts of another, in any order. *)
Definition selection (numbers : list nat) (f : font_set) : font_set :=
  {| fs_header := fs_header f;
     fs_names := index_value 4 (pick numbers (data (fs_names f)));
     fs_operations := pick numbers (fs_operations f);
     fs_strings := fs_strings f;
     fs_subroutines := fs_subroutines f;
     fs_encodings := pick numbers (fs_encodings f);
     fs_character_sets := pick numbers (fs_character_sets f);
     fs_character_strings := pick numbers (fs_character_strings f);
     fs_records := pick numbers (fs_records f) |}.

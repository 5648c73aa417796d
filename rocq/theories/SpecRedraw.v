(** SpecRedraw: font sets with other code for their glyphs, and without subroutines. *)
From Verif Require Import Base Float C1Number C1Operation C1Index C1Glyphs C1FontSet T2Operation T2Program
  SpecIndex SpecProgram SpecExpress.

(** ** Other code *)

Definition bare_private (r : private_record) : private_record :=
  {| private_operations := private_operations r; private_subroutines := empty_index |}.

Definition bare_record (r : record) : record :=
  match r with
  | CharacterNameKeyed r => CharacterNameKeyed (bare_private r)
  | CharacterIDKeyed r => CharacterIDKeyed
      {| registry := registry r; ordering := ordering r; cid_supplement := cid_supplement r;
         cid_encoding := cid_encoding r; cid_operations := cid_operations r;
         cid_records := map bare_private (cid_records r) |}
  end.

(** The font set with the given code for the glyphs of each font, and without subroutines. *)
Definition redrawn (codes : list (list (list byte))) (f : font_set) : font_set :=
  {| fs_header := fs_header f;
     fs_names := fs_names f;
     fs_operations := fs_operations f;
     fs_strings := fs_strings f;
     fs_subroutines := empty_index;
     fs_encodings := fs_encodings f;
     fs_character_sets := fs_character_sets f;
     fs_character_strings := map (index_value 4) codes;
     fs_records := map bare_record (fs_records f) |}.

(** There is code for each glyph of each font. *)
Definition code_given (f : font_set) (codes : list (list (list byte))) : Prop :=
  Forall2 (fun x c => length c = length (data x)) (fs_character_strings f) codes.

(** ** Pictures *)

(** What a glyph looks like: its operations and its width. *)
Definition picture : Type := list t2_operation * option f32.

(** The local subroutines of a font: one list of them for each private dictionary. *)
Definition available (r : record) : list (list (list byte)) :=
  match r with
  | CharacterNameKeyed r => [data (private_subroutines r)]
  | CharacterIDKeyed r => map (fun s => data (private_subroutines s)) (cid_records r)
  end.

(** Some code draws a picture, with the subroutines of the font set and of some private dictionary of the font. *)
Definition draws (cfg : config) (globals : list (list byte)) (r : record) (code : list byte) (x : picture) : Prop :=
  exists locals q, In locals (available r) /\
    runs cfg (new_program code globals locals) (Ok (fst x, q)) /\ width q = snd x.

(** The glyphs of each font draw these pictures. *)
Definition pictured (cfg : config) (f : font_set) (pictures : list (list picture)) : Prop :=
  length pictures = length (fs_character_strings f) /\
  forall i strings r xs, nth_error (fs_character_strings f) i = Some strings -> nth_error (fs_records f) i = Some r ->
    nth_error pictures i = Some xs -> Forall2 (draws cfg (data (fs_subroutines f)) r) (data strings) xs.

(** What can be drawn at all (C90). *)
Definition drawable (x : picture) : Prop :=
  Forall well_formed (fst x) /\ Forall numeric (fst x) /\ forall w, snd x = Some w -> binary32 w.

(** There is a picture for each glyph of each font, and each font that has glyphs has a private dictionary. *)
Definition pictures_given (f : font_set) (pictures : list (list picture)) : Prop :=
  Forall2 (fun x xs => length xs = length (data x)) (fs_character_strings f) pictures /\
  Forall (Forall drawable) pictures /\
  forall i r xs, nth_error (fs_records f) i = Some r -> nth_error pictures i = Some xs -> xs <> [] -> available r <> [].

(** There are no subroutines at all. *)
Definition bare (f : font_set) : Prop :=
  data (fs_subroutines f) = [] /\ forall r locals, In r (fs_records f) -> In locals (available r) -> locals = [].

(** A bound of the length of code. *)
Definition total (l : list Z) : Z := fold_right Z.add 0 l.
Definition code_length (codes : list (list (list byte))) : Z :=
  total (map (fun c => 1 + total (map (fun code => 2 + Z.of_nat (length code)) c)) codes).
Definition picture_length (pictures : list (list picture)) : Z :=
  total (map (fun xs => 1 + total (map (fun x => 2 + glyph_length (fst x)) xs)) pictures).

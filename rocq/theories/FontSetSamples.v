(** FontSetSamples: small font sets, to show that the hypotheses of the properties can be met. *)
From Verif Require Import Base Float C1Number C1Operation C1Index C1Glyphs C1FontSet SpecFontSet.
From Verif Require Import OperationFacts IndexFacts FontSetFacts LayoutFacts.
Local Open Scope list_scope.
Local Open Scope Z_scope.

(** A name-keyed font with two glyphs and a local subroutine. *)
Definition name_keyed : list byte :=
  [x01; x00; x04; x01; x00; x01; x01; x01; x02; x41; x00; x01; x01; x01; x0a; xa7; x11; xaf; x0f; xb3;
   x10; x8d; xb6; x12; x00; x00; x00; x00; x00; x02; x01; x01; x02; x03; x0e; x0e; x01; x00; x22; x00;
   x00; x01; x41; x8d; x13; x00; x01; x01; x01; x02; x0b].

Definition name_keyed_operations : operations :=
  [(Op_Private, [Integer 2; Integer 43]); (Op_Encoding, [Integer 40]); (Op_CharSet, [Integer 36]);
   (Op_CharStrings, [Integer 28])].

Definition name_keyed_record : private_record :=
  {| private_operations := [(Op_Subrs, [Integer 2])]; private_subroutines := index_value 1 [[x0b]] |}.

Definition name_keyed_value : font_set :=
  {| fs_header := {| major := 1; minor := 0; header_size := 4; header_offset_size := 1 |};
     fs_names := index_value 1 [[x41]];
     fs_operations := [name_keyed_operations];
     fs_strings := index_value 0 [];
     fs_subroutines := index_value 0 [];
     fs_encodings := [EncFormat0 0 1 [65]];
     fs_character_sets := [CharSetFormat1 1 [{| first_string_id := 34; left_count := 0 |}]];
     fs_character_strings := [index_value 1 [[x0e]; [x0e]]];
     fs_records := [CharacterNameKeyed name_keyed_record] |}.

(** A character-ID-keyed font with two glyphs and one font dictionary. *)
Definition cid_keyed : list byte :=
  [x01; x00; x04; x01; x00; x01; x01; x01; x02; x41; x00; x01; x01; x01; x0e; x8c; x8d; x8b; x0c; x1e;
   xab; x11; xb3; x0c; x25; xbb; x0c; x24; x00; x00; x00; x00; x00; x02; x01; x01; x02; x03; x0e; x0e;
   x03; x00; x01; x00; x00; x00; x00; x02; x00; x01; x01; x01; x04; x8d; xc3; x12; x92; x14].

Definition cid_keyed_record : cid_record :=
  {| registry := 1; ordering := 2; cid_supplement := Integer 0;
     cid_encoding := DictFormat3 3 1 [{| first_glyph_id := 0; dictionary_id := 0 |}] 2;
     cid_operations := [[(Op_Private, [Integer 2; Integer 56])]];
     cid_records := [{| private_operations := [(Op_DefaultWidthX, [Integer 7])];
                        private_subroutines := index_value 0 [] |}] |}.

Definition cid_keyed_value : font_set :=
  {| fs_header := {| major := 1; minor := 0; header_size := 4; header_offset_size := 1 |};
     fs_names := index_value 1 [[x41]];
     fs_operations := [[(Op_FDArray, [Integer 48]); (Op_FDSelect, [Integer 40]); (Op_CharStrings, [Integer 32]);
                        (Op_ROS, [Integer 1; Integer 2; Integer 0])]];
     fs_strings := index_value 0 [];
     fs_subroutines := index_value 0 [];
     fs_encodings := [Standard];
     fs_character_sets := [ISOAdobe];
     fs_character_strings := [index_value 1 [[x0e]; [x0e]]];
     fs_records := [CharacterIDKeyed cid_keyed_record] |}.

(** The name-keyed font has no hostile dictionary. *)

Lemma found_sample checks offset e : 0 <= offset < 2 ^ 31 -> found checks name_keyed 0 offset e ->
  exists r, skipn (Z.to_nat offset) name_keyed = e ++ r.
Proof. intros B F. apply found_forward in F; auto; lia. Qed.

Lemma top_sample checks top : top_dictionary checks name_keyed 0 top -> top = name_keyed_operations.
Proof.
  intros (eh & h & e1 & names & e2 & ds & chunk & Xh & (_ & r & Eh) & F & X1 & X2 & I & R).
  pose proof (read_header_complete _ _ r Xh) as Rh. rewrite <- Eh in Rh. vm_compute in Rh.
  injection Rh as <- _. cbn [header_size] in F. apply found_sample in F as (r2 & E2); [|lia].
  rewrite <- app_assoc in E2.
  pose proof (read_index_complete dev_profile _ _ r2 X2) as R2. remember (e2 ++ r2) as t eqn:Et. clear Et.
  pose proof (read_index_complete dev_profile _ _ t X1) as R1. rewrite <- E2 in R1. vm_compute in R1.
  injection R1 as _ <-. vm_compute in R2.
  injection R2 as <- _. destruct I as [<-|[]]. apply read_operations_iff in R. vm_compute in R.
  injection R as <-. reflexivity.
Qed.

Lemma name_keyed_not_hostile checks top :
  top_dictionary checks name_keyed 0 top -> ~ hostile checks name_keyed 0 top.
Proof.
  intros T%top_sample. subst top.
  intros [H|[H|[H|[H|[H|[H|[H|H]]]]]]].
  1-3: destruct H as (o & H & N); apply need_single_iff in H; vm_compute in H; injection H as <-; lia.
  1-2: destruct H as (o & H & N); apply need_single_iff in H; vm_compute in H; discriminate.
  - destruct H as (strings & e & x & set & H & F & X & C & _). apply need_single_iff in H. vm_compute in H. injection H as <-.
    apply found_sample in F as (r & E); [|lia].
    pose proof (read_index_complete dev_profile _ _ r X) as R. rewrite <- E in R. vm_compute in R.
    injection R as <- _. discriminate.
  - destruct H as (size & offset & H & N). apply need_double_iff in H. vm_compute in H. injection H as <- <-.
    destruct N as [N|[N|(chunk & ops & another & F & L & R & O & N)]]; try lia.
    apply found_sample in F as (r & E); [|lia].
    assert (C : chunk = firstn 2 (chunk ++ r)).
    { replace 2%nat with (length chunk) by lia. rewrite firstn_app, firstn_all, Nat.sub_diag. cbn. symmetry. apply app_nil_r. }
    rewrite <- E in C. vm_compute in C. subst chunk. apply read_operations_iff in R. vm_compute in R.
    injection R as <-. apply need_single_iff in O. vm_compute in O. injection O as <-. lia.
  - destruct H as (array & e & ds & chunk & ops & H & _). apply need_single_iff in H. vm_compute in H. discriminate.
Qed.

(** CureFacts: a font set that ends too early can be continued. *)
From Verif Require Import Base Float C1Number C1Operation C1Index C1Glyphs C1FontSet BaseFacts OperationFacts StringFacts
  StreamFacts.
Local Open Scope list_scope.
Local Open Scope Z_scope.

(** Some continuation of the tape is read to an outcome other than [UnexpectedEof]; what is
    not [UnexpectedEof] stays. *)
Definition steady {A} (m : list byte -> outcome A) : Prop :=
  forall tape post, stays eq (m tape) (m (tape ++ post)).
Definition mends {A} (m : list byte -> outcome A) : Prop :=
  forall tape, exists post, m (tape ++ post) <> Err UnexpectedEof.

Lemma mends_bind {A B} (m : list byte -> outcome A) (k : A -> list byte -> outcome B) :
  steady m -> mends m -> (forall a, mends (k a)) -> mends (fun tape => let* a := m tape in k a tape).
Proof.
  intros S M K tape. destruct (M tape) as (post & N). destruct (m (tape ++ post)) as [a|[|]|p|] eqn:E.
  - destruct (K a (tape ++ post)) as (more & N'). exists (post ++ more). rewrite app_assoc.
    pose proof (S (tape ++ post) more) as H. rewrite E in H. destruct H as (a' & -> & <-). exact N'.
  - congruence.
  - exists post. rewrite E. discriminate.
  - exists post. rewrite E. discriminate.
  - exists post. rewrite E. discriminate.
Qed.

Lemma mends_const {A} (m : outcome A) : m <> Err UnexpectedEof -> mends (fun _ => m).
Proof. intros N tape. exists []. exact N. Qed.

Lemma mends_ext {A} (m m' : list byte -> outcome A) : (forall tape, m tape = m' tape) -> mends m' -> mends m.
Proof. intros E M tape. destruct (M tape) as (post & N). exists post. rewrite E. exact N. Qed.

Lemma mends_after {A B} (m : outcome A) (k : A -> list byte -> outcome B) :
  m <> Err UnexpectedEof -> (forall a, mends (k a)) -> mends (fun tape => let* a := m in k a tape).
Proof.
  intros N K. apply (mends_bind (fun _ => m)); auto using mends_const. intros tape post. apply stays_same.
Qed.

(** Bytes appended so that they follow those at a place, however far away that is. *)
Lemma rest_at_extends tape place t : exists post, rest_at (tape ++ post) place = rest_at tape place ++ t.
Proof.
  unfold rest_at. destruct (Z.leb_spec (Z.of_nat (length tape)) place) as [L|L].
  - exists (repeat x00 (Z.to_nat place - length tape) ++ t). rewrite !app_length, repeat_length.
    destruct (Z.leb_spec (Z.of_nat (length tape + (Z.to_nat place - length tape + length t))) place) as [M|M].
    + destruct t as [|b t]; auto. cbn [length] in M. lia.
    + rewrite app_assoc, skipn_app, skipn_all2; rewrite app_length, repeat_length; [|lia].
      replace (Z.to_nat place - _)%nat with 0%nat by lia. reflexivity.
  - exists t. rewrite app_length. destruct (Z.leb_spec (Z.of_nat (length tape + length t)) place); [lia|].
    rewrite skipn_app. replace (Z.to_nat place - length tape)%nat with 0%nat by lia. reflexivity.
Qed.

Lemma mends_at {A B} (rd : reader A) place (k : A -> list byte -> outcome B) :
  streams rd -> curable rd -> (forall x, mends (k x)) ->
  mends (fun tape => let* (x, _) := rd (rest_at tape place) in k x tape).
Proof.
  intros S C K tape. destruct (C (rest_at tape place)) as (t & N).
  destruct (rest_at_extends tape place t) as (post & E). rewrite <- E in N.
  destruct (rd (rest_at (tape ++ post) place)) as [[x r]|[|]|p|] eqn:F.
  - destruct (K x (tape ++ post)) as (more & M). exists (post ++ more). rewrite app_assoc.
    destruct (rest_at_grows (tape ++ post) more place) as (u & ->).
    pose proof (S (rest_at (tape ++ post) place) u) as H. rewrite F in H.
    destruct H as ([x' r'] & -> & [Hx _]). cbn [fst] in Hx. subst x'. exact M.
  - congruence.
  - exists post. rewrite F. discriminate.
  - exists post. rewrite F. discriminate.
  - exists post. rewrite F. discriminate.
Qed.

Lemma mends_jump {A B} cfg position offset (rd : reader A) (k : A -> list byte -> outcome B) :
  streams rd -> curable rd -> (forall x, mends (k x)) ->
  mends (fun tape => let* s := jump cfg tape position offset in let* (x, _) := rd s in k x tape).
Proof.
  intros S C K. unfold jump, add_u64. destruct (in_u64 _); [|destruct (overflow_checks cfg)]; cbn [bind].
  - apply mends_at; auto.
  - apply mends_const. discriminate.
  - apply mends_at; auto.
Qed.

(** Parts that read nothing. *)
Lemma need_single_sure ops o : need_single ops o <> Err UnexpectedEof.
Proof. unfold need_single. destruct (get_single ops o) as [[]|]; discriminate. Qed.
Lemma try_single_sure ops o : try_single ops o <> Err UnexpectedEof.
Proof. unfold try_single. destruct (get_single ops o) as [[]|]; discriminate. Qed.
Lemma need_double_sure ops o : need_double ops o <> Err UnexpectedEof.
Proof. unfold need_double. destruct (get_double ops o) as [[[] []]|]; discriminate. Qed.
Lemma string_id_sure n : string_id_of_number n <> Err UnexpectedEof.
Proof. unfold string_id_of_number. destruct n; [match goal with |- context [if ?c then _ else _] => destruct c end|]; discriminate. Qed.
Lemma add_i32_sure cfg a b : add_i32 cfg a b <> Err UnexpectedEof.
Proof. unfold add_i32. destruct (in_i32 _); [|destruct (overflow_checks cfg)]; discriminate. Qed.

Lemma operations_sure s : read_operations s <> Err UnexpectedEof.
Proof.
  intros H. unfold read_operations in H. pose proof (read_operations_loop_err _ _ _ _ H). discriminate.
Qed.

Lemma dictionaries_sure cfg d : dictionaries_try_into cfg d <> Err UnexpectedEof.
Proof.
  unfold dictionaries_try_into. rewrite (dictionaries_loop_chunks cfg d (data d) 0) by auto.
  generalize (data d). intros chunks. induction chunks as [|c chunks IH]; [discriminate|].
  pose proof (operations_sure c) as N. destruct (read_operations c) as [ops|e|p|]; cbn [bind]; try congruence.
  match goal with |- bind ?m _ <> _ => destruct m as [|e|p|] end; cbn [bind]; congruence.
Qed.

(** ** Fonts and font sets *)

Ltac known H := apply mends_after; [apply H|]; intros ?.

Lemma read_private_mends cfg position top : mends (fun tape => read_private cfg tape position top).
Proof.
  unfold read_private. known need_double_sure. destruct a as [size offset].
  apply mends_jump; auto using bytes_stream, bytes_curable. intros chunk.
  known operations_sure. known try_single_sure. destruct a0 as [another|]; [|apply mends_const; discriminate].
  known add_i32_sure. apply mends_jump; auto using read_index_streams, read_index_curable.
  intros subroutines. apply mends_const. discriminate.
Qed.

Lemma read_privates_mends cfg position tops : mends (fun tape => read_privates cfg tape position tops).
Proof.
  induction tops as [|top tops IH]; cbn [read_privates]; [apply mends_const; discriminate|].
  apply (mends_bind (fun tape => read_private cfg tape position top)
           (fun r tape => let* rs := read_privates cfg tape position tops in Ok (r :: rs))).
  - intros tape post. apply read_private_streams.
  - apply read_private_mends.
  - intros r. apply (mends_bind (fun tape => read_privates cfg tape position tops) (fun rs _ => Ok (r :: rs))).
    + intros tape post. apply read_privates_streams.
    + exact IH.
    + intros rs. apply mends_const. discriminate.
Qed.

Lemma read_cid_mends cfg position top cs : mends (fun tape => read_cid cfg tape position top cs).
Proof.
  unfold read_cid.
  destruct (operations_get top Op_ROS) as [[|x [|y [|z [|w l]]]]|]; try (apply mends_const; discriminate).
  known need_single_sure.
  apply mends_jump; auto using read_dictionary_encoding_streams, read_dictionary_encoding_curable. intros enc.
  known need_single_sure. apply mends_jump; auto using read_index_streams, read_index_curable. intros d.
  known dictionaries_sure.
  apply (mends_bind (fun tape => read_privates cfg tape position a1)
           (fun rs _ => let* r := string_id_of_number x in let* o := string_id_of_number y in
              Ok {| registry := r; ordering := o; cid_supplement := z;
                    cid_encoding := enc; cid_operations := a1; cid_records := rs |})).
  - intros tape post. apply read_privates_streams.
  - apply read_privates_mends.
  - intros rs. known string_id_sure. known string_id_sure. apply mends_const. discriminate.
Qed.

Lemma read_cid_streams cfg tape post position ops cs :
  stays eq (read_cid cfg tape position ops cs) (read_cid cfg (tape ++ post) position ops cs).
Proof.
  unfold read_cid. destruct (operations_get ops Op_ROS) as [[|x [|y [|z [|w l]]]]|]; try reflexivity.
  same. jumps. stream read_dictionary_encoding_streams. same. jumps. stream read_index_streams. same.
  eapply stays_bind; [apply read_privates_streams|]. intros rs _ <-. apply stays_same.
Qed.

Lemma read_record_mends cfg position top cs : mends (fun tape => read_record cfg tape position top cs).
Proof.
  unfold read_record. destruct (map_contains top Op_ROS).
  - apply (mends_bind (fun tape => read_cid cfg tape position top cs) (fun r _ => Ok (CharacterIDKeyed r))).
    + intros tape post. apply read_cid_streams.
    + apply read_cid_mends.
    + intros r. apply mends_const. discriminate.
  - apply (mends_bind (fun tape => read_private cfg tape position top) (fun r _ => Ok (CharacterNameKeyed r))).
    + intros tape post. apply read_private_streams.
    + apply read_private_mends.
    + intros r. apply mends_const. discriminate.
Qed.

Lemma read_character_strings_streams cfg format : streams (read_character_strings cfg format).
Proof.
  intros s t. unfold read_character_strings. destruct (format =? 2); [apply read_index_streams|reflexivity].
Qed.
Lemma read_character_strings_curable cfg format : curable (read_character_strings cfg format).
Proof.
  intros s. unfold read_character_strings. destruct (format =? 2); [apply read_index_curable|].
  exists []. discriminate.
Qed.

(** The parts of a round of the loop, named. *)
Definition set_part cfg position offset (cs : option index) (tape : list byte) : outcome character_set :=
  if offset =? 0 then Ok ISOAdobe
  else if offset =? 1 then Ok ExpertSet
  else if offset =? 2 then Ok ExpertSubset
  else
    let* s := jump cfg tape position offset in
    match cs with
    | Some cs_i => let* (set, _) := read_character_set cfg (count cs_i) s in Ok set
    | None => Panic IndexOutOfBounds
    end.
Definition encoding_part cfg position offset (tape : list byte) : outcome encoding :=
  if offset =? 0 then Ok Standard
  else if offset =? 1 then Ok ExpertEncoding
  else
    let* s := jump cfg tape position offset in
    let* (enc, _) := read_encoding cfg s in
    Ok enc.

Lemma set_part_steady cfg position offset cs : steady (set_part cfg position offset cs).
Proof.
  intros tape post. unfold set_part.
  destruct (offset =? 0); [apply stays_same|]. destruct (offset =? 1); [apply stays_same|].
  destruct (offset =? 2); [apply stays_same|]. jumps.
  destruct cs; [|reflexivity]. stream read_character_set_streams. apply stays_same.
Qed.
Lemma set_part_mends cfg position offset cs : mends (set_part cfg position offset cs).
Proof.
  unfold set_part. destruct (offset =? 0); [apply mends_const; discriminate|].
  destruct (offset =? 1); [apply mends_const; discriminate|]. destruct (offset =? 2); [apply mends_const; discriminate|].
  destruct cs.
  - apply mends_jump; auto using read_character_set_streams, read_character_set_curable.
    intros set. apply mends_const. discriminate.
  - intros tape. exists []. unfold jump, add_u64.
    destruct (in_u64 _); [|destruct (overflow_checks cfg)]; discriminate.
Qed.
Lemma encoding_part_steady cfg position offset : steady (encoding_part cfg position offset).
Proof.
  intros tape post. unfold encoding_part.
  destruct (offset =? 0); [apply stays_same|]. destruct (offset =? 1); [apply stays_same|]. jumps.
  stream read_encoding_streams. apply stays_same.
Qed.
Lemma encoding_part_mends cfg position offset : mends (encoding_part cfg position offset).
Proof.
  unfold encoding_part. destruct (offset =? 0); [apply mends_const; discriminate|].
  destruct (offset =? 1); [apply mends_const; discriminate|].
  apply mends_jump; auto using read_encoding_streams, read_encoding_curable. intros enc. apply mends_const. discriminate.
Qed.

(** The reader of the character strings, the position and the format being known in this order. *)
Lemma read_font_mends cfg position i ops g : mends (fun tape => read_font cfg tape position i ops g).
Proof.
  unfold read_font. known need_single_sure.
  destruct (need_single ops Op_CharStringType) as [format|e|p|] eqn:F; cbn [bind].
  2-4: intros tape; exists []; unfold jump, add_u64;
    destruct (in_u64 _); [|destruct (overflow_checks cfg)]; cbn [bind]; try discriminate;
    pose proof (need_single_sure ops Op_CharStringType) as N; rewrite F in N; congruence.
  apply mends_jump; auto using read_character_strings_streams, read_character_strings_curable. intros cs.
  known need_single_sure.
  apply (mends_bind (set_part cfg position a0 (nth_error (character_strings g ++ [cs]) i))).
  { apply set_part_steady. }
  { apply set_part_mends. }
  intros set. known need_single_sure. apply (mends_bind (encoding_part cfg position a1)).
  { apply encoding_part_steady. }
  { apply encoding_part_mends. }
  intros enc. destruct (nth_error (character_strings g ++ [cs]) i) as [cs_i|]; [|apply mends_const; discriminate].
  apply (mends_bind (fun tape => read_record cfg tape position ops cs_i)).
  { intros tape post. apply read_record_streams. }
  { apply read_record_mends. }
  intros r. apply mends_const. discriminate.
Qed.

Lemma read_fonts_mends cfg position opss : forall i g, mends (fun tape => read_fonts cfg tape position i opss g).
Proof.
  induction opss as [|ops opss IH]; intros i g; cbn [read_fonts]; [apply mends_const; discriminate|].
  apply (mends_bind (fun tape => read_font cfg tape position i ops g)).
  - intros tape post. apply read_font_streams.
  - apply read_font_mends.
  - intros g'. apply IH.
Qed.

(** The four indices after the header. *)
Definition read_tables cfg : reader (index * list operations * index * index) := fun s =>
  let* (names, s1) := read_index cfg s in
  let* (dictionaries, s2) := read_index cfg s1 in
  let* opss := dictionaries_try_into cfg dictionaries in
  let* (strings, s3) := read_index cfg s2 in
  let* (subroutines, s4) := read_index cfg s3 in
  Ok ((names, opss, strings, subroutines), s4).

Lemma read_tables_streams cfg : streams (read_tables cfg).
Proof.
  intros s t. unfold read_tables. stream read_index_streams. stream read_index_streams. same.
  stream read_index_streams. stream read_index_streams. finish.
Qed.
Lemma read_tables_curable cfg : curable (read_tables cfg).
Proof.
  unfold read_tables. apply curable_bind; auto using read_index_streams, read_index_curable. intros names.
  apply curable_bind; auto using read_index_streams, read_index_curable. intros d.
  pose proof (dictionaries_sure cfg d) as N. destruct (dictionaries_try_into cfg d) as [opss|e|p|]; cbn [bind].
  2-4: intros s; exists []; congruence.
  apply curable_bind; auto using read_index_streams, read_index_curable. intros strings.
  apply (curable_bind (read_index cfg) (fun subroutines s => Ok (_, s)));
    auto using read_index_streams, read_index_curable, curable_ok.
Qed.

Lemma font_set_tables cfg tape position : read_font_set cfg tape position =
  let* (h, _) := read_header (rest_at tape position) in
  let* s := jump cfg tape position (header_size h) in
  let* (tables, _) := read_tables cfg s in
  let '(names, opss, strings, subroutines) := tables in
  let* g := read_fonts cfg tape position 0 opss
              {| encodings := []; character_sets := []; character_strings := []; records := [] |} in
  Ok {| fs_header := h; fs_names := names; fs_operations := opss; fs_strings := strings;
        fs_subroutines := subroutines; fs_encodings := encodings g;
        fs_character_strings := character_strings g; fs_character_sets := character_sets g;
        fs_records := records g |}.
Proof.
  unfold read_font_set, read_tables. destruct (read_header _) as [[h r]|e|p|]; cbn [bind]; auto.
  destruct (jump _ _ _ _) as [s|e|p|]; cbn [bind]; auto.
  destruct (read_index cfg s) as [[names s1]|e|p|]; cbn [bind]; auto.
  destruct (read_index cfg s1) as [[d s2]|e|p|]; cbn [bind]; auto.
  destruct (dictionaries_try_into cfg d) as [opss|e|p|]; cbn [bind]; auto.
  destruct (read_index cfg s2) as [[strings s3]|e|p|]; cbn [bind]; auto.
  destruct (read_index cfg s3) as [[subroutines s4]|e|p|]; cbn [bind]; auto.
Qed.

Lemma font_set_mends cfg position : mends (fun tape => read_font_set cfg tape position).
Proof.
  eapply mends_ext; [intros tape; apply font_set_tables|].
  apply (mends_at read_header); auto using read_header_streams, read_header_curable. intros h.
  apply (mends_jump cfg position (header_size h) (read_tables cfg)); auto using read_tables_streams, read_tables_curable.
  intros [[[names opss] strings] subroutines].
  apply (mends_bind (fun tape => read_fonts cfg tape position 0 opss _)).
  - intros tape post. apply read_fonts_streams.
  - apply read_fonts_mends.
  - intros g. apply mends_const. discriminate.
Qed.

Lemma count_mends cfg position : mends (fun tape => font_set_count cfg tape position).
Proof.
  unfold font_set_count. apply mends_at; auto using read_header_streams, read_header_curable. intros h.
  apply mends_jump; auto using take_u16_streams, take_u16_curable. intros n. apply mends_const. discriminate.
Qed.

Lemma font_set_decided cfg tape position :
  read_font_set cfg tape position <> Err UnexpectedEof <->
  forall post, read_font_set cfg (tape ++ post) position = read_font_set cfg tape position.
Proof.
  split.
  - intros N post. apply font_set_final. exact N.
  - intros H. destruct (font_set_mends cfg position tape) as (post & N). rewrite H in N. exact N.
Qed.

Lemma count_decided cfg tape position :
  font_set_count cfg tape position <> Err UnexpectedEof <->
  forall post, font_set_count cfg (tape ++ post) position = font_set_count cfg tape position.
Proof.
  split.
  - intros N post. apply count_final. exact N.
  - intros H. destruct (count_mends cfg position tape) as (post & N). rewrite H in N. exact N.
Qed.

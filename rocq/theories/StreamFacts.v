(** StreamFacts: more bytes change no outcome except [UnexpectedEof]. *)
From Verif Require T2Number.
From Verif Require Import Base Float C1Number C1Operation C1Index C1Glyphs C1FontSet SpecBytes SpecStream BaseFacts OperationFacts.
From Verif Require Import SpecIndex SpecGlyphs SpecFontSet IndexFacts GlyphFacts FontSetFacts.
Local Open Scope list_scope.
Local Open Scope Z_scope.

(** [m'] is [m] with more bytes to read, results being related by [R]. *)
Definition stays {A} (R : A -> A -> Prop) (m m' : outcome A) : Prop :=
  match m with
  | Ok a => exists a', m' = Ok a' /\ R a a'
  | Err UnexpectedEof => True
  | Err Other => m' = Err Other
  | Panic k => m' = Panic k
  | OutOfFuel => m' = OutOfFuel
  end.

(** The same value, and [t] appended to what is left. *)
Definition extended {A} (t : list byte) (a a' : A * list byte) : Prop :=
  fst a' = fst a /\ snd a' = snd a ++ t.

Lemma stays_bind {A B} (R : A -> A -> Prop) (Q : B -> B -> Prop) m m' k k' :
  stays R m m' -> (forall a a', R a a' -> stays Q (k a) (k' a')) -> stays Q (bind m k) (bind m' k').
Proof.
  intros H K. destruct m as [a|[|]|p|]; cbn [stays bind] in *; auto.
  - destruct H as (a' & -> & Ha). cbn [bind]. auto.
  - rewrite H. reflexivity.
  - rewrite H. reflexivity.
  - rewrite H. reflexivity.
Qed.

Lemma stays_same {A} (m : outcome A) : stays eq m m.
Proof. destruct m as [a|[|]|p|]; cbn; eauto. Qed.

Lemma stays_ok {A} (R : A -> A -> Prop) a a' : R a a' -> stays R (Ok a) (Ok a').
Proof. cbn. eauto. Qed.

Lemma stays_eq {A} (m m' : outcome A) : stays eq m m' <-> (m <> Err UnexpectedEof -> m' = m).
Proof.
  destruct m as [a|[|]|p|]; cbn [stays].
  - split.
    + intros (a' & -> & <-) _. reflexivity.
    + intros H. exists a. split; auto. apply H. discriminate.
  - split; [congruence|auto].
  - split; auto. intros H. apply H. discriminate.
  - split; auto. intros H. apply H. discriminate.
  - split; auto. intros H. apply H. discriminate.
Qed.

Definition streams {A} (rd : reader A) : Prop := forall s t, stays (extended t) (rd s) (rd (s ++ t)).

Lemma take_u8_streams : streams take_u8.
Proof. intros [|b s] t; cbn; auto. eexists. split; [reflexivity|]. split; reflexivity. Qed.

Lemma take_byte_streams : streams take_byte.
Proof. intros [|b s] t; cbn; auto. eexists. split; [reflexivity|]. split; reflexivity. Qed.

Lemma take_u16_streams : streams take_u16.
Proof. intros [|b [|c s]] t; cbn; auto. eexists. split; [reflexivity|]. split; reflexivity. Qed.

Lemma take_u8x3_streams : streams take_u8x3.
Proof. intros [|b [|c [|d s]]] t; cbn; auto. eexists. split; [reflexivity|]. split; reflexivity. Qed.

Lemma take_u32_streams : streams take_u32.
Proof.
  intros [|b [|c [|d [|e s]]]] t; cbn [take_u32 stays app]; auto.
  eexists. split; [reflexivity|]. split; reflexivity.
Qed.

Lemma peek_streams s t : stays eq (peek_u8 s) (peek_u8 (s ++ t)).
Proof. destruct s; cbn; eauto. Qed.

(** Continue with what a reader leaves. *)
Ltac stream H :=
  eapply stays_bind; [apply H|];
  let a := fresh "a" in let s := fresh "s" in let a' := fresh "a'" in let s' := fresh "s'" in
  intros [a s] [a' s'] [?E ?E']; cbn [fst snd] in *; subst a' s'.
Ltac finish := apply stays_ok; split; reflexivity.

Lemma take_n_streams {A} (rd : reader A) n : streams rd -> streams (take_n rd n).
Proof.
  intros H. induction n as [|n IH]; intros s t; cbn [take_n]; [finish|].
  stream H. stream IH. finish.
Qed.

Lemma take_vec_streams {A} cfg size (rd : reader A) enc count :
  sound rd enc -> consumes enc -> streams rd -> streams (take_vec cfg size rd count).
Proof.
  intros Hs Hc H s t. destruct (Z.leb_spec 0 count).
  - rewrite !(take_vec_loop _ _ _ _ _ _ Hs Hc H0). destruct (preallocates cfg && _); [reflexivity|].
    apply take_n_streams, H.
  - unfold take_vec. destruct (preallocates cfg && _); [reflexivity|].
    replace (Z.to_nat (Z.min count (Z.of_nat (length s) + 1))) with 0%nat by lia.
    replace (Z.to_nat (Z.min count (Z.of_nat (length (s ++ t)) + 1))) with 0%nat by lia.
    cbn [take_n]. finish.
Qed.

Lemma bytes_stream cfg count : streams (take_vec cfg 1 take_byte count).
Proof.
  apply (take_vec_streams cfg 1 take_byte (fun e b => e = [b])); auto using take_byte_sound, take_byte_streams.
  intros e v ->. discriminate.
Qed.

(** ** Numbers *)

Lemma parse_loop_streams : forall s buffer t,
  stays (extended t) (parse_loop buffer s) (parse_loop buffer (s ++ t)).
Proof.
  induction s as [|b s IH]; intros buffer t; cbn [parse_loop app]; [exact I|].
  destruct (on_nibble (Z.shiftr (bz b) 4)); [|finish|reflexivity].
  destruct (on_nibble (Z.land (bz b) 0x0f)); [apply IH|finish|reflexivity].
Qed.

Lemma parse_streams : streams parse.
Proof.
  intros s t. unfold parse. stream parse_loop_streams. destruct (parse_f32 a); [finish|reflexivity].
Qed.

Lemma read_number_streams : streams read_number.
Proof.
  intros s t. unfold read_number. stream take_u8_streams.
  destruct ((0x20 <=? a) && (a <=? 0xf6)); [finish|].
  destruct ((0xf7 <=? a) && (a <=? 0xfa)); [stream take_u8_streams; finish|].
  destruct ((0xfb <=? a) && (a <=? 0xfe)); [stream take_u8_streams; finish|].
  destruct (a =? 0x1c); [stream take_u16_streams; finish|].
  destruct (a =? 0x1d); [stream take_u32_streams; finish|].
  destruct (a =? 0x1e); [stream parse_streams; finish|]. reflexivity.
Qed.

Lemma read_offset_streams size : streams (read_offset size).
Proof.
  intros s t. unfold read_offset. destruct (size =? 1); [apply take_u8_streams|].
  destruct (size =? 2); [apply take_u16_streams|].
  destruct (size =? 3); [|destruct (size =? 4); [apply take_u32_streams|reflexivity]].
  eapply stays_bind; [apply take_u8x3_streams|].
  intros [[[x y] z] r] [q r'] [E E']. cbn [fst snd] in *. subst. finish.
Qed.

(** ** Indices *)

Lemma read_elements_streams cfg offs : streams (read_elements cfg offs).
Proof.
  induction offs as [|o1 [|o2 offs] IH]; intros s t; [finish|finish|].
  change (read_elements cfg (o1 :: o2 :: offs)) with (fun s => if o2 <? o1 then Err Other
      else let* (chunk, s1) := take_vec cfg 1 take_byte (o2 - o1) s in
           let* (chunks, s2) := read_elements cfg (o2 :: offs) s1 in Ok (chunk :: chunks, s2)).
  cbv beta. destruct (o2 <? o1); [reflexivity|]. stream bytes_stream. stream IH. finish.
Qed.

Lemma read_index_streams cfg : streams (read_index cfg).
Proof.
  intros s t. unfold read_index. stream take_u16_streams. destruct (a =? 0); [finish|].
  stream take_u8_streams. stream (take_n_streams (read_offset a0) (Z.to_nat (a + 1)) (read_offset_streams a0)).
  destruct a1 as [|o offs]; [reflexivity|]. destruct o as [|[]|]; try reflexivity.
  stream read_elements_streams. finish.
Qed.

(** ** Operations *)

Lemma read_number_shorter s x r : read_number s = Ok (x, r) -> (length r < length s)%nat.
Proof.
  intros H. apply read_operand_sound in H as (e & -> & N).
  apply operand_first in N as (b & t & -> & _). rewrite app_length. simpl. lia.
Qed.

Lemma read_operation_loop_streams : forall fuel fuel' operands s t,
  (length s < fuel)%nat -> (length (s ++ t) < fuel')%nat ->
  stays (extended t) (read_operation_loop fuel operands s) (read_operation_loop fuel' operands (s ++ t)).
Proof.
  induction fuel as [|fuel IH]; intros fuel' operands s t L L'; [lia|]. destruct fuel' as [|fuel']; [lia|].
  cbn [read_operation_loop]. eapply stays_bind; [apply peek_streams|]. intros code _ <-.
  destruct (starts_operand code).
  - pose proof (read_number_streams s t) as N. destruct (read_number s) as [[x r]|[|]|p|] eqn:E; cbn [stays bind] in *.
    + destruct N as ([x' r'] & -> & [Ex Er]). cbn [fst snd bind] in *. subst x' r'.
      apply read_number_shorter in E. rewrite app_length in *. apply IH; [|rewrite app_length]; lia.
    + exact I.
    + rewrite N. reflexivity.
    + rewrite N. reflexivity.
    + rewrite N. reflexivity.
  - eapply stays_bind.
    + destruct (code =? 0x0c); [apply take_u16_streams|apply take_u8_streams].
    + intros [c s1] [c' s1'] [E E']. cbn [fst snd] in *. subst c' s1'.
      eapply stays_bind; [apply stays_same|]. intros o _ <-. finish.
Qed.

Lemma read_operation_streams : streams read_operation.
Proof. intros s t. apply read_operation_loop_streams; lia. Qed.

(** ** Character sets, encodings and font dictionary selectors *)

Lemma read_range1_streams : streams read_range1.
Proof. intros s t. unfold read_range1. stream take_u16_streams. stream take_u8_streams. finish. Qed.

Lemma read_range2_streams : streams read_range2.
Proof. intros s t. unfold read_range2. stream take_u16_streams. stream take_u16_streams. finish. Qed.

Lemma read_ranges_streams width rd : range_reader width rd -> streams rd ->
  forall fuel fuel' n found s t, (length s < fuel)%nat -> (length (s ++ t) < fuel')%nat ->
  stays (extended t) (read_ranges rd fuel n found s) (read_ranges rd fuel' n found (s ++ t)).
Proof.
  intros (Hs & _) H. induction fuel as [|fuel IH]; intros fuel' n found s t L L'; [lia|].
  destruct fuel' as [|fuel']; [lia|]. cbn [read_ranges]. destruct (found <? n); [|finish].
  pose proof (H s t) as N. destruct (rd s) as [[x r]|[|]|p|] eqn:E; cbn [stays bind] in *.
  - destruct N as ([x' r'] & -> & [Ex Er]). cbn [fst snd bind] in *. subst x' r'.
    apply Hs in E as (e & -> & E). apply range_consumes in E. destruct e as [|b e]; [congruence|].
    rewrite !app_length in *. cbn [length] in *.
    eapply stays_bind; [apply (IH fuel'); [|rewrite app_length]; lia|].
    intros [[ranges found'] s2] [q s2'] [E1 E2]. cbn [fst snd] in *. subst. finish.
  - exact I.
  - rewrite N. reflexivity.
  - rewrite N. reflexivity.
  - rewrite N. reflexivity.
Qed.

Lemma read_character_set_streams cfg n : streams (read_character_set cfg n).
Proof.
  intros s t. unfold read_character_set. eapply stays_bind; [apply peek_streams|]. intros format _ <-.
  destruct (format =? 0); [|destruct (format =? 1); [|destruct (format =? 2); [|reflexivity]]].
  - unfold read_character_set0. stream take_u8_streams. destruct (negb (a =? 0)); [reflexivity|].
    eapply stays_bind; [apply stays_same|]. intros k _ <-.
    stream (take_vec_streams cfg 2 take_u16 u16_encoding k take_u16_sound u16_consumes take_u16_streams). finish.
  - unfold read_character_set1. stream take_u8_streams. destruct (negb (a =? 1)); [reflexivity|].
    eapply stays_bind; [apply (read_ranges_streams 1 _ range1_reader read_range1_streams); lia|].
    intros [[ranges found] s2] [q s2'] [E1 E2]. cbn [fst snd] in *. subst.
    destruct (negb (found =? n)); [reflexivity|finish].
  - unfold read_character_set2. stream take_u8_streams. destruct (negb (a =? 2)); [reflexivity|].
    eapply stays_bind; [apply (read_ranges_streams 2 _ range2_reader read_range2_streams); lia|].
    intros [[ranges found] s2] [q s2'] [E1 E2]. cbn [fst snd] in *. subst.
    destruct (negb (found =? n)); [reflexivity|finish].
Qed.

Lemma read_code_range_streams : streams read_code_range.
Proof. intros s t. unfold read_code_range. stream take_u8_streams. stream take_u8_streams. finish. Qed.

Lemma read_supplement_streams : streams read_supplement.
Proof. intros s t. unfold read_supplement. stream take_u8_streams. stream take_u16_streams. finish. Qed.

Lemma read_encoding_streams cfg : streams (read_encoding cfg).
Proof.
  intros s t. unfold read_encoding. eapply stays_bind; [apply peek_streams|]. intros format _ <-.
  destruct (format =? 0); [|destruct (format =? 1); [|destruct (0 <? Z.land format 0x80); [|reflexivity]]].
  - unfold read_encoding0. stream take_u8_streams. destruct (negb (a =? 0)); [reflexivity|].
    stream take_u8_streams.
    stream (take_vec_streams cfg 1 take_u8 u8_encoding a0 take_u8_sound u8_consumes take_u8_streams). finish.
  - unfold read_encoding1. stream take_u8_streams. destruct (negb (a =? 1)); [reflexivity|].
    stream take_u8_streams.
    stream (take_vec_streams cfg 2 read_code_range code_range_encoding a0 read_code_range_sound
      code_range_consumes read_code_range_streams). finish.
  - unfold read_encoding_supplemental. stream take_u8_streams. stream take_u8_streams.
    stream (take_vec_streams cfg 4 read_supplement supplement_encoding a0 read_supplement_sound
      supplement_consumes read_supplement_streams). finish.
Qed.

Lemma read_range3_streams : streams read_range3.
Proof. intros s t. unfold read_range3. stream take_u16_streams. stream take_u8_streams. finish. Qed.

Lemma read_dictionary_encoding_streams cfg glyphs : streams (read_dictionary_encoding cfg glyphs).
Proof.
  intros s t. unfold read_dictionary_encoding. eapply stays_bind; [apply peek_streams|]. intros format _ <-.
  destruct (format =? 0); [|destruct (format =? 3); [|reflexivity]].
  - unfold read_dictionary_encoding0. stream take_u8_streams.
    destruct (debug_assertions cfg && negb (a =? 0)); [reflexivity|].
    stream (take_vec_streams cfg 1 take_u8 u8_encoding glyphs take_u8_sound u8_consumes take_u8_streams). finish.
  - unfold read_dictionary_encoding3. stream take_u8_streams. destruct (negb (a =? 3)); [reflexivity|].
    stream take_u16_streams.
    stream (take_vec_streams cfg 4 read_range3 dictionary_range_encoding a0 read_range3_sound
      range3_consumes read_range3_streams). stream take_u16_streams. finish.
Qed.

(** ** Font sets *)

Lemma read_header_streams : streams read_header.
Proof.
  intros s t. unfold read_header. stream take_u8_streams. stream take_u8_streams. stream take_u8_streams.
  stream take_u8_streams. finish.
Qed.

(** What is left at a position only grows. *)
Lemma rest_at_grows tape post position : exists t, rest_at (tape ++ post) position = rest_at tape position ++ t.
Proof.
  unfold rest_at. rewrite app_length.
  destruct (Z.leb_spec (Z.of_nat (length tape)) position).
  - cbn [app]. eauto.
  - destruct (Z.leb_spec (Z.of_nat (length tape + length post)) position); [lia|].
    exists post. rewrite skipn_app. f_equal. replace (Z.to_nat position - length tape)%nat with 0%nat by lia. reflexivity.
Qed.

Definition grown (s s' : list byte) : Prop := exists t, s' = s ++ t.

Lemma jump_streams cfg tape post position offset :
  stays grown (jump cfg tape position offset) (jump cfg (tape ++ post) position offset).
Proof.
  unfold jump. eapply stays_bind; [apply stays_same|]. intros target _ <-.
  apply stays_ok. apply rest_at_grows.
Qed.

Ltac same := eapply stays_bind; [apply stays_same|]; intros ? _ <-.
Ltac jumps := eapply stays_bind; [apply jump_streams|]; intros ?s ?s' [?t ->].

Lemma read_private_streams cfg tape post position top :
  stays eq (read_private cfg tape position top) (read_private cfg (tape ++ post) position top).
Proof.
  unfold read_private. same. destruct a as [size offset]. jumps. stream bytes_stream. same. same.
  destruct a1 as [another|]; [|apply stays_same]. same. jumps. stream read_index_streams. apply stays_same.
Qed.

Lemma read_privates_streams cfg tape post position tops :
  stays eq (read_privates cfg tape position tops) (read_privates cfg (tape ++ post) position tops).
Proof.
  induction tops as [|top tops IH]; cbn [read_privates]; [apply stays_same|].
  eapply stays_bind; [apply read_private_streams|]. intros r _ <-.
  eapply stays_bind; [apply IH|]. intros rs _ <-. apply stays_same.
Qed.

Lemma read_record_streams cfg tape post position ops cs :
  stays eq (read_record cfg tape position ops cs) (read_record cfg (tape ++ post) position ops cs).
Proof.
  unfold read_record. destruct (map_contains ops Op_ROS).
  - eapply stays_bind; [|intros r _ <-; apply stays_same]. unfold read_cid.
    destruct (operations_get ops Op_ROS) as [[|x [|y [|z [|w l]]]]|]; try reflexivity.
    same. jumps. stream read_dictionary_encoding_streams. same. jumps. stream read_index_streams. same.
    eapply stays_bind; [apply read_privates_streams|]. intros rs _ <-. apply stays_same.
  - eapply stays_bind; [apply read_private_streams|]. intros r _ <-. apply stays_same.
Qed.

Lemma read_font_streams cfg tape post position i ops g :
  stays eq (read_font cfg tape position i ops g) (read_font cfg (tape ++ post) position i ops g).
Proof.
  unfold read_font. same. jumps. same.
  eapply stays_bind with (R := extended t).
  { unfold read_character_strings. destruct (a0 =? 2); [apply read_index_streams|reflexivity]. }
  intros [cs s1] [cs' s1'] [E E']. cbn [fst snd] in *. subst cs' s1'. same.
  eapply stays_bind with (R := eq).
  { destruct (a1 =? 0); [apply stays_same|]. destruct (a1 =? 1); [apply stays_same|].
    destruct (a1 =? 2); [apply stays_same|]. jumps.
    destruct (nth_error (character_strings g ++ [cs]) i); [|reflexivity].
    stream read_character_set_streams. apply stays_same. }
  intros set _ <-. same. eapply stays_bind with (R := eq).
  { destruct (a2 =? 0); [apply stays_same|]. destruct (a2 =? 1); [apply stays_same|]. jumps.
    stream read_encoding_streams. apply stays_same. }
  intros enc _ <-. destruct (nth_error (character_strings g ++ [cs]) i); [|reflexivity].
  eapply stays_bind; [apply read_record_streams|]. intros r _ <-. apply stays_same.
Qed.

Lemma read_fonts_streams cfg tape post position opss : forall i g,
  stays eq (read_fonts cfg tape position i opss g) (read_fonts cfg (tape ++ post) position i opss g).
Proof.
  induction opss as [|ops opss IH]; intros i g; cbn [read_fonts]; [apply stays_same|].
  eapply stays_bind; [apply read_font_streams|]. intros g' _ <-. apply IH.
Qed.

Lemma font_set_streams cfg tape post position :
  stays eq (read_font_set cfg tape position) (read_font_set cfg (tape ++ post) position).
Proof.
  unfold read_font_set. destruct (rest_at_grows tape post position) as (t & ->). stream read_header_streams.
  jumps. stream read_index_streams. stream read_index_streams. same. stream read_index_streams.
  stream read_index_streams. eapply stays_bind; [apply read_fonts_streams|]. intros g _ <-. apply stays_same.
Qed.

Lemma font_set_count_streams cfg tape post position :
  stays eq (font_set_count cfg tape position) (font_set_count cfg (tape ++ post) position).
Proof.
  unfold font_set_count. destruct (rest_at_grows tape post position) as (t & ->). stream read_header_streams.
  jumps. stream take_u16_streams. apply stays_same.
Qed.

(** ** As equations *)

Lemma font_set_final cfg tape post position :
  read_font_set cfg tape position <> Err UnexpectedEof ->
  read_font_set cfg (tape ++ post) position = read_font_set cfg tape position.
Proof. apply stays_eq, font_set_streams. Qed.

Lemma count_final cfg tape post position :
  font_set_count cfg tape position <> Err UnexpectedEof ->
  font_set_count cfg (tape ++ post) position = font_set_count cfg tape position.
Proof. apply stays_eq, font_set_count_streams. Qed.

Lemma reader_final {A} (rd : reader A) : streams rd -> forall s t,
  (forall x, rd s <> Ok x) -> rd s <> Err UnexpectedEof -> rd (s ++ t) = rd s.
Proof.
  intros H s t N E. specialize (H s t). destruct (rd s) as [x|[|]|p|]; cbn [stays] in H; try congruence.
Qed.

(** ** The other way round: [UnexpectedEof] is never final *)

Definition curable {A} (rd : reader A) : Prop := forall s, exists t, rd (s ++ t) <> Err UnexpectedEof.

Lemma curable_bind {A B} (rd : reader A) (k : A -> reader B) :
  streams rd -> curable rd -> (forall x, curable (k x)) -> curable (fun s => let* (x, r) := rd s in k x r).
Proof.
  intros S C K s. destruct (C s) as (t & N). destruct (rd (s ++ t)) as [[x r]|[|]|p|] eqn:E.
  - destruct (K x r) as (u & M). exists (t ++ u). pose proof (S (s ++ t) u) as H. rewrite E in H.
    destruct H as ([x' r'] & H & [Hx Hr]). cbn [fst snd] in *. subst x' r'.
    rewrite app_assoc, H. exact M.
  - congruence.
  - exists t. rewrite E. cbn. discriminate.
  - exists t. rewrite E. cbn. discriminate.
  - exists t. rewrite E. cbn. discriminate.
Qed.

Lemma curable_ok {A} (x : A) : curable (fun s => Ok (x, s)).
Proof. intros s. exists []. discriminate. Qed.
Lemma curable_other {A} : curable (fun _ => @Err (A * list byte) Other).
Proof. intros s. exists []. discriminate. Qed.

Lemma take_u8_curable : curable take_u8.
Proof. intros s. exists [x00]. destruct s; discriminate. Qed.
Lemma take_byte_curable : curable take_byte.
Proof. intros s. exists [x00]. destruct s; discriminate. Qed.
Lemma take_u16_curable : curable take_u16.
Proof. intros s. exists [x00; x00]. destruct s as [|? [|? ?]]; discriminate. Qed.
Lemma take_u8x3_curable : curable take_u8x3.
Proof. intros s. exists [x00; x00; x00]. destruct s as [|? [|? [|? ?]]]; discriminate. Qed.
Lemma take_u32_curable : curable take_u32.
Proof. intros s. exists [x00; x00; x00; x00]. destruct s as [|? [|? [|? [|? ?]]]]; cbn [app take_u32]; discriminate. Qed.

Lemma take_n_curable {A} (rd : reader A) n : streams rd -> curable rd -> curable (take_n rd n).
Proof.
  intros S C. induction n as [|n IH]; [apply curable_ok|]. cbn [take_n].
  apply curable_bind; auto. intros x. apply (curable_bind (take_n rd n) (fun xs s => Ok (x :: xs, s))); auto.
  - apply take_n_streams, S.
  - intros xs. apply curable_ok.
Qed.

Lemma take_vec_curable {A} cfg size (rd : reader A) enc count :
  sound rd enc -> consumes enc -> streams rd -> curable rd -> curable (take_vec cfg size rd count).
Proof.
  intros Hs Hc S C s. destruct (take_n_curable rd (Z.to_nat count) S C s) as (t & N). exists t.
  destruct (Z.leb_spec 0 count).
  - rewrite (take_vec_loop _ _ _ _ _ _ Hs Hc H). destruct (preallocates cfg && _); [discriminate|exact N].
  - unfold take_vec. destruct (preallocates cfg && _); [discriminate|].
    replace (Z.to_nat (Z.min count (Z.of_nat (length (s ++ t)) + 1))) with 0%nat by lia. discriminate.
Qed.

Lemma bytes_curable cfg count : curable (take_vec cfg 1 take_byte count).
Proof.
  apply (take_vec_curable cfg 1 take_byte (fun e b => e = [b]));
    auto using take_byte_sound, take_byte_streams, take_byte_curable.
  intros e v ->. discriminate.
Qed.

Lemma parse_curable : curable parse.
Proof.
  assert (H : forall s buffer, (let* (text, r) := parse_loop buffer (s ++ [xff]) in
      match parse_f32 text with Some value => Ok (value, r) | None => Err Other end) <> Err UnexpectedEof);
    [|intros s; exists [xff]; apply H].
  induction s as [|b s IH]; intros buffer; cbn [app parse_loop].
  - change (on_nibble (Z.shiftr (bz xff) 4)) with Stop. cbv iota. cbn [bind]. destruct (parse_f32 buffer); discriminate.
  - destruct (on_nibble (Z.shiftr (bz b) 4)); cbn [bind]; [| |discriminate].
    + destruct (on_nibble (Z.land (bz b) 0x0f)); cbn [bind]; [apply IH| |discriminate].
      destruct (parse_f32 _); discriminate.
    + destruct (parse_f32 _); discriminate.
Qed.

Lemma read_number_curable : curable read_number.
Proof.
  apply curable_bind; auto using take_u8_streams, take_u8_curable. intros a.
  destruct ((0x20 <=? a) && (a <=? 0xf6)); [apply curable_ok|].
  destruct ((0xf7 <=? a) && (a <=? 0xfa)).
  { apply (curable_bind take_u8 (fun b s => Ok (_, s))); auto using take_u8_streams, take_u8_curable, curable_ok. }
  destruct ((0xfb <=? a) && (a <=? 0xfe)).
  { apply (curable_bind take_u8 (fun b s => Ok (_, s))); auto using take_u8_streams, take_u8_curable, curable_ok. }
  destruct (a =? 0x1c).
  { apply (curable_bind take_u16 (fun b s => Ok (_, s))); auto using take_u16_streams, take_u16_curable, curable_ok. }
  destruct (a =? 0x1d).
  { apply (curable_bind take_u32 (fun b s => Ok (_, s))); auto using take_u32_streams, take_u32_curable, curable_ok. }
  destruct (a =? 0x1e); [|apply curable_other].
  apply (curable_bind parse (fun b s => Ok (_, s))); auto using parse_streams, parse_curable, curable_ok.
Qed.

Lemma read_offset_curable size : curable (read_offset size).
Proof.
  unfold read_offset. destruct (size =? 1); [apply take_u8_curable|].
  destruct (size =? 2); [apply take_u16_curable|].
  destruct (size =? 3); [|destruct (size =? 4); [apply take_u32_curable|apply curable_other]].
  intros s. exists [x00; x00; x00]. destruct s as [|? [|? [|? ?]]]; cbn [app take_u8x3 bind]; discriminate.
Qed.

Lemma read_elements_curable cfg offs : curable (read_elements cfg offs).
Proof.
  induction offs as [|o1 [|o2 offs] IH]; [apply curable_ok|apply curable_ok|].
  change (read_elements cfg (o1 :: o2 :: offs)) with (fun s => if o2 <? o1 then Err Other
      else let* (chunk, s1) := take_vec cfg 1 take_byte (o2 - o1) s in
           let* (chunks, s2) := read_elements cfg (o2 :: offs) s1 in Ok (chunk :: chunks, s2)).
  destruct (o2 <? o1); [apply curable_other|]. apply curable_bind; auto using bytes_stream, bytes_curable.
  intros chunk. apply (curable_bind (read_elements cfg (o2 :: offs)) (fun chunks s => Ok (chunk :: chunks, s)));
    auto using read_elements_streams, curable_ok.
Qed.

Lemma read_index_curable cfg : curable (read_index cfg).
Proof.
  apply curable_bind; auto using take_u16_streams, take_u16_curable. intros n.
  destruct (n =? 0); [apply curable_ok|]. apply curable_bind; auto using take_u8_streams, take_u8_curable. intros size.
  apply curable_bind; auto using take_n_streams, take_n_curable, read_offset_streams, read_offset_curable.
  intros [|o offs]; [apply curable_other|]. destruct o as [|[]|]; try apply curable_other.
  apply (curable_bind (read_elements cfg (1 :: offs)) (fun chunks s => Ok (_, s)));
    auto using read_elements_streams, read_elements_curable, curable_ok.
Qed.

Lemma read_header_curable : curable read_header.
Proof.
  repeat (apply curable_bind; auto using take_u8_streams, take_u8_curable; intros ?).
  apply curable_ok.
Qed.

(** A reader that looks at the first byte. *)
Lemma curable_peek {A} (k : Z -> reader A) : (forall f, curable (k f)) -> curable (fun s => let* f := peek_u8 s in k f s).
Proof.
  intros K [|b s].
  - destruct (K (bz x00) [x00]) as (t & N). exists (x00 :: t). exact N.
  - destruct (K (bz b) (b :: s)) as (t & N). exists t. exact N.
Qed.

Lemma read_range1_curable : curable read_range1.
Proof.
  apply curable_bind; auto using take_u16_streams, take_u16_curable. intros first.
  apply (curable_bind take_u8 (fun b s => Ok (_, s))); auto using take_u8_streams, take_u8_curable, curable_ok.
Qed.
Lemma read_range2_curable : curable read_range2.
Proof.
  apply curable_bind; auto using take_u16_streams, take_u16_curable. intros first.
  apply (curable_bind take_u16 (fun b s => Ok (_, s))); auto using take_u16_streams, take_u16_curable, curable_ok.
Qed.
Lemma read_range3_curable : curable read_range3.
Proof.
  apply curable_bind; auto using take_u16_streams, take_u16_curable. intros first.
  apply (curable_bind take_u8 (fun b s => Ok (_, s))); auto using take_u8_streams, take_u8_curable, curable_ok.
Qed.
Lemma read_code_range_curable : curable read_code_range.
Proof.
  apply curable_bind; auto using take_u8_streams, take_u8_curable. intros first.
  apply (curable_bind take_u8 (fun b s => Ok (_, s))); auto using take_u8_streams, take_u8_curable, curable_ok.
Qed.
Lemma read_supplement_curable : curable read_supplement.
Proof.
  apply curable_bind; auto using take_u8_streams, take_u8_curable. intros first.
  apply (curable_bind take_u16 (fun b s => Ok (_, s))); auto using take_u16_streams, take_u16_curable, curable_ok.
Qed.

Lemma read_ranges_curable width rd n : range_reader width rd -> streams rd -> curable rd ->
  forall m found s, n - found <= Z.of_nat m -> exists t, forall fuel, (length (s ++ t) < fuel)%nat ->
    read_ranges rd fuel n found (s ++ t) <> Err UnexpectedEof.
Proof.
  intros (Hs & _) S C. induction m as [|m IH]; intros found s M.
  { exists []. intros [|fuel] L; [lia|]. cbn [read_ranges]. destruct (Z.ltb_spec found n); [lia|discriminate]. }
  destruct (Z.ltb_spec found n) as [F|F].
  2:{ exists []. intros [|fuel] L; [lia|]. cbn [read_ranges]. destruct (Z.ltb_spec found n); [lia|discriminate]. }
  assert (T : (found <? n) = true) by (apply Z.ltb_lt; exact F).
  destruct (C s) as (t & N). destruct (rd (s ++ t)) as [[x r]|[|]|p|] eqn:E.
  - apply Hs in E as E'. destruct E' as (e & Ee & Ex). destruct Ex as (B1 & B2 & Ex).
    destruct (IH (found + (1 + left_count x)) r) as (u & M'); [lia|].
    exists (t ++ u). intros [|fuel] L; [lia|]. cbn [read_ranges]. rewrite T.
    pose proof (S (s ++ t) u) as H. rewrite E in H. destruct H as ([x' r'] & H & [Hx Hr]).
    cbn [fst snd] in *. subst x' r'. rewrite app_assoc, H. cbn [bind].
    assert (Q : read_ranges rd fuel n (found + (1 + left_count x)) (r ++ u) <> Err UnexpectedEof).
    { apply M'. rewrite app_assoc, Ee, <- app_assoc in L. rewrite app_length in L.
      assert (e <> []) by (apply (range_consumes width e x); split; auto). destruct e; [congruence|]. cbn [length] in L. lia. }
    destruct (read_ranges rd fuel n (found + (1 + left_count x)) (r ++ u)) as [[[ranges f'] s2]| | |]; cbn [bind];
      congruence.
  - congruence.
  - exists t. intros [|fuel] L; [lia|]. cbn [read_ranges]. rewrite T, E. discriminate.
  - exists t. intros [|fuel] L; [lia|]. cbn [read_ranges]. rewrite T, E. discriminate.
  - exists t. intros [|fuel] L; [lia|]. cbn [read_ranges]. rewrite T, E. discriminate.
Qed.

Lemma ranges_curable {A} width rd n (k : list string_range -> outcome A) :
  range_reader width rd -> streams rd -> curable rd -> (forall ranges, k ranges <> Err UnexpectedEof) ->
  curable (fun s => let* ((ranges, found), r) := read_ranges rd (S (length s)) n 1 s in
                    if negb (found =? n) then Err Other else let* x := k ranges in Ok (x, r)).
Proof.
  intros R S C K s. destruct (read_ranges_curable width rd n R S C (Z.to_nat (n - 1)) 1 s) as (t & N); [lia|].
  exists t. specialize (N (Datatypes.S (length (s ++ t))) (Nat.lt_succ_diag_r _)).
  destruct (read_ranges rd (Datatypes.S (length (s ++ t))) n 1 (s ++ t)) as [[[ranges found] r]| | |]; cbn [bind]; try congruence.
  destruct (negb (found =? n)); [discriminate|]. specialize (K ranges). destruct (k ranges); cbn [bind]; congruence.
Qed.

Lemma read_character_set_curable cfg n : curable (read_character_set cfg n).
Proof.
  unfold read_character_set. apply curable_peek. intros f.
  destruct (f =? 0); [|destruct (f =? 1); [|destruct (f =? 2); [|apply curable_other]]].
  - apply curable_bind; auto using take_u8_streams, take_u8_curable. intros a. destruct (negb (a =? 0)); [apply curable_other|].
    unfold sub_usize. destruct (in_u64 (n - 1)); [|destruct (overflow_checks cfg)].
    + apply (curable_bind (take_vec cfg 2 take_u16 (n - 1)) (fun g s => Ok (_, s))); [| |intros; apply curable_ok];
        [eapply take_vec_streams|eapply take_vec_curable]; eauto using take_u16_sound, u16_consumes, take_u16_streams, take_u16_curable.
    + intros s. exists []. discriminate.
    + apply (curable_bind (take_vec cfg 2 take_u16 (as_usize (n - 1))) (fun g s => Ok (_, s))); [| |intros; apply curable_ok];
        [eapply take_vec_streams|eapply take_vec_curable]; eauto using take_u16_sound, u16_consumes, take_u16_streams, take_u16_curable.
  - apply curable_bind; auto using take_u8_streams, take_u8_curable. intros a. destruct (negb (a =? 1)); [apply curable_other|].
    apply (ranges_curable 1 _ n (fun ranges => Ok (CharSetFormat1 a ranges)) range1_reader read_range1_streams read_range1_curable).
    discriminate.
  - apply curable_bind; auto using take_u8_streams, take_u8_curable. intros a. destruct (negb (a =? 2)); [apply curable_other|].
    apply (ranges_curable 2 _ n (fun ranges => Ok (CharSetFormat2 a ranges)) range2_reader read_range2_streams read_range2_curable).
    discriminate.
Qed.

Lemma read_encoding_curable cfg : curable (read_encoding cfg).
Proof.
  unfold read_encoding. apply curable_peek. intros f.
  destruct (f =? 0); [|destruct (f =? 1); [|destruct (0 <? Z.land f 0x80); [|apply curable_other]]].
  - apply curable_bind; auto using take_u8_streams, take_u8_curable. intros a. destruct (negb (a =? 0)); [apply curable_other|].
    apply curable_bind; auto using take_u8_streams, take_u8_curable. intros n.
    apply (curable_bind (take_vec cfg 1 take_u8 n) (fun g s => Ok (_, s))); [| |intros; apply curable_ok];
      [eapply take_vec_streams|eapply take_vec_curable]; eauto using take_u8_sound, u8_consumes, take_u8_streams, take_u8_curable.
  - apply curable_bind; auto using take_u8_streams, take_u8_curable. intros a. destruct (negb (a =? 1)); [apply curable_other|].
    apply curable_bind; auto using take_u8_streams, take_u8_curable. intros n.
    apply (curable_bind (take_vec cfg 2 read_code_range n) (fun g s => Ok (_, s))); [| |intros; apply curable_ok];
      [eapply take_vec_streams|eapply take_vec_curable];
      eauto using read_code_range_sound, code_range_consumes, read_code_range_streams, read_code_range_curable.
  - apply curable_bind; auto using take_u8_streams, take_u8_curable. intros a.
    apply curable_bind; auto using take_u8_streams, take_u8_curable. intros n.
    apply (curable_bind (take_vec cfg 4 read_supplement n) (fun g s => Ok (_, s))); [| |intros; apply curable_ok];
      [eapply take_vec_streams|eapply take_vec_curable];
      eauto using read_supplement_sound, supplement_consumes, read_supplement_streams, read_supplement_curable.
Qed.

Lemma read_dictionary_encoding_curable cfg glyphs : curable (read_dictionary_encoding cfg glyphs).
Proof.
  unfold read_dictionary_encoding. apply curable_peek. intros f.
  destruct (f =? 0); [|destruct (f =? 3); [|apply curable_other]].
  - apply curable_bind; auto using take_u8_streams, take_u8_curable. intros a.
    destruct (debug_assertions cfg && negb (a =? 0)); [intros s; exists []; discriminate|].
    apply (curable_bind (take_vec cfg 1 take_u8 glyphs) (fun g s => Ok (_, s))); [| |intros; apply curable_ok];
      [eapply take_vec_streams|eapply take_vec_curable]; eauto using take_u8_sound, u8_consumes, take_u8_streams, take_u8_curable.
  - apply curable_bind; auto using take_u8_streams, take_u8_curable. intros a. destruct (negb (a =? 3)); [apply curable_other|].
    apply curable_bind; auto using take_u16_streams, take_u16_curable. intros n. apply curable_bind.
    { eapply take_vec_streams; eauto using read_range3_sound, range3_consumes, read_range3_streams. }
    { eapply take_vec_curable; eauto using read_range3_sound, range3_consumes, read_range3_streams, read_range3_curable. }
    intros ranges. apply (curable_bind take_u16 (fun b s => Ok (_, s))); auto using take_u16_streams, take_u16_curable, curable_ok.
Qed.

(** A number cut short can be completed so that nothing is left of it. *)
Lemma parse_loop_cut : forall s buffer, parse_loop buffer s = Err UnexpectedEof ->
  exists text, parse_loop buffer (s ++ [xff]) = Ok (text, []).
Proof.
  induction s as [|b s IH]; intros buffer H; cbn [app parse_loop] in *.
  { exists buffer. reflexivity. }
  destruct (on_nibble (Z.shiftr (bz b) 4)); try discriminate.
  destruct (on_nibble (Z.land (bz b) 0x0f)); try discriminate. apply IH, H.
Qed.

Lemma read_number_cut s : s <> [] -> read_number s = Err UnexpectedEof ->
  exists t, read_number (s ++ t) = Err Other \/ exists x, read_number (s ++ t) = Ok (x, []).
Proof.
  destruct s as [|b s]; [congruence|]. intros _ H. unfold read_number in *. cbn [app take_u8 bind] in *.
  destruct ((0x20 <=? bz b) && (bz b <=? 0xf6)); [discriminate|].
  destruct ((0xf7 <=? bz b) && (bz b <=? 0xfa)).
  { destruct s; [|discriminate]. exists [x00]. right. eexists. reflexivity. }
  destruct ((0xfb <=? bz b) && (bz b <=? 0xfe)).
  { destruct s; [|discriminate]. exists [x00]. right. eexists. reflexivity. }
  destruct (bz b =? 0x1c).
  { destruct s as [|c [|d s]]; [exists [x00; x00]|exists [x00]|discriminate]; right; eexists; reflexivity. }
  destruct (bz b =? 0x1d).
  { destruct s as [|c [|d [|e [|f s]]]]; [exists [x00; x00; x00; x00]|exists [x00; x00; x00]|exists [x00; x00]|exists [x00]|];
      try (cbn [app take_u32 bind]; right; eexists; reflexivity). cbn [take_u32 bind] in H. discriminate. }
  destruct (bz b =? 0x1e); [|discriminate].
  exists [xff]. unfold parse in *. destruct (parse_loop [] s) as [[text r]|[|]|p|] eqn:E; cbn [bind] in H; try discriminate.
  - destruct (parse_f32 text); discriminate.
  - apply parse_loop_cut in E as (text & ->). cbn [bind]. destruct (parse_f32 text); cbn [bind]; [right|left]; eauto.
Qed.

Lemma read_operation_loop_curable : forall m operands s, (length s <= m)%nat -> exists t, forall fuel,
  (length (s ++ t) < fuel)%nat -> read_operation_loop fuel operands (s ++ t) <> Err UnexpectedEof.
Proof.
  induction m as [|m IH]; intros operands [|b s] L; [|cbn in L; lia| |].
  1, 2: exists [x00]; intros [|fuel] F; [lia|]; cbn [app read_operation_loop peek_u8 take_u8 bind]; discriminate.
  destruct (starts_operand (bz b)) eqn:O.
  - destruct (read_number (b :: s)) as [[x r]|[|]|p|] eqn:E.
    + pose proof (read_number_shorter _ _ _ E) as L'. destruct (IH (operands ++ [x]) r) as (t & N); [lia|].
      exists t. intros [|fuel] F; [lia|].
      pose proof (read_number_streams (b :: s) t) as H. rewrite E in H. destruct H as ([x' r'] & H & [Hx Hr]).
      cbn [fst snd] in *. subst x' r'. cbn [app read_operation_loop peek_u8 take_u8 bind] in *. rewrite O, H. cbn [bind].
      apply N. rewrite app_length in *. cbn [length] in *. rewrite app_length in *. lia.
    + apply read_number_cut in E as (t & [E|(x & E)]); [| |discriminate].
      * exists t. intros [|fuel] F; [lia|]. cbn [app read_operation_loop peek_u8 take_u8 bind] in *. rewrite O, E. discriminate.
      * exists (t ++ [x00]). intros [|[|fuel]] F; [lia| |].
        { rewrite !app_length in F. cbn [length] in F. lia. }
        pose proof (read_number_streams ((b :: s) ++ t) [x00]) as H. rewrite E in H. destruct H as ([x' r'] & H & [Hx Hr]).
        cbn [fst snd] in *. subst x' r'. rewrite <- app_assoc in H.
        cbn [app read_operation_loop peek_u8 take_u8 bind] in *. rewrite O, H. discriminate.
    + exists []. intros [|fuel] F; [lia|]. rewrite app_nil_r. cbn [read_operation_loop peek_u8 take_u8 bind]. rewrite O, E. discriminate.
    + exists []. intros [|fuel] F; [lia|]. rewrite app_nil_r. cbn [read_operation_loop peek_u8 take_u8 bind]. rewrite O, E. discriminate.
    + exists []. intros [|fuel] F; [lia|]. rewrite app_nil_r. cbn [read_operation_loop peek_u8 take_u8 bind]. rewrite O, E. discriminate.
  - exists [x00]. intros [|fuel] F; [lia|]. cbn [app read_operation_loop peek_u8 take_u8 bind]. rewrite O.
    assert (T : forall code, operator_from code <> Err UnexpectedEof).
    { intros code. unfold operator_from. destruct (lookup_code _ _); discriminate. }
    destruct (bz b =? 0x0c).
    + destruct s as [|c s]; cbn [app take_u16 bind];
        match goal with |- context [operator_from ?c] => specialize (T c); destruct (operator_from c); cbn [bind]; congruence end.
    + cbn [bind]. specialize (T (bz b)). destruct (operator_from (bz b)); cbn [bind]; congruence.
Qed.

Lemma read_operation_curable : curable read_operation.
Proof. intros s. destruct (read_operation_loop_curable (length s) [] s) as (t & N); auto. exists t. apply N. auto. Qed.

(** ** Character strings *)

Lemma operand_streams : streams T2Number.read_operand.
Proof.
  intros s t. unfold T2Number.read_operand. stream take_u8_streams.
  destruct ((0x20 <=? a) && (a <=? 0xf6)); [finish|].
  destruct ((0xf7 <=? a) && (a <=? 0xfa)); [stream take_u8_streams; finish|].
  destruct ((0xfb <=? a) && (a <=? 0xfe)); [stream take_u8_streams; finish|].
  destruct (a =? 0x1c); [stream take_u16_streams; finish|].
  destruct (a =? 0xff); [stream take_u32_streams; finish|]. reflexivity.
Qed.

Lemma operand_curable : curable T2Number.read_operand.
Proof.
  apply curable_bind; auto using take_u8_streams, take_u8_curable. intros a.
  destruct ((0x20 <=? a) && (a <=? 0xf6)); [apply curable_ok|].
  destruct ((0xf7 <=? a) && (a <=? 0xfa)).
  { apply (curable_bind take_u8 (fun b s => Ok (_, s))); auto using take_u8_streams, take_u8_curable, curable_ok. }
  destruct ((0xfb <=? a) && (a <=? 0xfe)).
  { apply (curable_bind take_u8 (fun b s => Ok (_, s))); auto using take_u8_streams, take_u8_curable, curable_ok. }
  destruct (a =? 0x1c).
  { apply (curable_bind take_u16 (fun b s => Ok (_, s))); auto using take_u16_streams, take_u16_curable, curable_ok. }
  destruct (a =? 0xff); [|apply curable_other].
  apply (curable_bind take_u32 (fun b s => Ok (_, s))); auto using take_u32_streams, take_u32_curable, curable_ok.
Qed.

(** [UnexpectedEof] is reported if and only if what follows matters. *)
Lemma decided_iff {A} (rd : reader A) : streams rd -> curable rd -> forall s,
  rd s <> Err UnexpectedEof <-> decided rd s.
Proof.
  intros S C s. split.
  - intros N. destruct (rd s) as [[x r]|[|]|p|] eqn:E; [left|congruence|right|right|right].
    + exists x, r. intros t. specialize (S s t). rewrite E in S. destruct S as ([x' r'] & H & [Hx Hr]).
      cbn [fst snd] in *. congruence.
    + exists (Err Other). split; [discriminate|]. intros t. specialize (S s t). rewrite E in S. exact S.
    + exists (Panic p). split; [discriminate|]. intros t. specialize (S s t). rewrite E in S. exact S.
    + exists OutOfFuel. split; [discriminate|]. intros t. specialize (S s t). rewrite E in S. exact S.
  - intros [(x & r & H)|(o & _ & H)] E.
    + specialize (H []). rewrite app_nil_r in H. congruence.
    + destruct (C s) as (t & N). pose proof (H []) as H0. rewrite app_nil_r in H0. specialize (H t). congruence.
Qed.

Lemma number_decided s : read_number s <> Err UnexpectedEof <-> decided read_number s.
Proof. apply decided_iff; auto using read_number_streams, read_number_curable. Qed.
Lemma operand_decided s : T2Number.read_operand s <> Err UnexpectedEof <-> decided T2Number.read_operand s.
Proof. apply decided_iff; auto using operand_streams, operand_curable. Qed.
Lemma offset_decided size s : read_offset size s <> Err UnexpectedEof <-> decided (read_offset size) s.
Proof. apply decided_iff; auto using read_offset_streams, read_offset_curable. Qed.
Lemma operation_decided s : read_operation s <> Err UnexpectedEof <-> decided read_operation s.
Proof. apply decided_iff; auto using read_operation_streams, read_operation_curable. Qed.
Lemma index_decided cfg s : read_index cfg s <> Err UnexpectedEof <-> decided (read_index cfg) s.
Proof. apply decided_iff; auto using read_index_streams, read_index_curable. Qed.
Lemma character_set_decided cfg n s : read_character_set cfg n s <> Err UnexpectedEof <-> decided (read_character_set cfg n) s.
Proof. apply decided_iff; auto using read_character_set_streams, read_character_set_curable. Qed.
Lemma encoding_decided cfg s : read_encoding cfg s <> Err UnexpectedEof <-> decided (read_encoding cfg) s.
Proof. apply decided_iff; auto using read_encoding_streams, read_encoding_curable. Qed.
Lemma selector_decided cfg n s : read_dictionary_encoding cfg n s <> Err UnexpectedEof <-> decided (read_dictionary_encoding cfg n) s.
Proof. apply decided_iff; auto using read_dictionary_encoding_streams, read_dictionary_encoding_curable. Qed.
Lemma header_decided s : read_header s <> Err UnexpectedEof <-> decided read_header s.
Proof. apply decided_iff; auto using read_header_streams, read_header_curable. Qed.

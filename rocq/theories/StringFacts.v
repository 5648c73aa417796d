(** StringFacts: proofs about names, strings and dictionary indices. *)
From Coq Require Import String.
From Verif Require Import Base Float C1Number C1Operation Tables Utf8 C1Index BaseFacts SpecNumber NumberFacts
  OperationFacts SpecUtf8 SpecStrings Utf8Facts.
Local Open Scope list_scope.
Local Open Scope Z_scope.

(** ** Names *)

Lemma names_spec (x : index) : exists strings,
  names_try_into x = Ok strings /\
  Forall2 (fun chunk string =>
    lossy chunk string /\ well_formed_utf8 string /\ (well_formed_utf8 chunk -> string = chunk))
    (data x) strings.
Proof.
  eexists. split; [reflexivity|].
  induction (data x) as [|chunk chunks IH]; [constructor|]. cbn [map]. constructor; auto. clear.
  pose proof (from_utf8_lossy_spec chunk) as L.
  destruct (from_utf8 chunk) as [string|] eqn:E.
  - apply from_utf8_iff in E as [-> W]. repeat split; auto.
    rewrite <- (lossy_identity _ _ L W) at 2. exact L.
  - repeat split; auto.
    + apply (lossy_well_formed _ _ L).
    + intros W. apply (lossy_identity _ _ L W).
Qed.

(** ** Standard strings *)

Fixpoint consecutive {A} (from : Z) (table : list (Z * A)) : bool :=
  match table with
  | [] => true
  | (k, _) :: rest => (k =? from) && consecutive (from + 1) rest
  end.

Lemma lookup_consecutive {A} (table : list (Z * A)) : forall from,
  consecutive from table = true -> forall code,
  lookup_code code table =
  if code <? from then None else nth_error (map snd table) (Z.to_nat (code - from)).
Proof.
  induction table as [|[k v] table IH]; intros from C code; simpl in *.
  { destruct (code <? from); auto. destruct (Z.to_nat (code - from)); reflexivity. }
  apply andb_prop in C as [C1 C2]. apply Z.eqb_eq in C1 as ->.
  rewrite (IH _ C2). destruct (Z.eqb_spec code from) as [->|N].
  - rewrite Z.ltb_irrefl, Z.sub_diag. reflexivity.
  - destruct (Z.ltb_spec code from), (Z.ltb_spec code (from + 1)); auto; try lia.
    replace (Z.to_nat (code - from)) with (S (Z.to_nat (code - (from + 1)))) by lia. reflexivity.
Qed.

Definition standard_names : list string := appendix_a.

Lemma standard_strings_names : map snd standard_strings = appendix_a.
Proof. vm_compute. reflexivity. Qed.

Lemma standard_string_name id : get_standard_string id = standard_name id.
Proof.
  unfold get_standard_string. rewrite (lookup_consecutive standard_strings 0).
  - rewrite Z.sub_0_r, standard_strings_names. unfold standard_name.
    destruct (Z.ltb_spec id 0), (Z.leb_spec 0 id); auto; lia.
  - vm_compute. reflexivity.
Qed.

Lemma standard_name_nth id : standard_name id =
  if id <? 0 then None else nth_error standard_names (Z.to_nat id).
Proof. unfold standard_name. destruct (Z.ltb_spec id 0), (Z.leb_spec 0 id); auto; lia. Qed.

Lemma standard_names_length : length standard_names = Z.to_nat 391.
Proof. vm_compute. reflexivity. Qed.

Fixpoint distinct (l : list string) : bool :=
  match l with
  | [] => true
  | x :: rest => negb (existsb (String.eqb x) rest) && distinct rest
  end.

Lemma distinct_NoDup l : distinct l = true -> NoDup l.
Proof.
  induction l as [|x l IH]; simpl; intros H; constructor.
  - apply andb_prop in H as [H _]. intros I. apply negb_true_iff in H.
    assert (existsb (String.eqb x) l = true).
    { apply existsb_exists. exists x. split; auto. apply String.eqb_refl. }
    congruence.
  - apply IH. apply andb_prop in H as [_ H]. assumption.
Qed.

Lemma standard_names_distinct : NoDup standard_names.
Proof. apply distinct_NoDup. vm_compute. reflexivity. Qed.

Lemma standard_name_defined id :
  (exists name, standard_name id = Some name) <-> 0 <= id < 391.
Proof.
  rewrite standard_name_nth. destruct (Z.ltb_spec id 0).
  - split; [intros (n & N); discriminate|lia].
  - split.
    + intros (n & N). assert (B : nth_error standard_names (Z.to_nat id) <> None) by congruence; apply nth_error_Some in B; rewrite standard_names_length in B; lia.
    + intros B. destruct (nth_error standard_names (Z.to_nat id)) eqn:E; eauto.
      apply nth_error_None in E. rewrite standard_names_length in E. lia.
Qed.

Lemma standard_name_injective i j name :
  standard_name i = Some name -> standard_name j = Some name -> i = j.
Proof.
  rewrite !standard_name_nth. destruct (Z.ltb_spec i 0), (Z.ltb_spec j 0); try discriminate.
  intros Hi Hj. pose proof standard_names_distinct as D. rewrite NoDup_nth_error in D.
  specialize (D (Z.to_nat i) (Z.to_nat j)).
  assert (B : nth_error standard_names (Z.to_nat i) <> None) by congruence.
  apply nth_error_Some in B. specialize (D B). rewrite Hi, Hj in D. specialize (D eq_refl). lia.
Qed.

Lemma standard_string_defined id :
  (exists name, get_standard_string id = Some name) <-> 0 <= id < 391.
Proof. rewrite standard_string_name. apply standard_name_defined. Qed.

Lemma standard_string_injective i j name :
  get_standard_string i = Some name -> get_standard_string j = Some name -> i = j.
Proof. rewrite !standard_string_name. apply standard_name_injective. Qed.

(** ** Strings *)

Lemma strings_get_standard x id : 0 <= id < 391 ->
  exists name, standard_name id = Some name /\ strings_get x id = Some (list_byte_of_string name).
Proof.
  intros H. destruct (proj2 (standard_name_defined id) H) as (name & E). exists name. split; auto.
  unfold strings_get, number_of_standard_strings. destruct (Z.ltb_spec id 391); [|lia].
  rewrite standard_string_name, E. reflexivity.
Qed.

Lemma strings_get_custom x id chunk : 391 <= id ->
  nth_error (data x) (Z.to_nat (id - 391)) = Some chunk ->
  exists string, strings_get x id = Some string /\ lossy chunk string /\
    (well_formed_utf8 chunk -> string = chunk).
Proof.
  intros H E. exists (from_utf8_lossy chunk).
  unfold strings_get, number_of_standard_strings. destruct (Z.ltb_spec id 391); [lia|].
  rewrite E. repeat split.
  - apply from_utf8_lossy_spec.
  - intros W. apply (lossy_identity _ _ (from_utf8_lossy_spec chunk) W).
Qed.

Lemma strings_get_beyond x id : 391 + Z.of_nat (length (data x)) <= id -> strings_get x id = None.
Proof.
  intros H. unfold strings_get, number_of_standard_strings. destruct (Z.ltb_spec id 391); [lia|].
  rewrite (proj2 (nth_error_None _ _)); [reflexivity|lia].
Qed.

(** ** Dictionaries *)

Lemma dictionaries_get_inside cfg d i chunk :
  nth_error (data d) i = Some chunk -> dictionaries_get cfg d i = read_operations chunk.
Proof.
  intros E. unfold dictionaries_get. rewrite E.
  assert (L : nth_error (data d) i <> None) by congruence. apply nth_error_Some in L.
  apply Nat.ltb_lt in L. rewrite L, andb_false_r. reflexivity.
Qed.

Lemma dictionaries_get_outside cfg d i : (length (data d) <= i)%nat ->
  dictionaries_get cfg d i = Panic (if debug_assertions cfg then DebugAssertion else IndexOutOfBounds).
Proof.
  intros L. unfold dictionaries_get. rewrite (proj2 (nth_error_None _ _) L).
  replace (i <? length (data d))%nat with false by (symmetry; apply Nat.ltb_ge; exact L).
  destruct (debug_assertions cfg); reflexivity.
Qed.

Lemma dictionaries_loop_chunks cfg d chunks : forall start,
  (forall j chunk, nth_error chunks j = Some chunk -> nth_error (data d) (start + j) = Some chunk) ->
  dictionaries_loop cfg d (seq start (length chunks)) =
  (fix go cs := match cs with
                | [] => Ok []
                | c :: rest => let* ops := read_operations c in let* opss := go rest in Ok (ops :: opss)
                end) chunks.
Proof.
  induction chunks as [|c chunks IH]; intros start H; [reflexivity|].
  cbn [length seq dictionaries_loop].
  rewrite (dictionaries_get_inside cfg d start c).
  2:{ specialize (H 0%nat c eq_refl). rewrite Nat.add_0_r in H. assumption. }
  rewrite (IH (S start)). { reflexivity. }
  intros j chunk E. specialize (H (S j) chunk E). rewrite Nat.add_succ_r in H. assumption.
Qed.

Lemma dictionaries_iff cfg d opss :
  dictionaries_try_into cfg d = Ok opss <->
  Forall2 (fun chunk ops => read_operations chunk = Ok ops) (data d) opss.
Proof.
  unfold dictionaries_try_into. rewrite (dictionaries_loop_chunks cfg d (data d) 0) by auto.
  generalize (data d). intros chunks. revert opss.
  induction chunks as [|c chunks IH]; intros opss; split; intros H.
  - injection H as <-. constructor.
  - inversion H. reflexivity.
  - inv_ok H. inv_ok H. injection H as <-. constructor; auto. apply IH. assumption.
  - inversion H as [|? ops ? rest Hc Hr]; subst. rewrite Hc. cbn [bind].
    rewrite (proj2 (IH rest) Hr). reflexivity.
Qed.

Lemma dictionaries_settled cfg d : settled (dictionaries_try_into cfg d).
Proof.
  unfold dictionaries_try_into. rewrite (dictionaries_loop_chunks cfg d (data d) 0) by auto.
  generalize (data d). intros chunks. induction chunks as [|c chunks IH]; [exact I|].
  apply settled_bind; [apply read_operations_settled|]. intros ops _.
  apply settled_bind; [exact IH|]. intros; exact I.
Qed.

Lemma dictionaries_entry cfg d opss i chunk :
  dictionaries_try_into cfg d = Ok opss -> nth_error (data d) i = Some chunk ->
  exists ops, nth_error opss i = Some ops /\ dictionaries_get cfg d i = Ok ops.
Proof.
  intros H E. rewrite (dictionaries_get_inside cfg d i chunk E).
  apply dictionaries_iff in H. revert i E. induction H as [|c ops cs opss Hc Hr IH]; intros i E.
  - destruct i; discriminate.
  - destruct i as [|i]; simpl in *; [|auto]. injection E as <-. eauto.
Qed.

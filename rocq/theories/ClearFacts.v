(** ClearFacts: operand counts, and the operators that clear the stack. *)
From Verif Require Import Base Float T2Operation T2Program BaseFacts SpecProgram StepFacts.
Local Open Scope nat_scope.

(** ** Counts admitted by the predicates of [clear!] *)

Fixpoint admits (shapes : list shape) (n : nat) : Prop :=
  match shapes with
  | [] => n = 0
  | equal c :: rest => exists m, n = c + m /\ admits rest m
  | maybe_equal c :: rest => exists m, (n = m \/ n = c + m) /\ admits rest m
  | modulo c :: rest => exists k m, 1 <= k /\ n = k * c + m /\ admits rest m
  | maybe_modulo c :: rest => exists k m, n = k * c + m /\ admits rest m
  end.

Definition positive_counts (shapes : list shape) : Prop :=
  Forall (fun s => match s with modulo c | maybe_modulo c => 1 <= c | _ => True end) shapes.

(** The least number that satisfies a predicate, if there is one. *)
Definition least (P : nat -> Prop) (o : option nat) : Prop :=
  match o with
  | None => forall r, ~ P r
  | Some r => P r /\ forall r', P r' -> r <= r'
  end.

Lemma least_iff P Q o : (forall r, P r <-> Q r) -> least P o -> least Q o.
Proof.
  intros H. destruct o; cbn.
  - intros [A B]. split; [apply H, A|]. intros r' K. apply B, H, K.
  - intros A r K. apply (A r), H, K.
Qed.

Lemma fold_least (Q : nat -> nat -> Prop) (f : option nat -> nat -> option nat) l :
  (forall P m i, In i l -> least P m -> least (fun r => P r \/ Q i r) (f m i)) ->
  forall P m, least P m -> least (fun r => P r \/ exists i, In i l /\ Q i r) (fold_left f l m).
Proof.
  induction l as [|i l IH]; intros H P m M; cbn [fold_left].
  - apply (least_iff P); auto. intros r. split; [auto|]. intros [A|(i & [] & _)]. auto.
  - eapply least_iff.
    2: { apply IH. { intros P' m' i' I. apply H. right. auto. } apply H; [left; auto|exact M]. }
    intros r. cbn beta. split.
    + intros [[A|A]|(j & I & A)]; [auto|right; exists i; split; [left|]; auto|right; exists j; split; [right|]; auto].
    + intros [A|(j & [->|I] & A)]; [auto|auto|right; exists j; auto].
Qed.

(** What is left when an admitted count is taken. *)
Definition remainder (shapes : list shape) (left r : nat) : Prop :=
  exists n, admits shapes n /\ n <= left /\ r = left - n.

Lemma reduce_least shapes : positive_counts shapes -> forall left P m,
  least P m -> least (fun r => P r \/ remainder shapes left r) (reduce shapes left m).
Proof.
  induction shapes as [|s shapes IH]; intros C left P m M.
  - cbn [reduce]. assert (E : forall r, remainder [] left r <-> r = left).
    { intros r. unfold remainder. cbn. split; [intros (n & -> & _ & ->); lia|intros ->; exists 0; lia]. }
    destruct m as [x|]; cbn in M.
    + destruct M as [A B]. destruct (Nat.ltb_spec left x); cbn.
      * split; [right; apply E; auto|]. intros r' [K|K]; [apply B in K; lia|apply E in K; lia].
      * split; auto. intros r' [K|K]; [apply B in K; lia|apply E in K; lia].
    + cbn. split; [right; apply E; auto|]. intros r' [K|K]; [apply M in K; contradiction|apply E in K; lia].
  - inversion C as [|? ? C1 C2]; subst. destruct s as [c|c|c|c]; cbn [reduce].
    + destruct (Nat.leb_spec c left).
      * eapply least_iff; [|apply IH; eauto]. intros r. cbn beta.
        assert (E : remainder shapes (left - c) r <-> remainder (equal c :: shapes) left r).
        { unfold remainder. cbn. split.
          - intros (n & A & L & ->). exists (c + n). split; [eauto|]. lia.
          - intros (n & (k & -> & A) & L & ->). exists k. split; auto. lia. }
        tauto.
      * eapply least_iff; [|exact M]. intros r. split; auto. intros [A|(n & (k & -> & A) & L & ->)]; [auto|lia].
    + assert (M1 : least (fun r => P r \/ remainder shapes left r) (reduce shapes left m)) by (apply IH; auto).
      destruct (Nat.leb_spec c left).
      * eapply least_iff; [|apply IH; eauto]. intros r. cbn beta.
        assert (E : remainder shapes left r \/ remainder shapes (left - c) r <->
                    remainder (maybe_equal c :: shapes) left r).
        { unfold remainder. cbn. split.
          - intros [(n & A & L & ->)|(n & A & L & ->)]; [exists n; split; [eauto|lia]|exists (c + n); split; [eauto|lia]].
          - intros (n & (k & [->| ->] & A) & L & ->); [left; exists k; auto|right; exists k; split; auto; lia]. }
        tauto.
      * eapply least_iff; [|exact M1]. intros r. cbn beta.
        assert (E : remainder shapes left r <-> remainder (maybe_equal c :: shapes) left r).
        { unfold remainder. cbn. split.
          - intros (n & A & L & ->). exists n. split; [eauto|lia].
          - intros (n & (k & [->| ->] & A) & L & ->); [exists k; auto|lia]. }
        tauto.
    + eapply least_iff; [|apply (fold_least (fun i => remainder shapes (left - i * c)));
        [intros P' m' i I M'; apply IH; auto|exact M]].
      intros r. cbn beta.
      assert (E : (exists i, In i (seq 1 (left / c)) /\ remainder shapes (left - i * c) r) <->
                  remainder (modulo c :: shapes) left r).
      { unfold remainder. cbn. split.
        - intros (i & I & n & A & L & ->). apply in_seq in I. exists (i * c + n).
          assert (i * c <= left).
          { apply Nat.le_trans with (c * (left / c)); [nia|]. apply Nat.mul_div_le. lia. }
          split; [exists i, n; repeat split; auto; lia|lia].
        - intros (n & (i & k & K & -> & A) & L & ->). exists i. split.
          + apply in_seq. enough (i <= left / c) by lia. apply Nat.div_le_lower_bound; lia.
          + exists k. split; auto. lia. }
      tauto.
    + eapply least_iff; [|apply (fold_least (fun i => remainder shapes (left - i * c)));
        [intros P' m' i I M'; apply IH; auto|exact M]].
      intros r. cbn beta.
      assert (E : (exists i, In i (seq 0 (left / c + 1)) /\ remainder shapes (left - i * c) r) <->
                  remainder (maybe_modulo c :: shapes) left r).
      { unfold remainder. cbn. split.
        - intros (i & I & n & A & L & ->). apply in_seq in I. exists (i * c + n).
          assert (i * c <= left).
          { apply Nat.le_trans with (c * (left / c)); [nia|]. apply Nat.mul_div_le. lia. }
          split; [exists i, n; repeat split; auto|lia].
        - intros (n & (i & k & -> & A) & L & ->). exists i. split.
          + apply in_seq. enough (i <= left / c) by lia. apply Nat.div_le_lower_bound; lia.
          + exists k. split; auto. lia. }
      tauto.
Qed.

Lemma reduce_all_least alternatives left : Forall positive_counts alternatives -> forall P m, least P m ->
  least (fun r => P r \/ exists shapes, In shapes alternatives /\ remainder shapes left r)
    (fold_left (fun min shapes => reduce shapes left min) alternatives m).
Proof.
  induction alternatives as [|a l IH]; intros C P m M; cbn [fold_left].
  - eapply least_iff; [|exact M]. intros r. split; auto. intros [A|(s & [] & _)]. auto.
  - inversion C; subst. eapply least_iff; [|apply IH; auto; apply reduce_least; eauto].
    intros r. cbn beta. split.
    + intros [[A|A]|(s & I & A)]; [auto|right; exists a; split; [left|]; auto|right; exists s; split; [right|]; auto].
    + intros [A|(s & [->|I] & A)]; [auto|auto|right; exists s; auto].
Qed.

(** ** Clearing *)

(** The alternatives admit the legal counts and no others. *)
Definition describes (alternatives : list (list shape)) (o : t2_operator) : Prop :=
  Forall positive_counts alternatives /\
  forall n, legal_count o n <-> exists shapes, In shapes alternatives /\ admits shapes n.

Lemma nth_error_last {A} (l : list A) x : nth_error (l ++ [x]) (length (l ++ [x]) - 1) = Some x.
Proof.
  rewrite app_length. cbn. rewrite nth_error_app2 by lia.
  replace (length l + 1 - 1 - length l) with 0 by lia. reflexivity.
Qed.

Definition last_error (l : list f32) : option f32 := nth_error l (length l - 1).

(** The width after an operator with a surplus. *)
Definition width_after (w : option f32) (surplus : list f32) : option f32 :=
  match w with Some _ => w | None => last_error surplus end.

Lemma clear_ok alternatives o p surplus operands : describes alternatives o ->
  longest o (stack p) surplus operands ->
  clear o alternatives p =
  Ok (Yield (Some (o, operands)) (set_width (set_stack p []) (width_after (width p) surplus))).
Proof.
  intros [C D] (E & L & M). unfold clear.
  pose proof (reduce_all_least alternatives (length (stack p)) C (fun _ => False) None ltac:(cbn; auto)) as B.
  assert (Len : length (stack p) = length surplus + length operands) by (rewrite E, app_length; auto).
  destruct (fold_left _ _ _) as [r|].
  - destruct B as [[[]|(shapes & I & n & A & N & ->)] B].
    assert (n = length operands) as ->.
    { apply Nat.le_antisymm.
      - apply M; auto. apply D. eauto.
      - apply D in L as (shapes' & I' & A').
        specialize (B (length (stack p) - length operands)).
        enough (length (stack p) - n <= length (stack p) - length operands) by lia.
        apply B. right. exists shapes'. split; auto. exists (length operands). repeat split; auto. lia. }
    replace (length (stack p) - length operands) with (length surplus) by lia.
    rewrite E, skipn_app, skipn_all, Nat.sub_diag, firstn_app, firstn_all, Nat.sub_diag. cbn [app skipn firstn].
    rewrite app_nil_r. unfold width_after, last_error. destruct surplus as [|y ys].
    + cbn. destruct (width p); reflexivity.
    + cbn [length Nat.ltb Nat.leb andb]. destruct (width p); [reflexivity|].
      destruct (nth_error (y :: ys) (S (length ys) - 1)) eqn:X; [reflexivity|].
      apply nth_error_None in X. cbn in X. lia.
  - exfalso. apply D in L as (shapes & I & A). apply (B (length surplus)). right. exists shapes.
    split; auto. exists (length operands). repeat split; auto; lia.
Qed.

Lemma clear_err alternatives o p : describes alternatives o ->
  (forall m, legal_count o m -> length (stack p) < m) -> clear o alternatives p = Err Other.
Proof.
  intros [C D] N. unfold clear.
  pose proof (reduce_all_least alternatives (length (stack p)) C (fun _ => False) None ltac:(cbn; auto)) as B.
  destruct (fold_left _ _ _) as [r|]; auto. exfalso.
  destruct B as [[[]|(shapes & I & n & A & L & ->)] _].
  assert (length (stack p) < n) by (apply N, D; eauto). lia.
Qed.

Lemma clear_cases alternatives o p : describes alternatives o ->
  (exists surplus operands, longest o (stack p) surplus operands) \/
  (forall m, legal_count o m -> length (stack p) < m).
Proof.
  intros [C D].
  pose proof (reduce_all_least alternatives (length (stack p)) C (fun _ => False) None ltac:(cbn; auto)) as B.
  destruct (fold_left _ _ _) as [r|].
  - left. destruct B as [[[]|(shapes & I & n & A & L & ->)] B].
    exists (firstn (length (stack p) - n) (stack p)), (skipn (length (stack p) - n) (stack p)).
    assert (Ln : length (skipn (length (stack p) - n) (stack p)) = n) by (rewrite skipn_length; lia).
    split; [symmetry; apply firstn_skipn|]. rewrite Ln. split; [apply D; eauto|].
    intros m Lm Bm. apply D in Lm as (s & I' & A').
    enough (length (stack p) - n <= length (stack p) - m) by lia.
    apply B. right. exists s. split; auto. exists m. auto.
  - right. intros m Lm. destruct (Nat.le_gt_cases m (length (stack p))) as [H|H]; auto. exfalso.
    apply D in Lm as (s & I & A). apply (B (length (stack p) - m)). right. exists s. split; auto. exists m. auto.
Qed.

(** ** The predicates of each operator *)

Definition alternatives_of (o : t2_operator) : list (list shape) :=
  match o with
  | T2_RMoveTo => [[equal 2]]
  | T2_HMoveTo | T2_VMoveTo => [[equal 1]]
  | T2_RLineTo => [[modulo 2]]
  | T2_HLineTo | T2_VLineTo => [[equal 1; maybe_modulo 2]; [modulo 2]]
  | T2_RRCurveTo => [[modulo 6]]
  | T2_HHCurveTo | T2_VVCurveTo => [[maybe_equal 1; modulo 4]]
  | T2_HVCurveTo | T2_VHCurveTo => [[equal 4; maybe_modulo 8; maybe_equal 1]; [modulo 8; maybe_equal 1]]
  | T2_RCurveLine => [[modulo 6; equal 2]]
  | T2_RLineCurve => [[modulo 2; equal 6]]
  | T2_Flex => [[equal 13]]
  | T2_Flex1 => [[equal 11]]
  | T2_HFlex => [[equal 7]]
  | T2_HFlex1 => [[equal 9]]
  | T2_HStem | T2_VStem | T2_HStemHM | T2_VStemHM => [[equal 2; maybe_modulo 2]]
  | T2_HintMask | T2_CntrMask => [[equal 0]]
  | _ => []
  end.

Lemma ex_one {A} (P : A -> Prop) a : (exists x, In x [a] /\ P x) <-> P a.
Proof. split; [intros (x & [->|[]] & H); auto|intros H; exists a; split; [left|]; auto]. Qed.
Lemma ex_two {A} (P : A -> Prop) a b : (exists x, In x [a; b] /\ P x) <-> P a \/ P b.
Proof.
  split; [intros (x & [->|[->|[]]] & H); auto|].
  intros [H|H]; [exists a; split; [left|]; auto|exists b; split; [right; left|]; auto].
Qed.

Lemma admits_equal c n : admits [equal c] n <-> n = c.
Proof. cbn. split; [intros (m & -> & ->); lia|intros ->; exists 0; lia]. Qed.
Lemma admits_modulo c n : admits [modulo c] n <-> exists k, 1 <= k /\ n = c * k.
Proof.
  cbn. split; [intros (k & m & K & -> & ->); exists k; nia|].
  intros (k & K & ->). exists k, 0. nia.
Qed.
Lemma admits_modulo_equal c d n : admits [modulo c; equal d] n <-> exists k, 1 <= k /\ n = c * k + d.
Proof.
  cbn. split; [intros (k & m & K & -> & m' & -> & ->); exists k; nia|].
  intros (k & K & ->). exists k, d. repeat split; [auto|nia|]. exists 0. lia.
Qed.
Lemma admits_equal_maybe c d n : admits [equal c; maybe_modulo d] n <-> exists k, n = c + d * k.
Proof.
  cbn. split; [intros (m & -> & k & m' & -> & ->); exists k; nia|].
  intros (k & ->). exists (d * k). split; auto. exists k, 0. nia.
Qed.
Lemma admits_maybe_modulo c d n :
  admits [maybe_equal c; modulo d] n <-> exists k, 1 <= k /\ (n = d * k \/ n = c + d * k).
Proof.
  cbn. split.
  - intros (m & E & k & m' & K & -> & ->). exists k. nia.
  - intros (k & K & E). exists (d * k). split; auto. exists k, 0. nia.
Qed.
Lemma admits_modulo_maybe c d n :
  admits [modulo c; maybe_equal d] n <-> exists k, 1 <= k /\ (n = c * k \/ n = c * k + d).
Proof.
  cbn. split.
  - intros (k & m & K & -> & m' & E & ->). exists k. nia.
  - intros (k & K & [->| ->]).
    + exists k, 0. repeat split; [auto|nia|]. exists 0. auto.
    + exists k, d. repeat split; [auto|nia|]. exists 0. lia.
Qed.
Lemma admits_curves c d n :
  admits [equal c; maybe_modulo d; maybe_equal 1] n <-> exists k, n = c + d * k \/ n = c + d * k + 1.
Proof.
  cbn. split.
  - intros (m & -> & k & m' & -> & m'' & E & ->). exists k. nia.
  - intros (k & [->| ->]).
    + exists (d * k). split; auto. exists k, 0. split; [nia|]. exists 0. auto.
    + exists (d * k + 1). split; [lia|]. exists k, 1. split; [nia|]. exists 0. auto.
Qed.

Lemma alternatives_described o : path_or_hint o = true -> describes (alternatives_of o) o.
Proof.
  intros P. split.
  { destruct o; try discriminate; cbn; repeat constructor; lia. }
  intros n. destruct o; try discriminate; cbn [alternatives_of legal_count]; rewrite ?ex_one, ?ex_two,
    ?admits_equal, ?admits_modulo, ?admits_modulo_equal, ?admits_equal_maybe, ?admits_maybe_modulo,
    ?admits_modulo_maybe, ?admits_curves; reflexivity.
Qed.

(** ** Execution of the operators that clear the stack *)

Local Open Scope Z_scope.

Lemma execute_path cfg o p : path_operator o = true -> execute cfg o p = clear o (alternatives_of o) p.
Proof. destruct o; try discriminate; reflexivity. Qed.

Lemma path_is o : path_operator o = true -> path_or_hint o = true.
Proof. unfold path_or_hint. intros ->. reflexivity. Qed.
Lemma stem_is o : stem_operator o = true -> path_or_hint o = true.
Proof. unfold path_or_hint. intros ->. rewrite orb_true_r. reflexivity. Qed.
Lemma mask_is o : mask_operator o = true -> path_or_hint o = true.
Proof. unfold path_or_hint. intros ->. apply orb_true_r. Qed.

Lemma shiftr_half n : Z.shiftr n 1 = n / 2.
Proof. rewrite Z.shiftr_div_pow2 by lia. reflexivity. Qed.

Lemma declared_pairs o (st : list f32) : stem_operator o = true \/ mask_operator o = true ->
  Z.shiftr (Z.of_nat (length st)) 1 = declared o (length st).
Proof.
  intros H. rewrite shiftr_half. unfold declared.
  destruct H as [-> | ->]; [reflexivity|]. rewrite orb_true_r. reflexivity.
Qed.

Lemma declared_nonneg o n : 0 <= declared o n.
Proof. unfold declared. destruct (_ || _); [|lia]. apply Z.div_pos; lia. Qed.

Lemma declared_le o n : 2 * declared o n <= Z.of_nat n.
Proof. unfold declared. destruct (_ || _); [|lia]. apply Z.mul_div_le. lia. Qed.

Lemma add_u64_small cfg a b : 0 <= a + b < 2 ^ 64 -> add_u64 cfg a b = Ok (a + b).
Proof.
  intros H. unfold add_u64, in_u64.
  destruct (Z.leb_spec 0 (a + b)), (Z.ltb_spec (a + b) (2 ^ 64)); try lia. reflexivity.
Qed.

(** The state after an operator that clears the stack. *)
Definition cleared (p : program) (n : Z) (surplus : list f32) (r : list byte) : program :=
  {| routine := r; callers := callers p; global := global p; local := local p;
     stack := []; stems := n; width := width_after (width p) surplus |}.

Lemma mask_bytes_shift n : mask_bytes n (Z.shiftr (n + 7) 3).
Proof. rewrite Z.shiftr_div_pow2 by lia. unfold mask_bytes. change (2 ^ 3) with 8.
  pose proof (Z.div_mod (n + 7) 8 ltac:(lia)). pose proof (Z.mod_pos_bound (n + 7) 8 ltac:(lia)). lia.
Qed.

Lemma mask_bytes_unique n a b : mask_bytes n a -> mask_bytes n b -> a = b.
Proof. unfold mask_bytes. lia. Qed.

Lemma take_mask cfg n mask r : mask_bytes n (Z.of_nat (length mask)) -> 0 <= n -> n + 7 < 2 ^ 64 ->
  take_vec cfg 1 take_byte (Z.shiftr (n + 7) 3) (mask ++ r) = Ok (mask, r).
Proof.
  intros M N B. rewrite (mask_bytes_unique _ _ _ (mask_bytes_shift n) M).
  rewrite take_vec_byte.
  - destruct (Z.leb_spec (Z.of_nat (length mask)) (Z.of_nat (length (mask ++ r)))).
    + rewrite Nat2Z.id, firstn_app, firstn_all, Nat.sub_diag, skipn_app, skipn_all, Nat.sub_diag.
      cbn. rewrite app_nil_r. reflexivity.
    + rewrite app_length in *. lia.
  - lia.
  - unfold isize_max, mask_bytes in *. lia.
Qed.

Lemma longest_mask o st : mask_operator o = true -> longest o st st [].
Proof.
  intros H. split; [symmetry; apply app_nil_r|]. destruct o; try discriminate; cbn; (split; [reflexivity|]);
    intros m -> _; auto.
Qed.

Lemma execute_clears cfg o p surplus operands mask r : path_or_hint o = true ->
  routine p = mask ++ r -> longest o (stack p) surplus operands ->
  0 <= stems p -> stems p + declared o (length (stack p)) + 7 < 2 ^ 64 ->
  (if mask_operator o then mask_bytes (stems p + declared o (length (stack p))) (Z.of_nat (length mask))
   else mask = []) ->
  execute cfg o p =
  Ok (Yield (Some (o, operands)) (cleared p (stems p + declared o (length (stack p))) surplus r)).
Proof.
  intros P R L N0 N M. pose proof (alternatives_described o P) as D. pose proof (declared_nonneg o (length (stack p))) as Dn.
  destruct (path_operator o) eqn:Ep; [|destruct (stem_operator o) eqn:Es; [|destruct (mask_operator o) eqn:Em]].
  - rewrite execute_path, (clear_ok _ _ _ _ _ D L) by auto.
    destruct (mask_operator o) eqn:Em; [destruct o; discriminate|]. subst mask. cbn [app] in R.
    unfold cleared, set_width, set_stack. cbn. do 4 f_equal; auto.
    destruct o; try discriminate; cbn; lia.
  - assert (E : execute cfg o p = (let* n := add_u64 cfg (stems p) (Z.shiftr (Z.of_nat (length (stack p))) 1) in
        clear o (alternatives_of o) (set_stems p n))) by (destruct o; try discriminate; reflexivity).
    rewrite E, (declared_pairs o) by auto. rewrite add_u64_small by lia. cbn [bind].
    rewrite (clear_ok _ _ _ surplus operands D) by auto.
    destruct (mask_operator o) eqn:Em; [destruct o; discriminate|]. subst mask. cbn [app] in R.
    unfold cleared, set_width, set_stack, set_stems. cbn. do 4 f_equal; auto.
  - assert (E : execute cfg o p = (let* n := add_u64 cfg (stems p) (Z.shiftr (Z.of_nat (length (stack p))) 1) in
        let* m := add_u64 cfg n 7 in
        let* (_, r) := take_vec cfg 1 take_byte (Z.shiftr m 3) (routine p) in
        clear o (alternatives_of o) (set_routine (set_stems p n) r))) by (destruct o; try discriminate; reflexivity).
    rewrite E, (declared_pairs o) by auto. rewrite add_u64_small by lia. cbn [bind].
    rewrite add_u64_small by lia. cbn [bind]. rewrite R, take_mask by (auto; lia). cbn [bind].
    rewrite (clear_ok _ _ _ surplus operands D) by auto. reflexivity.
  - unfold path_or_hint in P. rewrite Ep, Es, Em in P. discriminate.
Qed.

(** The stack has no suffix of a legal length. *)
Lemma execute_starves cfg o p : path_operator o = true \/ stem_operator o = true ->
  0 <= stems p -> stems p + declared o (length (stack p)) < 2 ^ 64 ->
  (forall m, legal_count o m -> (length (stack p) < m)%nat) -> execute cfg o p = Err Other.
Proof.
  intros H N0 N L. pose proof (declared_nonneg o (length (stack p))) as Dn.
  destruct H as [H|H].
  - rewrite execute_path by auto. apply clear_err; auto. apply alternatives_described, path_is, H.
  - assert (E : execute cfg o p = (let* n := add_u64 cfg (stems p) (Z.shiftr (Z.of_nat (length (stack p))) 1) in
        clear o (alternatives_of o) (set_stems p n))) by (destruct o; try discriminate; reflexivity).
    rewrite E, (declared_pairs o), add_u64_small by (auto; lia). cbn [bind]. apply clear_err; auto.
    apply alternatives_described, stem_is, H.
Qed.

(** The mask is cut short. *)
Lemma execute_mask_eof cfg o p n : mask_operator o = true ->
  0 <= stems p -> stems p + declared o (length (stack p)) + 7 < 2 ^ 64 ->
  mask_bytes (stems p + declared o (length (stack p))) n -> Z.of_nat (length (routine p)) < n ->
  execute cfg o p = Err UnexpectedEof.
Proof.
  intros H N0 N M L. pose proof (declared_nonneg o (length (stack p))) as Dn.
  assert (E : execute cfg o p = (let* n := add_u64 cfg (stems p) (Z.shiftr (Z.of_nat (length (stack p))) 1) in
      let* m := add_u64 cfg n 7 in
      let* (_, r) := take_vec cfg 1 take_byte (Z.shiftr m 3) (routine p) in
      clear o (alternatives_of o) (set_routine (set_stems p n) r))) by (destruct o; try discriminate; reflexivity).
  rewrite E, (declared_pairs o), add_u64_small by (auto; lia). cbn [bind].
  rewrite add_u64_small by lia. cbn [bind].
  rewrite (mask_bytes_unique _ _ _ (mask_bytes_shift _) M). rewrite take_vec_byte.
  - destruct (Z.leb_spec n (Z.of_nat (length (routine p)))); [lia|reflexivity].
  - unfold mask_bytes in M. lia.
  - unfold isize_max, mask_bytes in *. lia.
Qed.

(** ** Inversion: what any successful round does, whatever the counters *)

Lemma execute_yields cfg o p op p' : execute cfg o p = Ok (Yield (Some op) p') ->
  path_or_hint o = true /\ fst op = o /\
  exists surplus, longest o (stack p) surplus (snd op) /\ stack p' = [] /\
    width p' = width_after (width p) surplus /\
    callers p' = callers p /\ global p' = global p /\ local p' = local p /\
    (if mask_operator o then exists mask, routine p = mask ++ routine p' else routine p' = routine p).
Proof.
  assert (C : forall q, path_or_hint o = true -> stack q = stack p -> width q = width p -> callers q = callers p ->
    global q = global p -> local q = local p ->
    clear o (alternatives_of o) q = Ok (Yield (Some op) p') ->
    fst op = o /\ exists surplus, longest o (stack p) surplus (snd op) /\ stack p' = [] /\
    width p' = width_after (width p) surplus /\ callers p' = callers p /\ global p' = global p /\
    local p' = local p /\ routine p' = routine q).
  { intros q P E1 E2 E3 E4 E5 H. pose proof (alternatives_described o P) as D.
    destruct (clear_cases _ _ q D) as [(surplus & operands & L)|L].
    - rewrite (clear_ok _ _ _ _ _ D L) in H. injection H as <- <-. split; auto. exists surplus.
      rewrite <- E1, <- E2. cbn. auto 10.
    - rewrite (clear_err _ _ _ D L) in H. discriminate. }
  intros H. destruct (path_operator o) eqn:Ep; [|destruct (stem_operator o) eqn:Es; [|destruct (mask_operator o) eqn:Em]].
  - rewrite execute_path in H by auto. split; [apply path_is, Ep|].
    apply C in H; auto using path_is. destruct H as (E & surplus & L & H). split; auto. exists surplus.
    split; auto. destruct (mask_operator o) eqn:Em; [destruct o; discriminate|tauto].
  - assert (E : execute cfg o p = (let* n := add_u64 cfg (stems p) (Z.shiftr (Z.of_nat (length (stack p))) 1) in
        clear o (alternatives_of o) (set_stems p n))) by (destruct o; try discriminate; reflexivity).
    rewrite E in H. inv_ok H. split; [apply stem_is, Es|].
    apply C in H; auto using stem_is. destruct H as (E' & surplus & L & H). split; auto. exists surplus.
    split; auto. destruct (mask_operator o) eqn:Em; [destruct o; discriminate|tauto].
  - assert (E : execute cfg o p = (let* n := add_u64 cfg (stems p) (Z.shiftr (Z.of_nat (length (stack p))) 1) in
        let* m := add_u64 cfg n 7 in
        let* (_, r) := take_vec cfg 1 take_byte (Z.shiftr m 3) (routine p) in
        clear o (alternatives_of o) (set_routine (set_stems p n) r))) by (destruct o; try discriminate; reflexivity).
    rewrite E in H. inv_ok H. inv_ok H. inv_ok H. destruct a1 as [mask r].
    split; [apply mask_is, Em|].
    apply C in H; auto using mask_is. destruct H as (E' & surplus & L & K1 & K3 & K4 & K5 & K6 & K7). split; auto. exists surplus.
    split; [exact L|]. do 5 (split; [assumption|]). rewrite K7. cbn [routine set_routine].
    exists mask. unfold take_vec in H2. destruct (preallocates cfg && _); [discriminate|].
    rewrite take_n_byte in H2. destruct (Nat.leb _ _); [|discriminate]. injection H2 as <- <-.
    symmetry. apply firstn_skipn.
  - exfalso. destruct o; try discriminate; cbn in H; unfold with_stack in H;
      repeat (inv_ok H; try (match type of H with Ok _ = _ => fail 1 | context [let (_, _) := ?a in _] => destruct a end));
      try discriminate.
    all: try (destruct (callers p); discriminate).
Qed.

(** ListingFacts: straight-line character strings, and the number of stem hints. *)
From Verif Require Import Base Float T2Operation T2Program BaseFacts SpecProgram T2NumberFacts StepFacts ClearFacts RunFacts.
Local Open Scope Z_scope.

(** ** Items *)

Definition listed (p : program) (xs : list item) (surpluses : list (list f32)) (r : list byte) : program :=
  {| routine := r; callers := callers p; global := global p; local := local p; stack := [];
     stems := fold_left stems_after xs (stems p); width := fold_left width_after surpluses (width p) |}.

Lemma numbers_length e xs : each t2_number e xs -> (length xs <= length e)%nat.
Proof. apply each_consumes_length. intros e' x. apply t2_number_consumes. Qed.

Lemma item_step cfg p x e surplus op r : stack p = [] -> routine p = e ++ r ->
  item_encoding e x -> item_result x surplus op ->
  (if mask_operator (item_operator x)
   then mask_bytes (stems_after (stems p) x) (Z.of_nat (length (item_mask x)))
   else item_mask x = []) ->
  0 <= stems p -> stems_after (stems p) x + 7 < 2 ^ 64 ->
  step cfg p = Ok (Yield (Some op) (listed p [x] [surplus] r)).
Proof.
  intros K R (ns & N & ->) (P & F & L) M S0 S1. destruct op as [o operands]. cbn [fst snd] in *. subst o.
  rewrite <- !app_assoc in R. rewrite (step_code _ _ _ _ _ _ N R).
  assert (Es : stack (loaded p (item_numbers x) (item_mask x ++ r)) = item_numbers x).
  { unfold loaded. cbn. rewrite K. reflexivity. }
  unfold stems_after in *.
  rewrite (execute_clears cfg _ (loaded p (item_numbers x) (item_mask x ++ r)) surplus operands (item_mask x) r); auto.
  - rewrite Es. unfold cleared, listed, loaded, stems_after. cbn. reflexivity.
  - rewrite Es. exact L.
  - rewrite Es. exact S1.
  - rewrite Es. exact M.
Qed.

Lemma fold_stems_le xs : forall n, n <= fold_left stems_after xs n.
Proof.
  induction xs as [|x xs IH]; intros n; cbn [fold_left]; [lia|]. specialize (IH (stems_after n x)).
  unfold stems_after in *. pose proof (declared_nonneg (item_operator x) (length (item_numbers x))). lia.
Qed.

Lemma fold_stems_length code xs : each item_encoding code xs -> forall n,
  fold_left stems_after xs n <= n + Z.of_nat (length code).
Proof.
  induction 1 as [|e x es xs (ns & N & ->) E IH]; intros n; cbn [fold_left]; [cbn; lia|].
  specialize (IH (stems_after n x)).
  assert (stems_after n x = n + declared (item_operator x) (length (item_numbers x))) by reflexivity.
  pose proof (declared_le (item_operator x) (length (item_numbers x))). apply numbers_length in N.
  pose proof (declared_nonneg (item_operator x) (length (item_numbers x))).
  rewrite !app_length. lia.
Qed.

Lemma listing_trace cfg code xs : each item_encoding code xs -> forall p surpluses ops r,
  results xs surpluses ops -> stack p = [] -> routine p = code ++ r ->
  masks_fit (stems p) xs -> 0 <= stems p -> fold_left stems_after xs (stems p) + 7 < 2 ^ 64 ->
  trace cfg p ops (listed p xs surpluses r).
Proof.
  induction 1 as [|e x es xs X E IH]; intros p surpluses ops r H K R M S0 S1.
  - inversion H; subst. cbn in R. unfold listed. cbn. rewrite <- K, <- R. destruct p. constructor.
  - inversion H as [|x' xs' surplus ss op ops' Hx Hxs]; subst. cbn [masks_fit fold_left] in *.
    destruct M as [M Ms]. rewrite <- app_assoc in R. pose proof (fold_stems_le xs (stems_after (stems p) x)) as Le.
    eapply trace_emit.
    + apply (item_step cfg p x e surplus op (es ++ r)); auto. lia.
    + specialize (IH (listed p [x] [surplus] (es ++ r)) ss ops' r). cbn in IH.
      unfold listed at 2 in IH. cbn in IH. apply IH; auto.
      unfold stems_after. pose proof (declared_nonneg (item_operator x) (length (item_numbers x))). lia.
Qed.

(** [endchar] at the end of the outermost routine. *)
Lemma step_endchar cfg p e xs r : callers p = [] -> each t2_number e xs -> routine p = e ++ t2_bytes T2_EndChar ++ r ->
  step cfg p = Ok (Yield None
    {| routine := r; callers := []; global := global p; local := local p; stack := stack p ++ xs;
       stems := stems p; width := width_after (width p) (stack p ++ xs) |}).
Proof.
  intros C E R. rewrite (step_code _ _ _ _ _ _ E R). unfold execute, loaded. cbn. rewrite C. cbn.
  unfold set_width, set_frames, width_after. cbn. do 4 f_equal.
  assert (G : forall l : list f32, match vec_pop l with Some (top, _) => Some top | None => None end = last_error l).
  { induction l as [|y l IH]; [reflexivity|]. cbn [vec_pop]. destruct (vec_pop l) as [[z zs]|].
    - unfold last_error in *. rewrite IH. destruct l; [discriminate|]. cbn. rewrite Nat.sub_0_r. reflexivity.
    - unfold last_error in *. destruct l as [|z l]; [reflexivity|]. symmetry in IH. apply nth_error_None in IH. cbn in IH. lia. }
  rewrite <- G. destruct (vec_pop (stack p ++ xs)) as [[t ?]|], (width p); reflexivity.
Qed.

(** A listing closed by [endchar] with arguments [last]. *)
Lemma listing_runs cfg code e xs surpluses ops last p r : each item_encoding code xs -> results xs surpluses ops ->
  each t2_number e last -> stack p = [] -> callers p = [] -> routine p = code ++ e ++ t2_bytes T2_EndChar ++ r ->
  masks_fit (stems p) xs -> 0 <= stems p -> fold_left stems_after xs (stems p) + 7 < 2 ^ 64 ->
  runs cfg p (Ok (ops,
    {| routine := r; callers := []; global := global p; local := local p; stack := last;
       stems := fold_left stems_after xs (stems p);
       width := fold_left width_after (surpluses ++ [last]) (width p) |})).
Proof.
  intros X H E K C R M S0 S1.
  pose proof (listing_trace cfg code xs X p surpluses ops _ H K R M S0 S1) as T.
  apply (trace_runs _ _ _ _ T). eexists. split.
  - apply runs_none, nexts_yield with (x := None) (p' := {| routine := r; callers := []; global := global p; local := local p; stack := last;
       stems := fold_left stems_after xs (stems p);
       width := fold_left width_after (surpluses ++ [last]) (width p) |}); auto.
    erewrite step_endchar; [| |exact E|reflexivity]; [|exact C]. unfold listed. cbn.
    rewrite fold_left_app. reflexivity.
  - cbn. rewrite app_nil_r. reflexivity.
Qed.

(** ** Width *)

Lemma width_after_some w surpluses : fold_left width_after surpluses (Some w) = Some w.
Proof. induction surpluses; auto. Qed.

Lemma width_after_none surpluses : Forall (fun s => s = []) surpluses -> fold_left width_after surpluses None = None.
Proof. induction 1 as [|s ss -> H IH]; auto. Qed.

Lemma width_after_first w s ss : Forall (fun s => s = []) ss ->
  fold_left width_after (s :: ss) w = width_after w s.
Proof.
  intros H. cbn [fold_left]. destruct (width_after w s); [apply width_after_some|apply width_after_none; auto].
Qed.

Lemma last_error_short (l : list f32) : (length l <= 1)%nat -> last_error l = hd_error l.
Proof. destruct l as [|x [|y l]]; cbn; auto. lia. Qed.

(** The first operator of a listing. *)
Lemma specified_first x surplus op : item_result x surplus op -> (length surplus <= 1)%nat ->
  (surplus = [] \/ stem_operator (item_operator x) = true \/ mask_operator (item_operator x) = true \/
   item_operator x = T2_RMoveTo \/ item_operator x = T2_HMoveTo \/ item_operator x = T2_VMoveTo) ->
  specified_width (item_operator x) (item_numbers x) = last_error surplus.
Proof.
  intros (P & F & E & L & Mx) Sh O. destruct op as [o operands]. cbn [fst snd] in *. subst o.
  rewrite last_error_short by auto. destruct (item_operator x) eqn:Eo; try discriminate P; cbn in L;
    unfold specified_width; cbv zeta; try (destruct O as [->|[O|[O|[O|[O|O]]]]]; try discriminate O; (reflexivity || (rewrite E; reflexivity))).
  all: assert (Ln : length (item_numbers x) = (length surplus + length operands)%nat) by (rewrite E; apply app_length).
  all: destruct surplus as [|s [|? ?]]; [| |cbn in Sh; lia]; rewrite Ln; cbn [length plus].
  all: try rewrite L.
  all: try reflexivity; try (rewrite E; reflexivity).
  all: destruct L as [k L]; rewrite L, E; cbn [app hd_error].
  all: first
    [ replace (Nat.odd (S (S (k + (k + 0))))) with false;
      [reflexivity|symmetry; replace (S (S (k + (k + 0)))) with (2 * (1 + k))%nat by lia; rewrite Nat.odd_mul; reflexivity]
    | replace (Nat.odd (S (S (S (k + (k + 0)))))) with true;
      [reflexivity|symmetry; rewrite Nat.odd_succ; replace (S (S (k + (k + 0)))) with (2 * (1 + k))%nat by lia;
        rewrite Nat.even_mul; reflexivity] ].
Qed.

(** ** The number of stem hints *)

Lemma execute_again_stems cfg o p p' : execute cfg o p = Ok (Again p') -> stems p' = stems p.
Proof.
  intros H. apply execute_again in H as [(_ & st & _ & ->)|[(_ & H)|(_ & c & cs & _ & ->)]]; auto.
  apply call_inv in H as (st & code & _ & ->). reflexivity.
Qed.

Lemma step_again_stems cfg p p' : step cfg p = Ok (Again p') -> stems p' = stems p.
Proof.
  intros H. apply step_inv in H as [[_ H]|(e & xs & o & r & _ & _ & H)]; [discriminate|].
  apply execute_again_stems in H. exact H.
Qed.

Lemma clear_stems o l p x p' : clear o l p = Ok (Yield x p') -> stems p' = stems p /\ exists ops, x = Some (o, ops).
Proof.
  unfold clear. destruct (fold_left _ _ _); [|discriminate]. intros H. inv_ok H. injection H as <- <-. cbn. eauto.
Qed.

Lemma execute_yield_stems cfg o p op p' : execute cfg o p = Ok (Yield (Some op) p') ->
  0 <= stems p -> stems p + declared o (length (stack p)) < 2 ^ 64 ->
  stems p' = stems p + declared o (length (stack p)).
Proof.
  intros H S0 S1. pose proof (declared_nonneg o (length (stack p))) as D.
  pose proof (execute_yields _ _ _ _ _ H) as (P & _).
  destruct (path_operator o) eqn:Ep.
  { rewrite execute_path in H by auto. apply clear_stems in H as [-> _]. destruct o; try discriminate; cbn; lia. }
  destruct (stem_operator o) eqn:Es.
  { assert (E : execute cfg o p = (let* n := add_u64 cfg (stems p) (Z.shiftr (Z.of_nat (length (stack p))) 1) in
        clear o (alternatives_of o) (set_stems p n))) by (destruct o; try discriminate; reflexivity).
    rewrite E, (declared_pairs o), add_u64_small in H by (auto; lia). cbn [bind] in H.
    apply clear_stems in H as [-> _]. reflexivity. }
  destruct (mask_operator o) eqn:Em.
  { assert (E : execute cfg o p = (let* n := add_u64 cfg (stems p) (Z.shiftr (Z.of_nat (length (stack p))) 1) in
      let* m := add_u64 cfg n 7 in
      let* (_, r) := take_vec cfg 1 take_byte (Z.shiftr m 3) (routine p) in
      clear o (alternatives_of o) (set_routine (set_stems p n) r))) by (destruct o; try discriminate; reflexivity).
    rewrite E, (declared_pairs o), add_u64_small in H by (auto; lia). cbn [bind] in H.
    inv_ok H. inv_ok H. destruct a0 as [bs r]. apply clear_stems in H as [-> _]. reflexivity. }
  unfold path_or_hint in P. rewrite Ep, Es, Em in P. discriminate.
Qed.

Lemma history_nonneg cfg p n q : history cfg p n q -> 0 <= n.
Proof. induction 1; auto; try lia. pose proof (declared_nonneg o (length (stack p ++ xs))). lia. Qed.

Lemma history_stems cfg p n q : history cfg p n q -> 0 <= stems p -> stems p + n < 2 ^ 64 -> stems q = stems p + n.
Proof.
  induction 1 as [p|p p' n q H T IH|p e xs o r operands p' n q R E H T IH]; intros S0 S1; [lia| |].
  - apply step_again_stems in H. rewrite IH; lia.
  - pose proof (history_nonneg _ _ _ _ T) as N. rewrite (step_code _ _ _ _ _ _ E R) in H.
    assert (stems p' = stems p + declared o (length (stack p ++ xs))) as Hs.
    { apply (execute_yield_stems _ _ _ _ _ H); [exact S0|].
      change (stems p + declared o (length (stack p ++ xs)) < 2 ^ 64). lia. }
    pose proof (declared_nonneg o (length (stack p ++ xs))). rewrite IH; lia.
Qed.

(** Every execution has such a history. *)
Lemma trace_history cfg p ops q : trace cfg p ops q -> exists n, history cfg p n q.
Proof.
  induction 1 as [p|p p' ops q H T [n IH]|p x p' ops q H T [n IH]].
  - exists 0. constructor.
  - exists n. eapply history_again; eauto.
  - pose proof H as H'. apply step_inv in H as [[_ H]|(e & xs & o & r & E & R & H)]; [discriminate|].
    apply execute_yields in H as (_ & F & _). destruct x as [o' operands]. cbn in F. subst o'.
    eexists. eapply history_emit; eauto.
Qed.

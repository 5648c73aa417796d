(** IdentityFacts: pieces of code that are alike. *)
From Coq Require Import Reals.
From Verif Require Import Base Float T2Number T2Operation T2Program BaseFacts SpecProgram T2NumberFacts StepFacts
  RunFacts FloatFacts EvalFacts IntegralFacts StackFacts ExecutionFacts ReferenceFacts ProgramFacts BoundFacts
  SpecRewrite RewriteFacts.
Local Open Scope list_scope.
Local Open Scope Z_scope.

Section Identities.
Context (cfg : config).

Lemma straight_app u v : straight u -> straight v -> straight (u ++ v).
Proof.
  induction 1 as [|e x c N S' IH|o c So S' IH]; intros V; cbn [app]; auto; rewrite <- app_assoc;
    [eapply straight_number|apply straight_operator]; eauto.
Qed.

Lemma works_app u st r : works cfg u st r -> forall v,
  match r with
  | Ok st' => forall r', works cfg v st' r' -> works cfg (u ++ v) st r'
  | _ => works cfg (u ++ v) st r
  end.
Proof.
  induction 1 as [st|e x c st r N W IH|o c st st' r So Re W IH|o c st r So Re F]; intros v.
  - auto.
  - specialize (IH v). rewrite <- app_assoc. destruct r; intros; eapply works_number; eauto.
  - specialize (IH v). rewrite <- app_assoc. destruct r; intros; eapply works_operator; eauto.
  - rewrite <- app_assoc. destruct r; [exfalso; eapply F; eauto|..]; apply works_failure; auto.
Qed.

Lemma alike_app u v u' v' : alike cfg u v -> alike cfg u' v' -> alike cfg (u ++ u') (v ++ v').
Proof.
  intros (U & V & A) (U' & V' & A'). apply alike_intro; auto using straight_app.
  intros st B. destruct (works_total cfg u U st) as (r & W). pose proof (proj1 (A st B r) W) as W'.
  pose proof (works_app _ _ _ W u') as X. pose proof (works_app _ _ _ W' v') as X'.
  destruct r as [st'|k|k|]; [|eauto..].
  pose proof (works_valid cfg _ _ _ W B _ eq_refl) as B'.
  destruct (works_total cfg u' U' st') as (r' & W2). exists r'. split; auto. apply X'. apply A'; auto.
Qed.

Lemma alike_refl u : straight u -> alike cfg u u.
Proof. intros S'. split; auto. split; auto. reflexivity. Qed.

Lemma alike_trans u v w : alike cfg u v -> alike cfg v w -> alike cfg u w.
Proof.
  intros (U & V & A) (_ & W & A'). split; auto. split; auto. intros st B r. rewrite (A st B r). auto.
Qed.

(** ** Tokens *)

Inductive token : Type := Num (e : list byte) (x : f32) | Op (o : t2_operator).
Definition token_bytes (t : token) : list byte := match t with Num e _ => e | Op o => t2_bytes o end.
Definition good (t : token) : Prop := match t with Num e x => t2_number e x | Op o => stack_operator o = true end.
Fixpoint meaning (ts : list token) (st : list f32) : outcome (list f32) :=
  match ts with
  | [] => Ok st
  | Num _ x :: ts => meaning ts (st ++ [x])
  | Op o :: ts => let* st' := effect cfg o st in meaning ts st'
  end.

Lemma straight_tokens ts : Forall good ts -> straight (flat_map token_bytes ts).
Proof.
  induction 1 as [|[e x|o] ts G F IH]; cbn; [constructor|eapply straight_number; eauto|apply straight_operator; auto].
Qed.

Lemma works_tokens ts : Forall good ts -> forall st, works cfg (flat_map token_bytes ts) st (meaning ts st).
Proof.
  induction 1 as [|[e x|o] ts G F IH]; intros st; cbn [flat_map token_bytes meaning].
  - constructor.
  - eapply works_number; eauto.
  - cbn in G. destruct (effect cfg o st) as [st'|k|k|] eqn:E; cbn [bind].
    + eapply works_operator; eauto. apply reacts_effect; auto.
    + apply works_failure; auto; [apply reacts_effect; auto|discriminate].
    + apply works_failure; auto; [apply reacts_effect; auto|discriminate].
    + apply works_failure; auto; [apply reacts_effect; auto|discriminate].
Qed.

Lemma alike_tokens ts ts' u v : u = flat_map token_bytes ts -> v = flat_map token_bytes ts' ->
  Forall good ts -> Forall good ts' -> (forall st, Forall binary32 st -> meaning ts st = meaning ts' st) -> alike cfg u v.
Proof.
  intros -> -> G G' H. apply alike_intro; auto using straight_tokens. intros st B. exists (meaning ts st).
  split; [apply works_tokens; auto|]. rewrite (H st B). apply works_tokens; auto.
Qed.

(** ** Identities *)


Lemma split1 (st : list f32) : (length st < 1)%nat \/ exists st' x, st = st' ++ [x].
Proof. induction st as [|x st _] using rev_ind; [left; cbn; lia|right; eauto]. Qed.
Lemma split2 (st : list f32) : (length st < 2)%nat \/ exists st' x y, st = st' ++ [x; y].
Proof.
  destruct (split1 st) as [L|(s & y & ->)]; [left; lia|]. destruct (split1 s) as [L|(s' & x & ->)].
  - left. rewrite app_length. cbn. lia.
  - right. exists s', x, y. rewrite <- app_assoc. reflexivity.
Qed.

Lemma sub_neg_add x y : f32_add x (f32_neg y) = f32_sub x y.
Proof.
  unfold f32_add, f32_sub, f32_neg. destruct x as [s|s| |s m e], y as [t|t| |t n f]; cbn; auto; try (destruct s, t; reflexivity).
Qed.
Lemma neg_neg x : f32_neg (f32_neg x) = x.
Proof. unfold f32_neg. destruct x as [s|s| |s m e]; cbn; rewrite ?negb_involutive; reflexivity. Qed.
Lemma add_neg_sub x y : f32_sub x (f32_neg y) = f32_add x y.
Proof. rewrite <- sub_neg_add, neg_neg. reflexivity. Qed.

Lemma eqb_sym x y : f32_eqb x y = f32_eqb y x.
Proof.
  unfold f32_eqb, SFeqb. destruct x as [s|s| |s m e], y as [t|t| |t n f]; try destruct s; try destruct t; cbn; auto.
  - rewrite (Z.compare_antisym e f). destruct (e ?= f); cbn; auto.
    replace (Pos.compare_cont Eq n m) with (CompOpp (Pos.compare_cont Eq m n)) by (symmetry; apply (Pos.compare_antisym m n)).
    destruct (Pos.compare_cont Eq m n); reflexivity.
  - rewrite (Z.compare_antisym e f). destruct (e ?= f); cbn; auto.
    replace (Pos.compare_cont Eq n m) with (CompOpp (Pos.compare_cont Eq m n)) by (symmetry; apply (Pos.compare_antisym m n)).
    destruct (Pos.compare_cont Eq m n); reflexivity.
Qed.

Lemma roll_two st x x' j a b : integral x 2 -> integral x' j -> - 2 ^ 15 <= j <= 2 ^ 15 -> Z.odd j = true ->
  effect cfg T2_Roll (st ++ [a; b; x; x']) = Ok (st ++ [b; a]).
Proof.
  intros I2 Ij B O. rewrite effect_roll.
  destruct (roll_pops cfg st [a; b] x x' j) as (ys & E & R).
  - exists 2. split; [exact I2|]. cbn. lia.
  - exists j. split; [exact Ij|]. lia.
  - left. lia.
  - cbn [app] in E. rewrite E. do 2 f_equal. destruct R as [L R]. cbn [length] in *.
    pose proof (Zmod_odd j) as M. rewrite O in M.
    pose proof (R 0%nat a eq_refl) as Ra. pose proof (R 1%nat b eq_refl) as Rb.
    change (Z.of_nat 2) with 2 in *.
    rewrite Z.add_0_l, M in Ra. replace ((Z.of_nat 1 + j) mod 2) with 0 in Rb.
    2: { rewrite Z.add_mod, M by lia. reflexivity. }
    destruct ys as [|y0 [|y1 [|y2 ys]]]; cbn in L; try discriminate L. cbn in Ra, Rb.
    injection Ra as ->. injection Rb as ->. reflexivity.
Qed.

Lemma roll_few st x x' j : integral x 2 -> integral x' j -> - 2 ^ 15 <= j <= 2 ^ 15 -> (length st < 2)%nat ->
  effect cfg T2_Roll ((st ++ [x]) ++ [x']) = Err Other.
Proof.
  intros I2 Ij B L. rewrite effect_roll. unfold roll.
  rewrite (pop_i32_integral _ _ _ Ij) by lia. cbn [bind]. rewrite (pop_i32_integral _ _ _ I2) by lia. cbn [bind].
  change (Z.min 2 (2 ^ 31 - 1)) with 2. cbn [Z.ltb Z.compare].
  destruct (Z.ltb_spec (Z.of_nat (length st)) 2); [|lia]. reflexivity.
Qed.

Ltac short L := cbn [meaning]; repeat (rewrite effect_short by (reflexivity || (rewrite ?app_length; cbn [arity length]; lia)); cbn [bind]); auto.

Ltac toks := try (cbn; rewrite ?app_nil_r; reflexivity); try (repeat constructor; auto; fail).

Lemma identity_alike u v : identity u v -> alike cfg u v.
Proof.
  destruct 1.
  - apply (alike_tokens [Op T2_Exch; Op T2_Exch; Op T2_Exch] [Op T2_Exch]); auto; repeat constructor.
    intros st _. destruct (split2 st) as [L|(s & x & y & ->)]; [short L|].
    cbn [meaning]. rewrite !effect_exch. cbn [bind]. rewrite !effect_exch. cbn [bind]. rewrite !effect_exch. reflexivity.
  - apply (alike_tokens [Op T2_Neg; Op T2_Neg; Op T2_Neg] [Op T2_Neg]); auto; repeat constructor.
    intros st _. destruct (split1 st) as [L|(s & x & ->)]; [short L|].
    cbn [meaning]. rewrite !effect_neg. cbn [bind]. rewrite !effect_neg. cbn [bind]. rewrite !effect_neg, neg_neg. reflexivity.
  - apply (alike_tokens [Op T2_Not; Op T2_Not; Op T2_Not] [Op T2_Not]); auto; repeat constructor.
    intros st _. destruct (split1 st) as [L|(s & x & ->)]; [short L|].
    cbn [meaning]. rewrite !effect_not. cbn [bind]. rewrite !effect_not. cbn [bind]. rewrite !effect_not.
    cbn [bind]. destruct (truth x); reflexivity.
  - apply (alike_tokens [Op T2_Abs; Op T2_Abs] [Op T2_Abs]); auto; repeat constructor.
    intros st _. destruct (split1 st) as [L|(s & x & ->)]; [short L|].
    cbn [meaning]. rewrite !effect_abs. cbn [bind]. rewrite !effect_abs. destruct x; reflexivity.
  - apply (alike_tokens [Op T2_Neg; Op T2_Abs] [Op T2_Abs]); auto; repeat constructor.
    intros st _. destruct (split1 st) as [L|(s & x & ->)]; [short L|].
    cbn [meaning]. rewrite !effect_neg, !effect_abs. cbn [bind]. rewrite !effect_abs. destruct x; reflexivity.
  - apply (alike_tokens [Op T2_Dup; Op T2_Exch] [Op T2_Dup]); auto; repeat constructor.
    intros st _. destruct (split1 st) as [L|(s & x & ->)]; [short L|].
    cbn [meaning]. rewrite !effect_dup. cbn [bind]. rewrite !effect_exch. reflexivity.
  - apply (alike_tokens [Op T2_Exch; Op o] [Op o]); auto; [repeat constructor; cbn in H; intuition subst; reflexivity..|].
    intros st _. destruct (split2 st) as [L|(s & x & y & ->)].
    + cbn [meaning]. rewrite (effect_short cfg T2_Exch) by (auto; cbn; lia).
      cbn in H; intuition subst; short L.
    + cbn [meaning]. rewrite !effect_exch. cbn [bind]. cbn in H.
      destruct H as [<-|[<-|[<-|[<-|[<-|[]]]]]].
      * rewrite !effect_add, f32_add_comm. reflexivity.
      * rewrite !effect_mul, f32_mul_comm. reflexivity.
      * rewrite !effect_and, andb_comm. reflexivity.
      * rewrite !effect_or, orb_comm. reflexivity.
      * rewrite !effect_eq, eqb_sym. reflexivity.
  - apply (alike_tokens [Op T2_Neg; Op T2_Add] [Op T2_Sub]); auto; repeat constructor.
    intros st _. destruct (split2 st) as [L|(s & x & y & ->)].
    + destruct (split1 st) as [L1|(s & x & ->)]; [short L1|]. cbn [meaning]. rewrite effect_neg. cbn [bind].
      rewrite app_length in L. cbn in L. short L.
    + cbn [meaning]. rewrite effect_sub. replace (s ++ [x; y]) with ((s ++ [x]) ++ [y]) by (rewrite <- app_assoc; reflexivity).
      rewrite effect_neg. cbn [bind]. rewrite <- app_assoc. cbn [app]. rewrite effect_add, sub_neg_add. reflexivity.
  - apply (alike_tokens [Op T2_Neg; Op T2_Sub] [Op T2_Add]); auto; repeat constructor.
    intros st _. destruct (split2 st) as [L|(s & x & y & ->)].
    + destruct (split1 st) as [L1|(s & x & ->)]; [short L1|]. cbn [meaning]. rewrite effect_neg. cbn [bind].
      rewrite app_length in L. cbn in L. short L.
    + cbn [meaning]. rewrite effect_add. replace (s ++ [x; y]) with ((s ++ [x]) ++ [y]) by (rewrite <- app_assoc; reflexivity).
      rewrite effect_neg. cbn [bind]. rewrite <- app_assoc. cbn [app]. rewrite effect_sub, add_neg_sub. reflexivity.
  - apply (alike_tokens [Num e x; Op T2_Drop] []); toks.
    intros st _. cbn [meaning]. rewrite effect_drop. reflexivity.
  - apply (alike_tokens [Num e x; Op T2_Dup] [Num e x; Num e x]); toks.
    intros st _. cbn [meaning]. rewrite effect_dup, <- app_assoc. reflexivity.
  - apply (alike_tokens [Num e x; Num e' x'; Op T2_Exch] [Num e' x'; Num e x]); toks.
    intros st _. cbn [meaning]. rewrite <- !app_assoc. cbn [app]. rewrite effect_exch. reflexivity.
  - pose proof (t2_number_small _ _ _ H H0) as B.
    apply (alike_tokens [Num e x; Op T2_Index] [Op T2_Dup]); toks.
    intros st _. cbn [meaning]. assert (E0 : Z.to_nat n = 0%nat) by lia. destruct (split1 st) as [L|(s & y & ->)].
    + rewrite (effect_index_deep cfg st x n) by (auto; lia). rewrite effect_short by (auto; cbn; lia). reflexivity.
    + rewrite (effect_index cfg (s ++ [y]) x n y) by (auto; try lia; rewrite E0, rev_app_distr; reflexivity).
      rewrite effect_dup, <- app_assoc. reflexivity.
  - pose proof (t2_number_small _ _ _ H1 H2) as B.
    apply (alike_tokens [Num e x; Num e' x'; Op T2_Roll] [Op T2_Exch]); toks.
    intros st _. cbn [meaning]. destruct (split2 st) as [L|(s & y & z & ->)].
    + rewrite (roll_few st x x' j) by auto. rewrite effect_short by (auto; cbn; lia). reflexivity.
    + rewrite <- !app_assoc. cbn [app]. rewrite (roll_two s x x' j y z), effect_exch by auto. reflexivity.
Qed.

(** ** Expressions *)

Lemma expression_works c a : expression_encoding c a ->
  straight c /\ forall st, works cfg c st (Ok (st ++ [evaluate a])).
Proof.
  assert (One : forall o (f : f32 -> f32), stack_operator o = true -> (forall st x, effect cfg o (st ++ [x]) = Ok (st ++ [f x])) ->
    forall ea a, straight ea /\ (forall st, works cfg ea st (Ok (st ++ [evaluate a]))) ->
    straight (ea ++ t2_bytes o) /\ forall st, works cfg (ea ++ t2_bytes o) st (Ok (st ++ [f (evaluate a)]))).
  { intros o f So Ef ea a0 [A W]. split.
    - apply straight_app; auto. rewrite <- (app_nil_r (t2_bytes o)). apply straight_operator; auto. constructor.
    - intros st. apply (works_app _ _ _ (W st)). rewrite <- (app_nil_r (t2_bytes o)).
      eapply works_operator; [auto|apply reacts_effect; auto; apply Ef|constructor]. }
  assert (Two : forall o (f : f32 -> f32 -> f32), stack_operator o = true ->
    (forall st x y, effect cfg o (st ++ [x; y]) = Ok (st ++ [f x y])) ->
    forall ea a eb b, straight ea /\ (forall st, works cfg ea st (Ok (st ++ [evaluate a]))) ->
      straight eb /\ (forall st, works cfg eb st (Ok (st ++ [evaluate b]))) ->
    straight (ea ++ eb ++ t2_bytes o) /\ forall st, works cfg (ea ++ eb ++ t2_bytes o) st (Ok (st ++ [f (evaluate a) (evaluate b)]))).
  { intros o f So Ef ea a0 eb b0 [A Wa] [B Wb]. split.
    - apply straight_app; auto. apply straight_app; auto. rewrite <- (app_nil_r (t2_bytes o)). apply straight_operator; auto. constructor.
    - intros st. apply (works_app _ _ _ (Wa st)). apply (works_app _ _ _ (Wb _)). rewrite <- (app_nil_r (t2_bytes o)).
      eapply works_operator; [auto|apply reacts_effect; auto; rewrite <- app_assoc; apply Ef|constructor]. }
  induction 1 as [e x N|ea a Ha IHa|ea a Ha IHa|ea a Ha IHa|ea a Ha IHa|ea eb a b Ha IHa Hb IHb|ea eb a b Ha IHa Hb IHb
    |ea eb a b Ha IHa Hb IHb|ea eb a b Ha IHa Hb IHb|ea eb a b Ha IHa Hb IHb|ea eb a b Ha IHa Hb IHb|ea eb a b Ha IHa Hb IHb
    |e1 e2 ea eb s1 s2 v1 v2 H1 IH1 H2 IH2 Ha IHa Hb IHb]; cbn [evaluate].
  - rewrite <- (app_nil_r e). split; [eapply straight_number; eauto; constructor|]. intros st. eapply works_number; eauto. constructor.
  - apply (One T2_Abs f32_abs); auto using effect_abs.
  - apply (One T2_Neg f32_neg); auto using effect_neg.
  - apply (One T2_Sqrt f32_sqrt); auto using effect_sqrt.
  - apply (One T2_Not (fun x => of_truth (negb (truth x)))); auto. intros. rewrite effect_not. reflexivity.
  - apply (Two T2_Add f32_add); auto using effect_add.
  - apply (Two T2_Sub f32_sub); auto using effect_sub.
  - apply (Two T2_Div f32_div); auto using effect_div.
  - apply (Two T2_Mul f32_mul); auto using effect_mul.
  - apply (Two T2_And (fun x y => of_truth (truth x && truth y))); auto. intros. rewrite effect_and. reflexivity.
  - apply (Two T2_Or (fun x y => of_truth (truth x || truth y))); auto. intros. rewrite effect_or. reflexivity.
  - apply (Two T2_Eq (fun x y => of_truth (SFeqb x y))); auto. intros. rewrite effect_eq. reflexivity.
  - destruct IH1 as [S1 W1], IH2 as [S2 W2], IHa as [Sa Wa], IHb as [Sb Wb]. split.
    + repeat (apply straight_app; auto). rewrite <- (app_nil_r (t2_bytes _)). apply straight_operator; auto. constructor.
    + intros st. apply (works_app _ _ _ (W1 st)). apply (works_app _ _ _ (W2 _)). apply (works_app _ _ _ (Wa _)).
      apply (works_app _ _ _ (Wb _)). rewrite <- (app_nil_r (t2_bytes _)).
      eapply works_operator; [auto|apply reacts_effect; auto; rewrite <- !app_assoc; apply effect_ifelse|].
      unfold f32_leb. destruct (SFleb _ _); constructor.
Qed.

Lemma expressions_alike c c' a a' : expression_encoding c a -> expression_encoding c' a' -> evaluate a = evaluate a' -> alike cfg c c'.
Proof.
  intros H H' E. apply expression_works in H as [S1 W]. apply expression_works in H' as [S2 W'].
  apply alike_intro; auto. intros st _. exists (Ok (st ++ [evaluate a])). split; auto. rewrite E. auto.
Qed.

(** ** Samples *)

Fixpoint masks_ok (k : Z) (fuel : nat) (p : program) : bool :=
  match fuel with
  | O => false
  | S fuel' =>
      match push_operands (S (length (routine p))) (stack p) (routine p) with
      | Ok (st, code, r) =>
          match read_t2_operator code r with
          | Ok (o, _) => negb (mask_operator o) || (Z.shiftr (stems p + declared o (length st) + 7) 3 =? k)
          | _ => true
          end
      | _ => true
      end &&
      match step cfg p with
      | Ok (Again q) | Ok (Yield (Some _) q) => masks_ok k fuel' q
      | _ => true
      end
  end.

Lemma masks_ok_here k fuel p o st : masks_ok k fuel p = true -> about_to p o st -> mask_operator o = true ->
  mask_bytes (stems p + declared o (length st)) k.
Proof.
  intros H (e & xs & r & R & E & ->) M. destruct fuel as [|fuel]; [discriminate|]. cbn [masks_ok] in H.
  apply andb_prop in H as [H _]. rewrite R in H. rewrite (push_operands_app _ _ E) in H by lia.
  destruct (read_t2_operator_complete o r) as (b & t & Eb & N & RO).
  rewrite Eb in H, RO. cbn [app] in H, RO. rewrite push_operands_stop in H by auto. rewrite RO, M in H. cbn in H.
  apply Z.eqb_eq in H. rewrite <- H. apply ClearFacts.mask_bytes_shift.
Qed.

Lemma masks_ok_sound k fuel p : masks_ok (Z.of_nat k) fuel p = true -> masks_of cfg k p.
Proof.
  intros H ops q o st T. revert fuel H. induction T as [p|p p' ops q E T IH|p x p' ops q E T IH]; intros fuel H A M.
  - eapply masks_ok_here; eauto.
  - destruct fuel as [|fuel]; [discriminate|]. cbn [masks_ok] in H. apply andb_prop in H as [_ H]. rewrite E in H. eauto.
  - destruct fuel as [|fuel]; [discriminate|]. cbn [masks_ok] in H. apply andb_prop in H as [_ H]. rewrite E in H. eauto.
Qed.

Lemma number_sample e x : read_operand e = Ok (x, []) -> t2_number e x.
Proof. intros H. apply read_operand_sound in H as (e' & -> & N). rewrite app_nil_r. exact N. Qed.

Lemma seen_differently p p' ops q k : runs cfg p (Ok (ops, q)) -> runs cfg p' (Err k) -> ~ seen_alike cfg p p'.
Proof.
  intros H H' [_ S']. destruct (proj1 (S' (Ok (ops, width q)))) as (r' & R & E).
  - exists (Ok (ops, q)). auto.
  - rewrite (runs_det _ _ _ _ R H') in E. discriminate.
Qed.

End Identities.

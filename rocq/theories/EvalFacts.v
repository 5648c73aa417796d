(** EvalFacts: arithmetic, conditional and stack operators, and calls. *)
From Verif Require Import Base Float T2Operation T2Program BaseFacts SpecProgram T2NumberFacts StepFacts ClearFacts RunFacts FloatFacts.
Local Open Scope Z_scope.

(** ** Symmetry *)

Lemma f32_add_comm x y : f32_add x y = f32_add y x.
Proof.
  destruct x as [s| [|]| |s m e], y as [t| [|]| |t n f]; cbn; auto; try (destruct s, t; reflexivity).
  rewrite (Z.min_comm f e), Z.add_comm. reflexivity.
Qed.

Lemma f32_mul_comm x y : f32_mul x y = f32_mul y x.
Proof.
  destruct x as [s|s| |s m e], y as [t|t| |t n f]; cbn; auto; rewrite 1?xorb_comm; auto.
  rewrite Pos.mul_comm, Z.add_comm. reflexivity.
Qed.

(** ** The top of the stack *)

Lemma vec_pop_app {A} (l : list A) x : vec_pop (l ++ [x]) = Some (x, l).
Proof. induction l as [|y l IH]; cbn [app vec_pop]; [reflexivity|]. rewrite IH. reflexivity. Qed.

Lemma vec_pop_inv {A} (l : list A) x l' : vec_pop l = Some (x, l') -> l = l' ++ [x].
Proof.
  destruct l as [|y l _] using rev_ind; [discriminate|]. rewrite vec_pop_app. intros H. injection H as -> ->. reflexivity.
Qed.

Lemma pop_app st x : pop (st ++ [x]) = Ok (x, st).
Proof. unfold pop. rewrite vec_pop_app. reflexivity. Qed.

Lemma pop_inv st x st' : pop st = Ok (x, st') -> st = st' ++ [x].
Proof.
  unfold pop. destruct (vec_pop st) as [[y r]|] eqn:E; [|discriminate]. intros H. injection H as -> ->.
  apply vec_pop_inv. exact E.
Qed.

Lemma pop_bool_app st x : pop_bool (st ++ [x]) = Ok (truth x, st).
Proof. unfold pop_bool. rewrite vec_pop_app. reflexivity. Qed.

Lemma pop_bool_inv st b st' : pop_bool st = Ok (b, st') -> exists x, st = st' ++ [x].
Proof.
  unfold pop_bool. destruct (vec_pop st) as [[y r]|] eqn:E; [|discriminate]. intros H. injection H as _ ->.
  exists y. apply vec_pop_inv. exact E.
Qed.

Lemma pop_i32_inv st v st' : pop_i32 st = Ok (v, st') -> exists x, st = st' ++ [x].
Proof.
  unfold pop_i32. destruct (vec_pop st) as [[y r]|] eqn:E; [|discriminate]. destruct (f32_eqb _ _); [|discriminate].
  intros H. injection H as _ ->. exists y. apply vec_pop_inv. exact E.
Qed.

Lemma push_two (st : list f32) x y : st ++ [x; y] = (st ++ [x]) ++ [y].
Proof. rewrite <- app_assoc. reflexivity. Qed.

Lemma push_three (st : list f32) x y z : st ++ [x; y; z] = ((st ++ [x]) ++ [y]) ++ [z].
Proof. rewrite <- !app_assoc. reflexivity. Qed.

Lemma push_four (st : list f32) x y z t : st ++ [x; y; z; t] = (((st ++ [x]) ++ [y]) ++ [z]) ++ [t].
Proof. rewrite <- !app_assoc. reflexivity. Qed.

(** ** Operators on given stacks *)


Section Effects.
  Context (cfg : config) (st : list f32).

  Ltac run_effect := unfold effect, execute, with_stack, unary, binary; cbn [stack];
    rewrite ?push_two, ?push_four, ?pop_app; cbn [bind]; rewrite ?pop_app; cbn [bind];
    rewrite ?pop_app; cbn [bind]; rewrite ?pop_app; cbn [bind stack set_stack]; unfold push_bool, push.

  Lemma effect_abs x : effect cfg T2_Abs (st ++ [x]) = Ok (st ++ [f32_abs x]).
  Proof. run_effect. reflexivity. Qed.
  Lemma effect_neg x : effect cfg T2_Neg (st ++ [x]) = Ok (st ++ [f32_neg x]).
  Proof. run_effect. reflexivity. Qed.
  Lemma effect_sqrt x : effect cfg T2_Sqrt (st ++ [x]) = Ok (st ++ [f32_sqrt x]).
  Proof. run_effect. reflexivity. Qed.
  Lemma effect_not x : effect cfg T2_Not (st ++ [x]) = Ok (st ++ [of_truth (negb (truth x))]).
  Proof. run_effect. rewrite pop_bool_app. reflexivity. Qed.
  Lemma effect_drop x : effect cfg T2_Drop (st ++ [x]) = Ok st.
  Proof. run_effect. reflexivity. Qed.
  Lemma effect_add x y : effect cfg T2_Add (st ++ [x; y]) = Ok (st ++ [f32_add x y]).
  Proof. run_effect. rewrite f32_add_comm. reflexivity. Qed.
  Lemma effect_sub x y : effect cfg T2_Sub (st ++ [x; y]) = Ok (st ++ [f32_sub x y]).
  Proof. run_effect. reflexivity. Qed.
  Lemma effect_div x y : effect cfg T2_Div (st ++ [x; y]) = Ok (st ++ [f32_div x y]).
  Proof. run_effect. reflexivity. Qed.
  Lemma effect_mul x y : effect cfg T2_Mul (st ++ [x; y]) = Ok (st ++ [f32_mul x y]).
  Proof. run_effect. rewrite f32_mul_comm. reflexivity. Qed.
  Lemma effect_and x y : effect cfg T2_And (st ++ [x; y]) = Ok (st ++ [of_truth (truth x && truth y)]).
  Proof. run_effect. rewrite pop_bool_app. cbn [bind]. rewrite pop_bool_app. reflexivity. Qed.
  Lemma effect_or x y : effect cfg T2_Or (st ++ [x; y]) = Ok (st ++ [of_truth (truth x || truth y)]).
  Proof. run_effect. rewrite pop_bool_app. cbn [bind]. rewrite pop_bool_app. reflexivity. Qed.
  Lemma effect_eq x y : effect cfg T2_Eq (st ++ [x; y]) = Ok (st ++ [of_truth (f32_eqb x y)]).
  Proof. run_effect. reflexivity. Qed.
  Lemma effect_exch x y : effect cfg T2_Exch (st ++ [x; y]) = Ok (st ++ [y; x]).
  Proof. run_effect. rewrite <- app_assoc. reflexivity. Qed.
  Lemma effect_ifelse s1 s2 x y :
    effect cfg T2_IfElse (st ++ [s1; s2; x; y]) = Ok (st ++ [if f32_leb x y then s1 else s2]).
  Proof. run_effect. reflexivity. Qed.
End Effects.

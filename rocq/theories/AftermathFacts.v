(** AftermathFacts: what errors leave behind. *)
From Verif Require Import Base Float T2Number T2Operation T2Program T2Machine BaseFacts SpecMachine T2OperatorFacts T2NumberFacts StepFacts
  ClearFacts RunFacts EvalFacts IntegralFacts StackFacts ExecutionFacts ProgramFacts FailureFacts MachineFacts.
Local Open Scope list_scope.
Local Open Scope Z_scope.

(** ** Code *)

(** Numbers as far as possible. *)
Lemma numbers_first n : forall s, (length s <= n)%nat -> exists e xs t, s = e ++ t /\ each t2_number e xs /\
  (t = [] \/ exists b u, t = b :: u /\ (~ t2_first b \/ exists v x, v <> [] /\ t2_number (b :: u ++ v) x)).
Proof.
  induction n as [|n IH]; intros s L.
  - destruct s; [|cbn in L; lia]. exists [], [], []. repeat split; auto. constructor.
  - destruct s as [|b s]; [exists [], [], []; repeat split; auto; constructor|].
    destruct (t2_starts_operand (bz b)) eqn:T.
    2: { exists [], [], (b :: s). split; [reflexivity|]. split; [constructor|]. right. exists b, s. split; auto. left.
         intros F. apply t2_starts_first in F. congruence. }
    apply t2_starts_first in T. pose proof (read_operand_settled (b :: s)) as St.
    destruct (read_operand (b :: s)) as [[x r]|k| |] eqn:E; try contradiction.
    + pose proof (read_operand_shorter _ _ _ E). apply read_operand_sound in E as (e0 & E & N0).
      destruct (IH r) as (e & xs & t & -> & X & H'); [cbn in *; lia|].
      exists (e0 ++ e), (x :: xs), t. rewrite E, app_assoc. split; [reflexivity|]. split; [constructor; auto|exact H'].
    + apply read_operand_cut in E as (_ & u & x & U & N); auto. exists [], [], (b :: s). split; [reflexivity|]. split; [constructor|].
      right. exists b, s. split; [reflexivity|]. right. exists u, x. auto.
Qed.

Lemma t2_cut_first b u v x : t2_number (b :: u ++ v) x -> t2_first b.
Proof. intros H. apply t2_number_first in H as (b' & e & E & F). injection E as -> _. exact F. Qed.

Lemma first_number b : t2_first b -> exists s x, t2_number (b :: s) x.
Proof.
  intros F. destruct (read_operand_whole b x00 x00 x00 x00 [] F) as (x & r & W).
  apply read_operand_sound in W as (e & E & N). pose proof (t2_number_first _ _ N) as (b' & e' & -> & _).
  injection E as -> _. eauto.
Qed.

Lemma loaded_routine p xs t : routine (loaded p xs t) = t.
Proof. reflexivity. Qed.

Definition t2_operator_eq_dec (o o' : t2_operator) : {o = o'} + {o <> o'}.
Proof. decide equality. Defined.

Section machine.
  Context (left : cursor) (cfg : config).

  (** ** Numbers *)

  Lemma take_operand_number p e x t : t2_number e x -> routine p = e ++ t -> take_operand left p = (Ok x, set_routine p t).
  Proof.
    intros N R. pose proof (take_operand_agrees left p) as H. rewrite R, (read_operand_complete _ _ _ N) in H. exact H.
  Qed.

  Lemma take_operand_cut p b s u x : t2_number (b :: s ++ u) x -> u <> [] -> routine p = b :: s ->
    take_operand left p = (Err UnexpectedEof, set_routine p (value_left left (Z.of_nat (length (s ++ u))) s)).
  Proof.
    intros N U R. apply t2_read_number in N. remember (b :: s ++ u) as e eqn:E.
    unfold take_operand, take, taking, give, raise, andthen. rewrite R. cbn [take_u8].
    destruct N as [b0 B|b0 b1 B|b0 b1 B|b1 b2|b1 b2 b3 b4]; injection E as E0 E; rewrite <- E0, <- E; clear E0.
    - symmetry in E. apply app_eq_nil in E as [_ E]. congruence.
    - destruct s as [|c s]; [|destruct s; destruct u; cbn in E; congruence].
      destruct (Z.leb_spec 32 (bz b0)), (Z.leb_spec (bz b0) 246); try lia; cbn [andb].
      destruct (Z.leb_spec 247 (bz b0)), (Z.leb_spec (bz b0) 250); try lia; cbn [andb]. reflexivity.
    - destruct s as [|c s]; [|destruct s; destruct u; cbn in E; congruence].
      destruct (Z.leb_spec 32 (bz b0)), (Z.leb_spec (bz b0) 246); try lia; cbn [andb].
      destruct (Z.leb_spec 247 (bz b0)), (Z.leb_spec (bz b0) 250); try lia; cbn [andb].
      destruct (Z.leb_spec 251 (bz b0)), (Z.leb_spec (bz b0) 254); try lia; cbn [andb]. reflexivity.
    - destruct s as [|c [|c' s]]; try reflexivity. destruct s; destruct u; cbn in E; congruence.
    - destruct s as [|c [|c' [|c'' [|c''' s]]]]; try reflexivity. destruct s; destruct u; cbn in E; congruence.
  Qed.

  Lemma pushing_first b fuel p s : routine p = b :: s -> t2_first b -> pushing left (S fuel) p =
    andthen (take_operand left) (fun x => andthen (push_any x) (fun _ => pushing left fuel)) p.
  Proof.
    intros R F. cbn [pushing]. unfold andthen at 1, peek. rewrite R. unfold peek_u8. cbn [take_u8 bind].
    apply t2_starts_first in F. rewrite F. reflexivity.
  Qed.

  Lemma pushing_fuel f1 : forall f2 p, (length (routine p) < f1)%nat -> (length (routine p) < f2)%nat ->
    pushing left f1 p = pushing left f2 p.
  Proof.
    induction f1 as [|f1 IH]; intros f2 p H1 H2; [lia|]. destruct f2 as [|f2]; [lia|]. cbn [pushing].
    unfold andthen, peek. destruct (peek_u8 (routine p)) as [code| | |]; auto. destruct (t2_starts_operand code); auto.
    pose proof (take_operand_agrees left p) as A. destruct (read_operand (routine p)) as [[x r]|k|k|] eqn:E.
    - unfold agree_read in A. rewrite A. unfold push_any, change. apply read_operand_shorter in E. apply IH; cbn [routine set_stack set_routine]; lia.
    - unfold agree_read in A. destruct (take_operand left p) as [y q]. cbn in A. subst. reflexivity.
    - pose proof (read_operand_settled (routine p)) as St. rewrite E in St. contradiction.
    - pose proof (read_operand_settled (routine p)) as St. rewrite E in St. contradiction.
  Qed.

  Lemma pushing_numbers e xs : each t2_number e xs -> forall fuel p t, routine p = e ++ t -> (length (routine p) < fuel)%nat ->
    pushing left fuel p = pushing left (S (length t)) (loaded p xs t).
  Proof.
    induction 1 as [|e x es xs H E IH]; intros fuel p t R L.
    - cbn [app] in R. replace (loaded p [] t) with p; [apply pushing_fuel; rewrite R in *; lia|].
      unfold loaded. rewrite app_nil_r, <- R. destruct p; reflexivity.
    - destruct fuel as [|fuel]; [lia|]. rewrite <- app_assoc in R.
      destruct (t2_number_first _ _ H) as (b & e' & -> & F).
      rewrite (pushing_first b fuel p (e' ++ es ++ t)) by auto. unfold andthen.
      rewrite (take_operand_number p (b :: e') x (es ++ t) H R). unfold push_any, change.
      rewrite (IH _ _ t); [|reflexivity|].
      2: { cbn [routine set_stack set_routine]. rewrite R in L. cbn in L. rewrite !app_length in *. lia. }
      unfold loaded. cbn [stack routine set_stack set_routine]. rewrite <- app_assoc. reflexivity.
  Qed.

  Lemma round_pushes p xs t : ahead p xs t -> routine p <> [] -> round left cfg p =
    andthen (pushing left (S (length t)))
      (fun code => andthen (if code =? 0x0c then take left 2 take_u16 else take left 1 take_u8)
      (fun code => andthen (pure (t2_operator_from code)) (executing left cfg))) (loaded p xs t).
  Proof.
    intros (e & R & E) N. unfold round. unfold andthen at 1, get. destruct (done (routine p)) eqn:D; [destruct (routine p); [congruence|discriminate]|].
    unfold andthen at 1. rewrite (pushing_numbers e xs E _ p t R) by lia. reflexivity.
  Qed.

  Lemma ahead_not_nil p xs t : ahead p xs t -> t <> [] -> routine p <> [].
  Proof. intros (e & -> & _) N H. apply app_eq_nil in H as [_ H]. congruence. Qed.

  Lemma round_missing p xs : ahead p xs [] -> routine p <> [] -> round left cfg p = (Err UnexpectedEof, loaded p xs []).
  Proof. intros A N. rewrite (round_pushes p xs [] A N). reflexivity. Qed.

  Lemma round_number p xs b s u x : ahead p xs (b :: s) -> t2_number (b :: s ++ u) x -> u <> [] ->
    round left cfg p = (Err UnexpectedEof, loaded p xs (value_left left (Z.of_nat (length (s ++ u))) s)).
  Proof.
    intros A N U. rewrite (round_pushes p xs (b :: s) A) by (eapply ahead_not_nil; eauto; discriminate).
    unfold andthen at 1. rewrite (pushing_first b _ _ s) by (auto; eapply t2_cut_first; eauto).
    unfold andthen at 1. rewrite (take_operand_cut (loaded p xs (b :: s)) b s u x) by auto. reflexivity.
  Qed.

  (** ** Operators *)

  Lemma pushing_stop fuel p b s : routine p = b :: s -> ~ t2_first b -> pushing left (S fuel) p = (Ok (bz b), p).
  Proof.
    intros R F. cbn [pushing]. unfold andthen at 1, peek. rewrite R. unfold peek_u8. cbn [take_u8 bind].
    destruct (t2_starts_operand (bz b)) eqn:T; [apply t2_starts_first in T; contradiction|reflexivity].
  Qed.

  Lemma round_stops p xs b s : ahead p xs (b :: s) -> ~ t2_first b -> round left cfg p =
    andthen (if bz b =? 0x0c then take left 2 take_u16 else take left 1 take_u8)
      (fun code => andthen (pure (t2_operator_from code)) (executing left cfg)) (loaded p xs (b :: s)).
  Proof.
    intros A N. rewrite (round_pushes p xs (b :: s) A) by (eapply ahead_not_nil; eauto; discriminate).
    unfold andthen at 1. rewrite (pushing_stop _ _ b s) by auto. reflexivity.
  Qed.

  Lemma x0c_first : ~ t2_first x0c.
  Proof. unfold t2_first. vm_compute. intuition congruence. Qed.

  Lemma round_cut p xs : ahead p xs [x0c] -> round left cfg p = (Err UnexpectedEof, loaded p xs (value_left left 2 [x0c])).
  Proof. intros A. rewrite (round_stops p xs x0c [] A x0c_first). reflexivity. Qed.

  Lemma no_operator c : (forall o, t2_code o <> c) -> t2_operator_from c = Err Other.
  Proof.
    intros N. pose proof (t2_operator_from_settled c) as St. destruct (t2_operator_from c) as [o|k| |] eqn:E; try contradiction.
    - apply t2_operator_from_iff in E. destruct (N o). auto.
    - unfold t2_operator_from in E. destruct (C1Operation.lookup_code _ _); cbn [bind] in E; congruence.
  Qed.

  Lemma round_unknown p xs b r : ahead p xs (b :: r) -> b <> x0c -> ~ t2_first b -> (forall o, t2_bytes o <> [b]) ->
    round left cfg p = (Err Other, loaded p xs r).
  Proof.
    intros A C F N. rewrite (round_stops p xs b r A F). destruct (Z.eqb_spec (bz b) 12) as [E|E].
    { destruct C. apply bz_inj, E. }
    unfold andthen, pure, take, taking. cbn [routine loaded set_stack set_routine take_u8]. rewrite no_operator; [reflexivity|].
    intros o H. apply (N o). unfold t2_bytes. rewrite H. pose proof (bz_range b). destruct (Z.ltb_spec (bz b) 256); [|lia].
    rewrite zb_bz. reflexivity.
  Qed.

  Lemma round_unknown_pair p xs b r : ahead p xs (x0c :: b :: r) -> (forall o, t2_bytes o <> [x0c; b]) ->
    round left cfg p = (Err Other, loaded p xs r).
  Proof.
    intros A N. rewrite (round_stops p xs x0c (b :: r) A x0c_first). change (bz x0c =? 12) with true.
    unfold andthen, pure, take, taking. cbn [routine loaded set_stack set_routine take_u16]. rewrite no_operator; [reflexivity|].
    intros o H. apply (N o). unfold t2_bytes. rewrite H. pose proof (bz_range b). change (bz x0c) with 12 in *.
    destruct (Z.ltb_spec (12 * 2 ^ 8 + bz b) 256); [lia|]. f_equal; [|f_equal].
    - apply zb_eq. change (bz x0c) with 12. change (2 ^ 8) with 256. apply Z.div_unique with (bz b); lia.
    - unfold zb. rewrite Z.add_comm. change (12 * 2 ^ 8) with (12 * 256). rewrite Z.mod_add by lia. fold (zb (bz b)). apply zb_bz.
  Qed.

  Lemma round_operator p xs o r : ahead p xs (t2_bytes o ++ r) -> round left cfg p = executing left cfg o (loaded p xs r).
  Proof.
    intros A. destruct (read_t2_operator_complete o r) as (b & t & Eb & N & RO).
    rewrite Eb in A, RO. cbn [app] in A, RO. rewrite (round_stops p xs b (t ++ r) A N).
    unfold read_t2_operator in RO. unfold andthen, pure, take, taking. destruct (bz b =? 12); cbn [routine loaded set_stack set_routine].
    - destruct (take_u16 _) as [[c u]| | |]; cbn [bind] in RO; try discriminate.
      destruct (t2_operator_from c) as [o'| | |]; cbn [bind] in RO; try discriminate. injection RO as -> ->. reflexivity.
    - destruct (take_u8 _) as [[c u]| | |]; cbn [bind] in RO; try discriminate.
      destruct (t2_operator_from c) as [o'| | |]; cbn [bind] in RO; try discriminate. injection RO as -> ->. reflexivity.
  Qed.

  (** ** Operators that are refused *)

  Lemma add_u64_mod a b n : 0 <= a -> 0 <= b -> add_u64 cfg a b = Ok n -> n = (a + b) mod 2 ^ 64.
  Proof.
    intros A B. unfold add_u64, in_u64. destruct (Z.leb_spec 0 (a + b)), (Z.ltb_spec (a + b) (2 ^ 64)); try lia; cbn [andb].
    - intros H1. injection H1 as <-. rewrite Z.mod_small; lia.
    - destruct (overflow_checks cfg); [discriminate|]. intros H1. injection H1 as <-. reflexivity.
  Qed.

  Lemma half_div n : 0 <= n -> Z.shiftr n 1 = n / 2.
  Proof. intros H. rewrite Z.shiftr_div_pow2 by lia. reflexivity. Qed.

  Lemma undeclared o p : stem_operator o = false -> mask_operator o = false -> possible p -> declared_by o p = stems p.
  Proof. intros E1 E2 P. unfold declared_by, declared. rewrite E1, E2. cbn [orb]. rewrite Z.add_0_r, Z.mod_small; auto. Qed.

  Lemma set_same p : set_stems (set_stack p (stack p)) (stems p) = p.
  Proof. destruct p; reflexivity. Qed.
  Lemma set_stems_same p st : set_stems (set_stack p st) (stems p) = set_stack p st.
  Proof. destruct p; reflexivity. Qed.

  Lemma clearing_left o l p k q : clearing o l p = (Err k, q) -> q = p.
  Proof.
    unfold clearing, andthen, get, change, raise, give, pure. destruct (fold_left _ _ _) as [m|]; [|congruence].
    destruct (Nat.ltb 0 m && _); [destruct (nth_error _ _)|]; discriminate.
  Qed.

  Lemma vec_pop_none {A} (l : list A) : vec_pop l = None -> l = [].
  Proof. destruct (exists_last_or l) as [->|(s & x & ->)]; auto. rewrite vec_pop_app. discriminate. Qed.

  Lemma vec_pop_some {A} (l : list A) x l' : vec_pop l = Some (x, l') -> removelast l = l'.
  Proof. intros H. apply vec_pop_inv in H as ->. rewrite removelast_last. reflexivity. Qed.

  Lemma pop_integer_left p k q : pop_integer p = (Err k, q) -> q = set_stack p (removelast (stack p)).
  Proof.
    unfold pop_integer, pop_stack, andthen, give, raise. destruct (vec_pop (stack p)) as [[x st]|] eqn:E.
    - apply vec_pop_some in E as ->. destruct (f32_eqb _ _); [discriminate|]. congruence.
    - apply vec_pop_none in E. intros H. injection H as _ <-. rewrite E. destruct p; cbn in *; subst; reflexivity.
  Qed.

  Lemma pop_integer_ok p v q : pop_integer p = (Ok v, q) -> q = set_stack p (removelast (stack p)) /\ pop_i32 (stack p) = Ok (v, stack q).
  Proof.
    unfold pop_integer, pop_stack, andthen, give, raise, pop_i32. destruct (vec_pop (stack p)) as [[x st]|] eqn:E; [|discriminate].
    pose proof (vec_pop_some _ _ _ E) as ->. destruct (f32_eqb _ _); [|discriminate]. intros H. injection H as <- <-. split; reflexivity.
  Qed.

  Lemma pop_integer_cases p : exists r, pop_integer p = (r, set_stack p (removelast (stack p))) /\
    match pop_i32 (stack p) with
    | Ok (v, st) => r = Ok v /\ st = removelast (stack p)
    | Err e => r = Err e
    | _ => False
    end.
  Proof.
    unfold pop_integer, pop_stack, andthen, give, raise, pop_i32. destruct (vec_pop (stack p)) as [[x st]|] eqn:E.
    - apply vec_pop_some in E as ->. destruct (f32_eqb _ _); eexists; (split; [reflexivity|]); auto.
    - apply vec_pop_none in E. rewrite E. eexists. split; [|reflexivity]. destruct p; cbn in *; subst; reflexivity.
  Qed.

  Lemma calling_left subs p k q : calling cfg subs p = (Err k, q) -> q = set_stack p (removelast (stack p)).
  Proof.
    unfold calling. unfold andthen at 1. destruct (pop_integer_cases p) as (r & -> & _). destruct r as [v| | |]; try congruence.
    unfold andthen, pure, raise, change, give. destruct (add_i32 _ _ _) as [i| | |]; try congruence.
    destruct (_ || _); [congruence|]. destruct (nth_error _ _); congruence.
  Qed.

  Lemma rolling_left shift span p k q : T2Machine.rolling cfg shift span p = (Err k, q) -> q = p.
  Proof.
    unfold T2Machine.rolling, andthen, get, pure, raise, change, give. destruct (_ <? 0); [congruence|]. destruct (_ <? _); [congruence|].
    destruct (0 <? _); [|congruence]. destruct (_ ?= 0); [congruence| |].
    - destruct (neg_i32 _ _); try congruence. destruct (Z.iter _ _ _); congruence.
    - destruct (Z.iter _ _ _); congruence.
  Qed.

  Lemma on_err m p k q : on m p = (Err k, q) -> m p = (Err k, q).
  Proof. unfold on, andthen, give. destruct (m p) as [[] r]; congruence. Qed.

  Ltac popped := repeat match goal with
    | |- context [vec_pop ?s] => let E := fresh "E" in destruct (vec_pop s) as [[? ?]|] eqn:E; cbn [stack set_stack];
        [|apply vec_pop_none in E]
    end.

  Lemma set_stack_nil p : stack p = [] -> p = set_stack p [].
  Proof. destruct p; cbn. intros ->. reflexivity. Qed.

  Lemma stack_left o p k q : stack_operator o = true -> o <> T2_Index -> o <> T2_Roll ->
    executing left cfg o p = (Err k, q) -> q = set_stack p [].
  Proof.
    intros So Ni Nr H. destruct o; try discriminate; try congruence; cbn [executing] in H; apply on_err in H; revert H;
      unfold pop_any, pop_truth, pop_stack, push_truth, push_any, andthen, change, raise, give; popped; try discriminate;
      try (intros H; injection H as _ <-; subst; cbn [set_stack]; try reflexivity; apply set_stack_nil; assumption).
    unfold peek_stack, read_from_top. destruct (stack p) as [|x st] eqn:E.
    - cbn. intros H. injection H as _ <-. apply set_stack_nil, E.
    - destruct (Z.leb_spec (Z.of_nat (length (x :: st))) 0) as [L|L]; [cbn in L; lia|]. destruct (nth_error _ _); discriminate.
  Qed.

  Lemma index_left p k q : executing left cfg T2_Index p = (Err k, q) -> q = set_stack p (removelast (stack p)).
  Proof.
    cbn [executing]. intros H. apply on_err in H. revert H. unfold andthen at 1.
    destruct (pop_integer_cases p) as (r & -> & _). destruct r as [v| | |]; try congruence.
    unfold andthen, peek_stack, push_any, change. destruct (read_from_top _ _); congruence.
  Qed.

  Lemma stands_for_popped st v st' : Forall binary32 st -> pop_i32 st = Ok (v, st') -> exists j, st = st' ++ [j] /\ stands_for j v.
  Proof. exact (stands_for_pop st v st'). Qed.

  Lemma roll_left p st k q : Forall binary32 (stack p) -> remaining T2_Roll (stack p) st ->
    executing left cfg T2_Roll p = (Err k, q) -> q = set_stack p st.
  Proof.
    intros V Re. cbn [executing]. intros H. apply on_err in H. revert H. unfold andthen at 1.
    destruct (pop_integer_cases p) as (r & -> & C). destruct (pop_i32 (stack p)) as [[v st1]|e| |] eqn:E; try contradiction.
    - destruct C as [-> ->]. apply stands_for_popped in E as (j & E & J); auto.
      assert (st = removelast (removelast (stack p))) as ->.
      { inversion Re as [o s D|s N|s deep j' J' E' _|o s So Ni Nr|o s D]; subst.
        - destruct D as [D|[D|D]]; discriminate.
        - destruct (N _ _ _ E J).
        - rewrite E', removelast_last. reflexivity.
        - congruence.
        - destruct D as [D|[D|[D|[D|[D|D]]]]]; discriminate. }
      unfold andthen. set (p1 := set_stack p (removelast (stack p))).
      destruct (pop_integer_cases p1) as (r & -> & _). destruct r as [w| | |]; try congruence; [|].
      + intros H. apply rolling_left in H. exact H.
      + intros H. injection H as _ <-. reflexivity.
    - subst r. intros H. injection H as _ <-. f_equal.
      inversion Re as [o s D|s N|s deep j' J' E' Sf|o s So Ni Nr|o s D]; subst.
      + destruct D as [D|[D|D]]; discriminate.
      + reflexivity.
      + rewrite E', (pop_stands_for _ _ _ Sf) in E. discriminate.
      + congruence.
      + destruct D as [D|[D|[D|[D|[D|D]]]]]; discriminate.
  Qed.

  Lemma path_left o p k q : path_operator o = true -> executing left cfg o p = (Err k, q) -> q = p.
  Proof. intros E H. destruct o; try discriminate; cbn [executing] in H; apply clearing_left in H; exact H. Qed.

  Lemma stem_left o p k q : stem_operator o = true -> possible p -> executing left cfg o p = (Err k, q) ->
    q = set_stems p (declared_by o p).
  Proof.
    intros E [P _] H.
    assert (X : (let! st := get stack in
      let! k := get stems in
      let! n := pure (add_u64 cfg k (Z.shiftr (Z.of_nat (length st)) 1)) in
      do! change (fun p => set_stems p n) in
      clearing o [[equal 2; maybe_modulo 2]]) p = (Err k, q)) by (destruct o; try discriminate; exact H).
    clear H. revert X. unfold andthen at 1 2 3 4, get, pure, change. rewrite half_div by lia.
    destruct (add_u64 _ _ _) as [n|e|e|] eqn:A; try congruence.
    - intros H. apply clearing_left in H. subst q. f_equal. apply add_u64_mod in A; [|lia|apply Z.div_pos; lia].
      unfold declared_by, declared. rewrite E. exact A.
    - apply add_u64_kind in A. contradiction.
  Qed.

  Lemma mask_left o p k q : mask_operator o = true -> possible p -> executing left cfg o p = (Err k, q) ->
    q = set_stems (set_routine p (bytes_left left ((declared_by o p + 7) mod 2 ^ 64 / 8) (routine p))) (declared_by o p).
  Proof.
    intros E [P _] H.
    assert (X : (let! st := get stack in
      let! k := get stems in
      let! n := pure (add_u64 cfg k (Z.shiftr (Z.of_nat (length st)) 1)) in
      do! change (fun p => set_stems p n) in
      let! m := pure (add_u64 cfg n 7) in
      do! take_bytes left cfg (Z.shiftr m 3) in
      clearing o [[equal 0]]) p = (Err k, q)) by (destruct o; try discriminate; exact H).
    clear H. revert X. unfold andthen at 1 2 3 4 5, get, pure, change. rewrite half_div by lia.
    destruct (add_u64 _ _ _) as [n|e|e|] eqn:A; try congruence; [|apply add_u64_kind in A; contradiction].
    pose proof (add_u64_range _ _ _ _ A) as Rn.
    apply add_u64_mod in A; [|lia|apply Z.div_pos; lia].
    assert (n = declared_by o p) as -> by (unfold declared_by, declared; rewrite E, orb_true_r; exact A).
    destruct (add_u64 _ (declared_by o p) _) as [m|e|e|] eqn:B; try congruence; [|apply add_u64_kind in B; contradiction].
    pose proof (add_u64_range _ _ _ _ B) as Rm.
    apply add_u64_mod in B; [|lia|lia]. rewrite Z.shiftr_div_pow2 by lia. change (2 ^ 3) with 8. rewrite <- B.
    unfold andthen, take_bytes, taking. cbn [routine set_stems].
    destruct (take_vec _ _ _ _ _) as [[v r]|e|e|]; try congruence.
    - unfold clearing, andthen, get, change, give. cbn [fold_left reduce].
      cbn [Nat.leb]. destruct (Nat.ltb _ _ && _); [|discriminate]. destruct (nth_error _ _); discriminate.
    - intros H. injection H as _ <-. reflexivity.
  Qed.

  Lemma unwinding_left p : forall cs r k q, unwinding cs (set_frames p r cs) = (Err k, q) ->
    exists n c c' cs', r :: cs = repeat [] n ++ c :: c' :: cs' /\ c <> [] /\ q = set_frames p c [].
  Proof.
    induction cs as [|c cs IH]; intros r k q; cbn [unwinding]; [discriminate|].
    unfold andthen, get, change, raise. cbn [routine set_frames]. destruct r as [|b r]; cbn [done].
    - intros H. apply (IH c) in H as (n & d & d' & ds & -> & D & ->). exists (Datatypes.S n), d, d', ds. auto.
    - intros H. injection H as _ <-. exists O, (b :: r), c, cs. split; [reflexivity|]. split; [discriminate|]. reflexivity.
  Qed.

  Lemma unwinding_trailing p c c' cs' : c <> [] -> forall n r cs, r :: cs = repeat [] n ++ c :: c' :: cs' ->
    unwinding cs (set_frames p r cs) = (Err Other, set_frames p c []).
  Proof.
    intros C. induction n as [|n IH]; intros r cs E; cbn [repeat app] in E; injection E as -> ->.
    - cbn [unwinding]. unfold andthen, get, change, raise. cbn [routine set_frames]. destruct c; [congruence|]. reflexivity.
    - destruct (repeat [] n ++ c :: c' :: cs') as [|d ds] eqn:F; [destruct n; discriminate|].
      cbn [unwinding]. unfold andthen, get, change, raise. cbn [routine set_frames done]. apply IH. auto.
  Qed.

  Lemma same_frames p : set_frames p (routine p) (callers p) = p.
  Proof. destruct p; reflexivity. Qed.

  Lemma end_left p k q : executing left cfg T2_EndChar p = (Err k, q) ->
    exists n c c' cs', routine p :: callers p = repeat [] n ++ c :: c' :: cs' /\ c <> [] /\ q = set_frames p c [].
  Proof.
    cbn [executing]. unfold andthen at 1 2, get. intros H.
    destruct (unwinding (callers p) p) as [[]r] eqn:U.
    - unfold andthen, give, change in H. destruct (vec_pop _) as [[? ?]|]; [destruct (width r)|]; discriminate.
    - injection H as -> ->. rewrite <- (same_frames p) in U at 2. apply unwinding_left in U. exact U.
    - discriminate.
    - discriminate.
  Qed.

  Lemma end_trailing p n c c' cs' : routine p :: callers p = repeat [] n ++ c :: c' :: cs' -> c <> [] ->
    executing left cfg T2_EndChar p = (Err Other, set_frames p c []).
  Proof.
    intros E C. cbn [executing]. unfold andthen at 1 2, get.
    pose proof (unwinding_trailing p c c' cs' C n (routine p) (callers p) E) as U. rewrite same_frames in U. rewrite U. reflexivity.
  Qed.

  Lemma refused_left o p st k q : valid_program p -> possible p -> remaining o (stack p) st ->
    executing left cfg o p = (Err k, q) -> q = set_stems (set_stack p st) (declared_by o p).
  Proof.
    intros [V _] P Re H.
    destruct (stem_operator o) eqn:Es.
    { assert (st = stack p) as ->.
      { inversion Re as [o' s D|s N|s deep j' J' E' Sf|o' s So Ni Nr|o' s D]; subst; auto; try discriminate.
        - destruct D as [->|[->| ->]]; discriminate.
        - destruct o; discriminate. }
      apply stem_left in H; auto. }
    assert (M : mask_operator o = false).
    { destruct Re as [o s D|s N|s deep j' J' E' Sf|o s So Ni Nr|o s D]; auto.
      - destruct D as [->|[->| ->]]; reflexivity.
      - destruct o; try discriminate; reflexivity.
      - destruct D as [D|[D|[->|[->|[->| ->]]]]]; try reflexivity; destruct o; try discriminate; reflexivity. }
    rewrite undeclared by auto. rewrite set_stems_same.
    inversion Re as [o' s D|s N|s deep j' J' E' Sf|o' s So Ni Nr|o' s D]; subst.
    - destruct D as [->|[->| ->]].
      + apply index_left in H. exact H.
      + cbn [executing] in H. unfold andthen at 1, get in H. apply calling_left in H. exact H.
      + cbn [executing] in H. unfold andthen at 1, get in H. apply calling_left in H. exact H.
    - eapply roll_left; eauto.
    - eapply roll_left; eauto.
    - eapply stack_left; eauto.
    - replace (set_stack p (stack p)) with p by (destruct p; reflexivity).
      destruct D as [D|[D|[->|[->|[->| ->]]]]].
      + eapply path_left; eauto.
      + congruence.
      + cbn [executing] in H. unfold andthen, get, change, give, raise in H. destruct (callers p); congruence.
      + cbn [executing] in H. unfold raise in H. congruence.
      + cbn [executing] in H. unfold raise in H. congruence.
      + cbn [executing] in H. unfold raise in H. congruence.
  Qed.

  Lemma remaining_some o st : Forall binary32 st -> mask_operator o = false -> o <> T2_EndChar -> exists st', remaining o st st'.
  Proof.
    intros V M N.
    destruct (path_operator o) eqn:Ep; [exists st; apply remaining_all; auto|].
    destruct (stem_operator o) eqn:Es; [exists st; apply remaining_all; auto|].
    destruct (stack_operator o) eqn:So.
    - assert (D : o = T2_Index \/ o = T2_Roll \/ o <> T2_Index /\ o <> T2_Roll)
        by (destruct o; auto; right; right; split; discriminate).
      destruct D as [->|[->|[Ni Nr]]].
      + exists (removelast st). apply remaining_selection. auto.
      + destruct (pop_i32 st) as [[v st']|e|e|] eqn:E.
        * apply stands_for_popped in E as (j & -> & J); auto. exists (removelast st'). eapply remaining_span; eauto.
        * exists (removelast st). apply remaining_shift. intros deep j J -> Sf. rewrite (pop_stands_for _ _ _ Sf) in E. discriminate.
        * exists (removelast st). apply remaining_shift. intros deep j J -> Sf. rewrite (pop_stands_for _ _ _ Sf) in E. discriminate.
        * exists (removelast st). apply remaining_shift. intros deep j J -> Sf. rewrite (pop_stands_for _ _ _ Sf) in E. discriminate.
      + exists []. apply remaining_none; auto.
    - destruct o; try discriminate; try congruence; try (exists st; apply remaining_all; auto 10; fail);
        exists (removelast st); apply remaining_selection; auto.
  Qed.

  (** ** Rounds that fail *)

  Lemma round_leaves p k q : valid_program p -> possible p -> round left cfg p = (Err k, q) -> leaves left p q.
  Proof.
    intros V P H. destruct (numbers_first _ (routine p) (le_n _)) as (e & xs & t & R & X & D).
    assert (A : ahead p xs t) by (exists e; auto).
    destruct D as [->|(b & u & -> & D)].
    { destruct (routine p) eqn:Er.
      - unfold round, andthen, get in H. rewrite Er in H. discriminate.
      - rewrite (round_missing p xs A) in H by (rewrite Er; discriminate). injection H as _ <-. apply leaves_numbers, A. }
    destruct D as [F|(v & x & U & N)].
    2: { rewrite (round_number p xs b u v x A N U) in H. injection H as _ <-. eapply leaves_number; eauto. }
    destruct (read_t2_operator (bz b) (b :: u)) as [[o r]|e'|e'|] eqn:E.
    - apply read_t2_operator_sound in E. rewrite E in A. rewrite (round_operator p xs o r A) in H.
      assert (Vl : valid_program (loaded p xs r)) by (eapply loaded_valid; eauto).
      destruct (mask_operator o) eqn:M.
      { apply mask_left in H; auto. subst q. exact (leaves_mask left p xs o r A M). }
      destruct (t2_operator_eq_dec o T2_EndChar) as [->|N].
      { apply end_left in H as (n & c & c' & cs & E' & C & ->). exact (leaves_trailing left p xs r n c c' cs A E' C). }
      destruct (remaining_some o (stack p ++ xs) (proj1 Vl) M N) as (st & Re).
      apply (refused_left o (loaded p xs r) st) in H; auto. subst q. exact (leaves_operator left p xs o r st A Re).
    - destruct (operator_err b u e' F E) as [(_ & Eu)|(_ & Nc & No)].
      { injection Eu as -> ->. rewrite (round_cut p xs A) in H. injection H as _ <-. apply leaves_cut, A. }
      destruct (Byte.byte_eq_dec b x0c) as [->|C].
      + destruct u as [|c u]; [congruence|].
        assert (No' : forall o, t2_bytes o <> [x0c; c]) by (intros o E'; apply (No o u); rewrite E'; reflexivity).
        rewrite (round_unknown_pair p xs c u A No') in H. injection H as _ <-. eapply leaves_unknown_pair; eauto.
      + assert (No' : forall o, t2_bytes o <> [b]) by (intros o E'; apply (No o u); rewrite E'; reflexivity).
        rewrite (round_unknown p xs b u A C F No') in H. injection H as _ <-. eapply leaves_unknown; eauto.
        intros s x N. apply F. apply t2_number_first in N as (b' & e0 & E0 & F'). injection E0 as -> _. exact F'.
    - pose proof (read_t2_operator_settled (bz b) (b :: u)) as St. rewrite E in St. contradiction.
    - pose proof (read_t2_operator_settled (bz b) (b :: u)) as St. rewrite E in St. contradiction.
  Qed.

  Lemma leaves_round p k q : valid_program p -> possible p -> step cfg p = Err k -> leaves left p q -> round left cfg p = (Err k, q).
  Proof.
    intros V P H L. pose proof (round_agrees left cfg p) as G. rewrite H in G. unfold agree in G.
    assert (Ne : routine p <> []) by (intros E; rewrite (step_empty cfg p E) in H; discriminate).
    destruct (round left cfg p) as [r q'] eqn:Rd. cbn [fst] in G. subst r. f_equal.
    inversion L as [p' xs A|p' xs b s u x A N U|p' xs A|p' xs b r A C F No|p' xs b r A No|p' xs o r A M|p' xs r n c c' cs A E C|p' xs o r st A Re]; subst.
    - rewrite (round_missing p xs A Ne) in Rd. congruence.
    - rewrite (round_number p xs b s u x A N U) in Rd. congruence.
    - rewrite (round_cut p xs A) in Rd. congruence.
    - assert (F' : ~ t2_first b) by (intros F'; destruct (first_number b F') as (s & x & N); exact (F s x N)).
      rewrite (round_unknown p xs b r A C F' No) in Rd. congruence.
    - rewrite (round_unknown_pair p xs b r A No) in Rd. congruence.
    - rewrite (round_operator p xs o r A) in Rd. apply mask_left in Rd; auto.
    - rewrite (round_operator p xs _ r A), (end_trailing (loaded p xs r) n c c' cs E C) in Rd. congruence.
    - rewrite (round_operator p xs o r A) in Rd.
      assert (Vl : valid_program (loaded p xs r)) by (destruct A as (e & _ & X); eapply loaded_valid; eauto).
      apply (refused_left o (loaded p xs r) st) in Rd; auto.
  Qed.

  Lemma round_left p k q : valid_program p -> possible p ->
    (round left cfg p = (Err k, q) <-> step cfg p = Err k /\ leaves left p q).
  Proof.
    intros V P. split.
    - intros H. split; [|eapply round_leaves; eauto]. pose proof (round_agrees left cfg p) as G. rewrite H in G. unfold agree in G.
      destruct (step cfg p) as [[x r|r]|e|e|]; cbn [fst] in G; congruence.
    - intros [H L]. apply leaves_round; auto.
  Qed.
End machine.

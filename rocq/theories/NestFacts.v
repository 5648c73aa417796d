(** NestFacts: only recursion nests calls without limit. *)
From Coq Require Import Reals.
From Verif Require Import Base Float T2Number T2Operation T2Program BaseFacts SpecProgram T2NumberFacts StepFacts
  RunFacts EvalFacts IntegralFacts StackFacts ClearFacts ExecutionFacts SubroutineFacts ProgramFacts SpecSize SizeFacts RecursionFacts
  SpecCalls CallsFacts SpecNest.
Local Open Scope list_scope.
Local Open Scope Z_scope.

Local Notation within := place_in.

Section Nest.
Context (cfg : config).

(** A call that succeeds goes to a subroutine of the table. *)
Lemma call_selects table p q : Forall binary32 (stack p) -> Z.of_nat (length table) < 2 ^ 31 -> call cfg table p = Ok q ->
  exists st a i, stack p = st ++ [a] /\ selects_place table a i.
Proof.
  intros V L H. destruct (pop_i32 (stack p)) as [[v0 st0]|k|k|] eqn:P; try (unfold call in H; rewrite P in H; discriminate).
  destruct (stands_for_pop _ _ _ V P) as (a & K & _). assert (B : binary32 a) by (rewrite K in V; apply Forall_snoc in V; tauto).
  exists st0, a. destruct (selects_or table a B L) as [(code & v & b & I & Bb & Nn & E)|N].
  - exists (Z.to_nat (v + b)). split; auto. exists v, b. split; auto. split; auto. split; [lia|]. apply nth_error_Some. congruence.
  - destruct (call_other cfg table p st0 a K B L N) as [E|(E & _)]; congruence.
Qed.

Lemma set_frames_tables p r cs : global (set_frames p r cs) = global p /\ local (set_frames p r cs) = local p.
Proof. auto. Qed.

(** What a round that goes on does. *)
Lemma proceeds_cases p q : valid_program p -> Z.of_nat (length (global p)) < 2 ^ 31 -> Z.of_nat (length (local p)) < 2 ^ 31 ->
  proceeds cfg p q ->
  (global q = global p /\ local q = local p /\ valid_program q) /\
  ((exists s, calls p s /\ within (global p) (local p) s /\ length (callers q) = S (length (callers p))) \/
   (exists st, about_to p T2_Return st /\ length (callers p) = S (length (callers q))) \/
   (exists o st, about_to p o st /\ o <> T2_CallSubr /\ o <> T2_CallGSubr /\ o <> T2_Return /\ callers q = callers p)).
Proof.
  intros V G L H. assert (VQ : valid_program q).
  { destruct H as [H|[x H]]; apply step_valid in H; auto. apply H. }
  destruct H as [H|[x H]]; apply step_inv in H as [[_ H]|(e & xs & o & r & E & R & H)]; try discriminate.
  - pose proof (loaded_valid p e xs r V E) as VL.
    apply execute_again in H as [(So & st & _ & ->)|[(Oc & H)|(-> & c & cs & C & ->)]].
    + split; [auto|]. right. right. exists o, (stack p ++ xs). split; [exists e, xs, r; auto|].
      destruct o; try discriminate So; repeat split; try discriminate; reflexivity.
    + assert (C : exists st0 code, q = set_frames (set_stack (loaded p xs r) st0) code (routine (loaded p xs r) :: callers (loaded p xs r))).
      { destruct Oc; subst o; apply call_inv in H as (st0 & code & _ & ->); eauto. }
      destruct C as (st0 & code & ->). split; [auto|]. left.
      destruct Oc; subst o.
      * destruct (call_selects (local p) _ _ (proj1 VL) L H) as (st & a & i & K & P). exists (T2_CallSubr, i).
        split; [|split; [right; destruct P as (? & ? & ? & ? & ? & ?); auto|reflexivity]].
        exists st, a. cbn [fst snd]. split; [exists e, xs, r; auto|]. auto.
      * destruct (call_selects (global p) _ _ (proj1 VL) G H) as (st & a & i & K & P). exists (T2_CallGSubr, i).
        split; [|split; [left; destruct P as (? & ? & ? & ? & ? & ?); auto|reflexivity]].
        exists st, a. cbn [fst snd]. split; [exists e, xs, r; auto|]. auto.
    + split; [auto|]. right. left. exists (stack p ++ xs). split; [exists e, xs, r; auto|].
      change (callers p = c :: cs) in C. rewrite C. reflexivity.
  - apply execute_yields in H as (Po & _ & sp & _ & _ & _ & Cq & Gq & Lq & _).
    split; [auto|]. right. right. exists o, (stack p ++ xs). split; [exists e, xs, r; auto|].
    destruct o; try discriminate Po; repeat split; try discriminate; exact Cq.
Qed.

(** The operator a program comes to decides what the round does to the callers. *)
Lemma calls_proceeds p q s : calls p s -> proceeds cfg p q ->
  within (global p) (local p) s /\ length (callers q) = S (length (callers p)).
Proof.
  intros (st & a & (e & xs & r & R & E & K) & C) H. destruct s as [o i]. cbn [fst snd] in *. split.
  - destruct C as [[-> (? & ? & ? & ? & ? & ?)]|[-> (? & ? & ? & ? & ? & ?)]]; [right|left]; auto.
  - unfold proceeds in H. rewrite (step_code cfg p e xs o r E R) in H.
    destruct H as [H|[x H]].
    + apply execute_again in H as [(So & _)|[(_ & H)|(Or & _)]].
      * destruct C as [[-> _]|[-> _]]; discriminate.
      * destruct C as [[-> _]|[-> _]]; apply call_inv in H as (st0 & code & _ & ->); reflexivity.
      * destruct C as [[-> _]|[-> _]]; discriminate.
    + apply execute_yields in H as (Po & _). destruct C as [[-> _]|[-> _]]; discriminate.
Qed.

Lemma return_proceeds p q st : about_to p T2_Return st -> proceeds cfg p q -> length (callers p) = S (length (callers q)).
Proof.
  intros (e & xs & r & R & E & K) H. unfold proceeds in H. rewrite (step_code cfg p e xs _ r E R) in H.
  destruct H as [H|[x H]].
  - apply execute_again in H as [(So & _)|[([H|H] & _)|(_ & c & cs & C & ->)]]; try discriminate.
    change (callers p = c :: cs) in C. rewrite C. reflexivity.
  - apply execute_yields in H as (Po & _). discriminate.
Qed.

Lemma other_proceeds p q o st : about_to p o st -> o <> T2_CallSubr -> o <> T2_CallGSubr -> o <> T2_Return ->
  proceeds cfg p q -> length (callers p) = length (callers q).
Proof.
  intros (e & xs & r & R & E & K) N1 N2 N3 H. unfold proceeds in H. rewrite (step_code cfg p e xs _ r E R) in H.
  destruct H as [H|[x H]].
  - apply execute_again in H as [(_ & st' & _ & ->)|[([H|H] & _)|(H & _)]]; try contradiction. reflexivity.
  - apply execute_yields in H as (_ & _ & sp & _ & _ & _ & C & _). rewrite C. reflexivity.
Qed.

Lemma trace_proceeds p ops q q' : trace cfg p ops q -> proceeds cfg q q' -> exists ops', trace cfg p ops' q'.
Proof.
  intros T [H|[x H]].
  - exists (ops ++ []). eapply trace_app; [exact T|]. eapply trace_again; [exact H|constructor].
  - exists (ops ++ [x]). eapply trace_app; [exact T|]. eapply trace_emit; [exact H|constructor].
Qed.

Section Start.
Context (p : program) (V : valid_program p) (Cp : callers p = []).
Context (G : Z.of_nat (length (global p)) < 2 ^ 31) (L : Z.of_nat (length (local p)) < 2 ^ 31).

Lemma inside_facts q ss : inside_of cfg p q ss ->
  (global q = global p /\ local q = local p /\ valid_program q) /\
  length ss = length (callers q) /\ Forall (within (global p) (local p)) ss /\ exists ops, trace cfg p ops q.
Proof.
  induction 1 as [|q ss s q' I IH C P|q ss s q' st I IH A P|q ss q' o st I IH A N1 N2 N3 P].
  - rewrite Cp. split; [auto|]. split; [reflexivity|]. split; [constructor|]. exists []. constructor.
  - destruct IH as ((Gq & Lq & Vq) & Len & F & ops & T).
    destruct (proceeds_cases q q' Vq ltac:(rewrite Gq; exact G) ltac:(rewrite Lq; exact L) P) as [(Gq' & Lq' & Vq') _].
    destruct (calls_proceeds _ _ _ C P) as [W Len']. rewrite Gq, Lq in W.
    split; [split; [congruence|split; [congruence|exact Vq']]|]. split; [cbn [length]; lia|]. split; [constructor; auto|].
    eapply trace_proceeds; eauto.
  - destruct IH as ((Gq & Lq & Vq) & Len & F & ops & T).
    destruct (proceeds_cases q q' Vq ltac:(rewrite Gq; exact G) ltac:(rewrite Lq; exact L) P) as [(Gq' & Lq' & Vq') _].
    pose proof (return_proceeds _ _ _ A P) as Len'. cbn [length] in Len.
    split; [split; [congruence|split; [congruence|exact Vq']]|]. split; [lia|]. split; [inversion F; auto|].
    eapply trace_proceeds; eauto.
  - destruct IH as ((Gq & Lq & Vq) & Len & F & ops & T).
    destruct (proceeds_cases q q' Vq ltac:(rewrite Gq; exact G) ltac:(rewrite Lq; exact L) P) as [(Gq' & Lq' & Vq') _].
    pose proof (other_proceeds _ _ _ _ A N1 N2 N3 P) as Len'.
    split; [split; [congruence|split; [congruence|exact Vq']]|]. split; [lia|]. split; [auto|].
    eapply trace_proceeds; eauto.
Qed.

Lemma inside_proceeds q ss q' : inside_of cfg p q ss -> proceeds cfg q q' -> exists ss', inside_of cfg p q' ss'.
Proof.
  intros I P. destruct (inside_facts q ss I) as ((Gq & Lq & Vq) & Len & F & _).
  destruct (proceeds_cases q q' Vq ltac:(rewrite Gq; exact G) ltac:(rewrite Lq; exact L) P)
    as (_ & [(s & C & _)|[(st & A & D)|(o & st & A & N1 & N2 & N3 & _)]]).
  - exists (s :: ss). eapply inside_call; eauto.
  - destruct ss as [|s ss]; [cbn in Len; lia|]. exists ss. eapply inside_return; eauto.
  - exists ss. eapply inside_other; eauto.
Qed.

Lemma inside_from q ops q' : trace cfg q ops q' -> forall ss, inside_of cfg p q ss -> exists ss', inside_of cfg p q' ss'.
Proof.
  induction 1 as [q|q q1 ops q' S1 T IH|q x q1 ops q' S1 T IH]; intros ss I; [eauto| |].
  - destruct (inside_proceeds q ss q1 I) as [ss' I']; [left; exact S1|]. eauto.
  - destruct (inside_proceeds q ss q1 I) as [ss' I']; [right; eauto|]. eauto.
Qed.

Lemma inside_trace ops q : trace cfg p ops q -> exists ss, inside_of cfg p q ss.
Proof. intros T. exact (inside_from _ _ _ T [] (inside_none _ _)). Qed.

(** When the innermost subroutines were called. *)
Lemma inside_suffix q ss : inside_of cfg p q ss -> forall a b, ss = a ++ b -> exists q', inside_of cfg p q' b.
Proof.
  induction 1 as [|q ss s q' I IH C P|q ss s q' st I IH A P|q ss q' o st I IH A N1 N2 N3 P]; intros a b E.
  - destruct a; [|discriminate]. cbn in E. subst b. exists p. constructor.
  - destruct a as [|s' a]; cbn in E.
    + subst b. exists q'. eapply inside_call; eauto.
    + injection E as <- ->. eapply IH; eauto.
  - apply (IH (s :: a) b). cbn. congruence.
  - eapply IH; eauto.
Qed.

Lemma operator_eq (x y : t2_operator) : {x = y} + {x <> y}.
Proof. decide equality. Defined.

Lemma subroutine_eq (x y : subroutine) : {x = y} + {x <> y}.
Proof. decide equality; [apply Nat.eq_dec|apply operator_eq]. Defined.

Lemma repeats (ss : list subroutine) : NoDup ss \/ exists a s b, ss = a ++ s :: b /\ In s b.
Proof.
  induction ss as [|s ss [N|(a & s' & b & -> & I)]].
  - left. constructor.
  - destruct (in_dec subroutine_eq s ss) as [I|I].
    + right. exists [], s, ss. auto.
    + left. constructor; auto.
  - right. exists (s :: a), s', b. auto.
Qed.

Definition places : list subroutine :=
  map (fun i => (T2_CallGSubr, i)) (seq 0 (length (global p))) ++ map (fun i => (T2_CallSubr, i)) (seq 0 (length (local p))).

Lemma within_places ss : Forall (within (global p) (local p)) ss -> incl ss places.
Proof.
  intros F s I. rewrite Forall_forall in F. specialize (F s I). destruct s as [o i]. unfold places. apply in_app_iff.
  destruct F as [[E B]|[E B]]; cbn [fst snd] in *; subst o; [left|right]; apply (in_map (fun i => (_, i))); apply in_seq; lia.
Qed.

Lemma depth_or ops q : trace cfg p ops q ->
  (length (callers q) <= length (global p) + length (local p))%nat \/ recurs cfg p.
Proof.
  intros T. destruct (inside_trace ops q T) as [ss I]. destruct (inside_facts q ss I) as (_ & Len & F & _).
  destruct (repeats ss) as [N|(a & s & b & E & M)].
  - left. rewrite <- Len. pose proof (NoDup_incl_length N (within_places ss F)) as B.
    unfold places in B. rewrite app_length, !map_length, !seq_length in B. exact B.
  - right. destruct (inside_suffix q ss I a (s :: b) E) as [q' I']. exists q', s, b. auto.
Qed.

End Start.
End Nest.

(** ** Programs *)

Section Program.
Context (cfg : config) (code : list byte) (g l : list (list byte)).
Context (G : Z.of_nat (length g) < 2 ^ 31) (L : Z.of_nat (length l) < 2 ^ 31).
Local Notation p := (new_program code g l).

Lemma program_inside q : (exists ss, inside_of cfg p q ss) <-> exists ops, trace cfg p ops q.
Proof.
  split.
  - intros [ss I]. apply (inside_facts cfg p (new_valid code g l) eq_refl G L q ss I).
  - intros [ops T]. exact (inside_trace cfg p (new_valid code g l) eq_refl G L ops q T).
Qed.

Lemma program_callers q ss : inside_of cfg p q ss -> length (callers q) = length ss.
Proof. intros I. symmetry. apply (inside_facts cfg p (new_valid code g l) eq_refl G L q ss I). Qed.

Lemma program_places q ss : inside_of cfg p q ss -> Forall (within g l) ss.
Proof. intros I. apply (inside_facts cfg p (new_valid code g l) eq_refl G L q ss I). Qed.

Lemma program_depth ops q : trace cfg p ops q -> (length (callers q) <= length g + length l)%nat \/ recurs cfg p.
Proof. exact (depth_or cfg p (new_valid code g l) eq_refl G L ops q). Qed.

Lemma deeper ops q : trace cfg p ops q -> (length g + length l < length (callers q))%nat -> recurs cfg p.
Proof. intros T D. destruct (program_depth ops q T) as [B|R]; [lia|exact R]. Qed.

Lemma program_terminates b : Forall (fun c => (length c <= b)%nat) g -> Forall (fun c => (length c <= b)%nat) l ->
  run cfg (S (length code * S b ^ (length g + length l))) p <> OutOfFuel \/ recurs cfg p.
Proof.
  intros Bg Bl. destruct (terminates cfg code g l b (length g + length l) Bg Bl) as [(r & N & E)|(ops & q & T & D)].
  - left. congruence.
  - right. eapply deeper; eauto.
Qed.

Lemma longest (xs : list (list byte)) : exists b, Forall (fun c => (length c <= b)%nat) xs.
Proof.
  induction xs as [|x xs [b F]]; [exists 0%nat; constructor|]. exists (length x + b)%nat. constructor; [lia|].
  eapply Forall_impl; [|exact F]. cbn. lia.
Qed.

Lemma program_endless : (forall r, ~ runs cfg p r) -> recurs cfg p.
Proof.
  intros N. destruct (longest (g ++ l)) as [b F]. apply Forall_app in F as [Fg Fl].
  destruct (program_terminates b Fg Fl) as [H|R]; [|exact R]. exfalso.
  apply (N (run cfg (S (length code * S b ^ (length g + length l))) p)). split; [|eauto]. exact H.
Qed.

Lemma program_rounds b ops q : Forall (fun c => (length c <= b)%nat) g -> Forall (fun c => (length c <= b)%nat) l ->
  trace cfg p ops q -> next cfg (S (length code * S b ^ (length g + length l))) q <> OutOfFuel \/ recurs cfg p.
Proof.
  intros Bg Bl T. destruct (shallow cfg code g l b (length g + length l) ops q Bg Bl T) as [H|(ops' & q' & T' & D)]; [auto|].
  right. eapply deeper; eauto.
Qed.

Lemma program_amount b ops q : Forall (fun c => (length c <= b)%nat) g -> Forall (fun c => (length c <= b)%nat) l ->
  trace cfg p ops q -> (count_operations ops + length (stack q) <= length code * S b ^ (length g + length l))%nat \/ recurs cfg p.
Proof.
  intros Bg Bl T. destruct (program_size cfg code g l b (length g + length l) ops q Bg Bl T) as [(ops' & q' & T' & D)|H]; [|auto].
  right. eapply deeper; eauto.
Qed.

(** A rank that falls from a subroutine to the ones it calls. *)
Lemma program_ranked (rank : subroutine -> nat) :
  (forall q s s' ss, inside_of cfg p q (s :: ss) -> calls q s' -> (rank s' < rank s)%nat) -> ~ recurs cfg p.
Proof.
  intros H (q & s & ss & I & M).
  assert (K : forall q ss, inside_of cfg p q ss -> forall s b a, ss = a ++ s :: b -> Forall (fun s' => (rank s < rank s')%nat) b).
  { clear q s ss I M. induction 1 as [|q ss s q' I IH C P|q ss s q' st I IH A P|q ss q' o st I IH A N1 N2 N3 P]; intros s' b a E.
    - destruct a; discriminate.
    - destruct a as [|s0 a]; cbn in E; injection E as E1 E2.
      + subst s' b. destruct ss as [|s1 ss]; [constructor|]. pose proof (H _ _ _ _ I C) as Hr. constructor; [exact Hr|].
        specialize (IH s1 ss [] eq_refl). eapply Forall_impl; [|exact IH]. cbn. lia.
      + exact (IH _ _ _ E2).
    - apply (IH s' b (s :: a)). cbn. congruence.
    - eapply IH; eauto. }
  specialize (K q (s :: ss) I s ss [] eq_refl). rewrite Forall_forall in K. specialize (K s M). lia.
Qed.

End Program.

(** ** A program that nests its calls *)

Definition again_and_again : list byte := [x8b; x16; x20; x0a].

Definition inner (cs : list (list byte)) : program :=
  {| routine := again_and_again; callers := cs; global := []; local := [again_and_again]; stack := []; stems := 0; width := None |}.

Lemma inner_rounds cfg cs : exists q x, step cfg (inner cs) = Ok (Yield (Some x) q) /\ step cfg q = Ok (Again (inner ([] :: cs))).
Proof. eexists _, _. split; [vm_compute; reflexivity|vm_compute; reflexivity]. Qed.

Lemma nests cfg n : forall cs, exists ops q, trace cfg (inner cs) ops q /\ length ops = n /\ length (callers q) = (n + length cs)%nat.
Proof.
  induction n as [|n IH]; intros cs.
  - exists [], (inner cs). split; [constructor|]. split; reflexivity.
  - destruct (inner_rounds cfg cs) as (q & x & A & B). destruct (IH ([] :: cs)) as (ops & q' & T & N & C).
    exists (x :: ops), q'. split; [eapply trace_emit; [exact A|eapply trace_again; [exact B|exact T]]|].
    split; [cbn; lia|]. rewrite C. cbn [length]. lia.
Qed.

Lemma program_nests cfg : exists code l, forall n, exists ops q,
  trace cfg (new_program code [] l) ops q /\ length ops = n /\ length (callers q) = n.
Proof.
  exists again_and_again, [again_and_again]. intros n. destruct (nests cfg n []) as (ops & q & T & N & C).
  exists ops, q. split; [exact T|]. split; [exact N|]. rewrite C. cbn [length]. lia.
Qed.


(** ** Subroutines that call nothing *)

Lemma callless_app a b : callless (a ++ b) -> callless b.
Proof. unfold callless. rewrite !in_app_iff. tauto. Qed.

Section Leaves.
Context (cfg : config) (g l : list (list byte)).
Context (Fg : Forall callless g) (Fl : Forall callless l).

Definition flat (q : program) : Prop :=
  global q = g /\ local q = l /\ (callers q = [] \/ (exists c, callers q = [c]) /\ callless (routine q)).

Lemma flat_proceeds p q : flat p -> proceeds cfg p q -> flat q.
Proof.
  intros (G & L & C) H. destruct H as [H|[x H]]; apply step_inv in H as [[_ H]|(e & xs & o & r & E & R & H)]; try discriminate.
  - assert (Cr : callless (routine p) -> callless r) by (rewrite R; intros K; apply callless_app in K; apply callless_app in K; exact K).
    apply execute_again in H as [(_ & st & _ & ->)|[(Oc & H)|(-> & c & cs & Cc & ->)]].
    + split; [exact G|]. split; [exact L|]. destruct C as [C|[C K]]; [left; exact C|right; split; [exact C|exact (Cr K)]].
    + assert (Q : exists st body, (In body g \/ In body l) /\ q = set_frames (set_stack (loaded p xs r) st) body (r :: callers p)).
      { destruct Oc; subst o; apply call_inv in H as (st & body & I & ->); exists st, body; split; try reflexivity.
        - right. rewrite <- L. exact I.
        - left. rewrite <- G. exact I. }
      destruct Q as (st & body & I & ->). split; [exact G|]. split; [exact L|].
      destruct C as [C|[_ [K1 K2]]].
      * right. split; [exists r; cbn; rewrite C; reflexivity|]. cbn. rewrite Forall_forall in Fg, Fl. destruct I; auto.
      * exfalso. destruct Oc; subst o; [apply K1|apply K2]; rewrite R; apply in_app_iff; right; left; reflexivity.
    + change (callers p = c :: cs) in Cc. split; [exact G|]. split; [exact L|]. left. cbn.
      destruct C as [C|[[c' C] _]]; rewrite C in Cc; [discriminate|]. injection Cc as _ <-. reflexivity.
  - apply execute_yields in H as (_ & _ & sp & _ & _ & _ & Cq & Gq & Lq & M).
    split; [rewrite Gq; exact G|]. split; [rewrite Lq; exact L|]. rewrite Cq.
    change (callers (loaded p xs r)) with (callers p). destruct C as [C|[C K]]; [left; exact C|right; split; [exact C|]].
    rewrite R in K. apply callless_app in K. apply callless_app in K. change (routine (loaded p xs r)) with r in M.
    destruct (mask_operator o).
    + destruct M as [m M]. rewrite M in K. exact (callless_app _ _ K).
    + rewrite M. exact K.
Qed.

Lemma flat_trace p ops q : trace cfg p ops q -> flat p -> flat q.
Proof.
  induction 1 as [p|p p' ops q S1 T IH|p x p' ops q S1 T IH]; intros F; [exact F| |]; apply IH, (flat_proceeds p); auto.
  - left. exact S1.
  - right. eauto.
Qed.

Lemma leaves_depth code ops q : trace cfg (new_program code g l) ops q -> (length (callers q) <= 1)%nat.
Proof.
  intros T. destruct (flat_trace _ _ _ T) as (_ & _ & [->|[[c ->] _]]).
  - split; [reflexivity|]. split; [reflexivity|]. left. reflexivity.
  - cbn. lia.
  - cbn. lia.
Qed.

Lemma leaves_terminate code b : Forall (fun c => (length c <= b)%nat) g -> Forall (fun c => (length c <= b)%nat) l ->
  run cfg (S (length code * S b)) (new_program code g l) <> OutOfFuel.
Proof.
  intros Bg Bl. destruct (terminates cfg code g l b 1 Bg Bl) as [(r & N & E)|(ops & q & T & D)].
  - rewrite Nat.pow_1_r in E. congruence.
  - apply leaves_depth in T. lia.
Qed.
End Leaves.

(** ** Concrete programs *)

Definition look (q : program) : option (t2_operator * list f32) :=
  match push_operands (S (length (routine q))) (stack q) (routine q) with
  | Ok ((st, code), s) => match read_t2_operator code s with Ok (o, _) => Some (o, st) | _ => None end
  | _ => None
  end.

Lemma look_about q o st : about_to q o st -> look q = Some (o, st).
Proof.
  intros (e & xs & r & R & E & ->). destruct (comes_now q e xs o r R E) as (code & P & Q).
  unfold look. rewrite P, Q. reflexivity.
Qed.

Definition place_of (table : list (list byte)) (st : list f32) : option nat :=
  match pop_i32 st with Ok (v, _) => Some (Z.to_nat (v + bias (Z.of_nat (length table)))) | _ => None end.

Lemma place_selects table st a i : Z.of_nat (length table) < 2 ^ 31 -> selects_place table a i -> place_of table (st ++ [a]) = Some i.
Proof.
  intros L (v & b & I & B & E & N). apply biased_bias in B. subst b. pose proof (bias_range (Z.of_nat (length table))) as R.
  unfold place_of. rewrite (pop_i32_integral st a v I) by lia. f_equal. lia.
Qed.

Definition walk (cfg : config) (s : program * list subroutine) : option (program * list subroutine) :=
  let '(q, ss) := s in
  match step cfg q with
  | Ok (Again q') | Ok (Yield (Some _) q') =>
      match look q with
      | Some (T2_CallSubr, st) => match place_of (local q) st with Some i => Some (q', (T2_CallSubr, i) :: ss) | None => None end
      | Some (T2_CallGSubr, st) => match place_of (global q) st with Some i => Some (q', (T2_CallGSubr, i) :: ss) | None => None end
      | Some (T2_Return, _) => Some (q', tl ss)
      | Some _ => Some (q', ss)
      | None => None
      end
  | _ => None
  end.

Definition fresh (s : program * list subroutine) : bool :=
  match snd s with [] => true | s :: ss => if in_dec subroutine_eq s ss then false else true end.

Fixpoint walked (cfg : config) (test : program * list subroutine -> bool) (fuel : nat) (s : program * list subroutine) : bool :=
  match fuel with
  | O => false
  | S fuel => test s && match walk cfg s with Some s' => walked cfg test fuel s' | None => true end
  end.

Fixpoint walks (cfg : config) (n : nat) (s : program * list subroutine) : option (program * list subroutine) :=
  match n with O => Some s | S n => match walks cfg n s with Some s' => walk cfg s' | None => None end end.

Lemma walks_first cfg n s s1 : walk cfg s = Some s1 -> walks cfg (S n) s = walks cfg n s1.
Proof. intros H. induction n as [|n IH]; [exact H|]. cbn [walks] in *. rewrite IH. reflexivity. Qed.

Lemma walks_none cfg n s : walk cfg s = None -> walks cfg (S n) s = None.
Proof. intros H. induction n as [|n IH]; [exact H|]. cbn [walks] in *. rewrite IH. reflexivity. Qed.

Lemma walked_test cfg test fuel : forall s n s', walked cfg test fuel s = true -> walks cfg n s = Some s' -> test s' = true.
Proof.
  induction fuel as [|fuel IH]; intros s n s' H W; [discriminate|]. cbn [walked] in H. apply andb_prop in H as [F H].
  destruct n as [|n]; [injection W as <-; exact F|]. destruct (walk cfg s) as [s1|] eqn:E.
  - rewrite (walks_first _ _ _ _ E) in W. eauto.
  - rewrite walks_none in W by exact E. discriminate.
Qed.

Lemma walk_about cfg q ss q' o st : about_to q o st -> proceeds cfg q q' ->
  walk cfg (q, ss) = match o with
    | T2_CallSubr => match place_of (local q) st with Some i => Some (q', (T2_CallSubr, i) :: ss) | None => None end
    | T2_CallGSubr => match place_of (global q) st with Some i => Some (q', (T2_CallGSubr, i) :: ss) | None => None end
    | T2_Return => Some (q', tl ss)
    | _ => Some (q', ss)
    end.
Proof.
  intros A P. apply look_about in A. unfold walk. rewrite A. destruct P as [->|[x ->]]; destruct o; reflexivity.
Qed.

Lemma inside_walks cfg code g l q ss : Z.of_nat (length g) < 2 ^ 31 -> Z.of_nat (length l) < 2 ^ 31 ->
  inside_of cfg (new_program code g l) q ss -> exists n, walks cfg n (new_program code g l, []) = Some (q, ss).
Proof.
  intros G L. induction 1 as [|q ss s q' I IH C P|q ss s q' st I IH A P|q ss q' o st I IH A N1 N2 N3 P].
  - exists 0%nat. reflexivity.
  - destruct IH as [n W]. exists (S n). cbn [walks]. rewrite W.
    destruct (inside_facts cfg _ (new_valid code g l) eq_refl G L q ss I) as ((Gq & Lq & _) & _).
    destruct s as [o i]. destruct C as (st & a & A & C). cbn [fst snd] in *. rewrite (walk_about cfg q ss q' _ _ A P).
    destruct C as [[-> C]|[-> C]].
    + change (local q = l) in Lq. rewrite <- Lq in L. rewrite (place_selects _ _ _ _ L C). reflexivity.
    + change (global q = g) in Gq. rewrite <- Gq in G. rewrite (place_selects _ _ _ _ G C). reflexivity.
  - destruct IH as [n W]. exists (S n). cbn [walks]. rewrite W, (walk_about cfg q _ q' _ _ A P). reflexivity.
  - destruct IH as [n W]. exists (S n). cbn [walks]. rewrite W, (walk_about cfg q _ q' _ _ A P). destruct o; try reflexivity; congruence.
Qed.

Lemma walked_nonrecursive cfg fuel code g l : Z.of_nat (length g) < 2 ^ 31 -> Z.of_nat (length l) < 2 ^ 31 ->
  walked cfg fresh fuel (new_program code g l, []) = true -> ~ recurs cfg (new_program code g l).
Proof.
  intros G L H (q & s & ss & I & M). destruct (inside_walks cfg code g l q (s :: ss) G L I) as [n W].
  pose proof (walked_test _ _ _ _ _ _ H W) as F. unfold fresh in F. cbn [snd] in F. destruct (in_dec subroutine_eq s ss); [discriminate|contradiction].
Qed.

Definition called (q : program) : option subroutine :=
  match look q with
  | Some (T2_CallSubr, st) => match place_of (local q) st with Some i => Some (T2_CallSubr, i) | None => None end
  | Some (T2_CallGSubr, st) => match place_of (global q) st with Some i => Some (T2_CallGSubr, i) | None => None end
  | _ => None
  end.

Definition falls (rank : subroutine -> nat) (s : program * list subroutine) : bool :=
  match snd s, called (fst s) with
  | s1 :: _, Some s2 => (rank s2 <? rank s1)%nat
  | _, _ => true
  end.

Lemma walked_ranked cfg fuel code g l rank : Z.of_nat (length g) < 2 ^ 31 -> Z.of_nat (length l) < 2 ^ 31 ->
  walked cfg (falls rank) fuel (new_program code g l, []) = true ->
  forall q s s' ss, inside_of cfg (new_program code g l) q (s :: ss) -> calls q s' -> (rank s' < rank s)%nat.
Proof.
  intros G L H q s s' ss I C. destruct (inside_walks cfg code g l q (s :: ss) G L I) as [n W].
  pose proof (walked_test _ _ _ _ _ _ H W) as F. unfold falls in F. cbn [fst snd] in F.
  destruct (inside_facts cfg _ (new_valid code g l) eq_refl G L q _ I) as ((Gq & Lq & _) & _).
  change (global q = g) in Gq. change (local q = l) in Lq.
  assert (E : called q = Some s').
  { destruct C as (st & a & A & C). destruct s' as [o i]. cbn [fst snd] in *. unfold called. rewrite (look_about _ _ _ A).
    destruct C as [[-> C]|[-> C]].
    - rewrite <- Lq in L. rewrite (place_selects _ _ _ _ L C). reflexivity.
    - rewrite <- Gq in G. rewrite (place_selects _ _ _ _ G C). reflexivity. }
  rewrite E in F. apply Nat.ltb_lt in F. exact F.
Qed.

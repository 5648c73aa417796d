(** SessionBoundFacts: how often a program with subroutines can be asked for more. *)
From Coq Require Import Reals.
From Verif Require Import Base Float T2Number T2Operation T2Program T2Machine BaseFacts SpecProgram SpecMachine StepFacts RunFacts ClearFacts
  SubroutineFacts ProgramFacts ExecutionFacts MachineFacts SessionFacts InlineFacts.
Local Open Scope list_scope.
Local Open Scope Z_scope.

Definition endless (c : list byte) : Prop := ~ In x0e c.

Lemma endless_suffix a b : endless (a ++ b) -> endless b.
Proof. apply absent_suffix. Qed.

Section bound.
Context (left : cursor) (cfg : config) (b : nat).
Notation weight := (SubroutineFacts.left b).

Definition tame (p : program) : Prop :=
  valid_program p /\ possible p /\ small b p /\ Forall endless (global p) /\ Forall endless (local p) /\
  inner endless (frames p).

Lemma tame_end p xs r : tame p -> ahead p xs (t2_bytes T2_EndChar ++ r) -> callers p = [].
Proof.
  intros (_ & _ & _ & _ & _ & I) (e & R & _). destruct (callers p) as [|c cs] eqn:C; [reflexivity|].
  exfalso. unfold inner, frames in I. rewrite C in I. cbn [removelast] in I. inversion I as [|? ? N _]; subst. apply N.
  rewrite R, !in_app_iff. right. left. cbn. auto.
Qed.

Lemma step_tame p s : tame p -> step cfg p = Ok s ->
  tame (match s with Yield _ q => q | Again q => q end) /\
  match s with Yield None q => callers q = callers p /\ (length (routine q) <= length (routine p))%nat | _ => True end.
Proof.
  intros T H. pose proof T as (V & P & S & G & L & I).
  pose proof (step_valid _ _ _ V H) as V'. pose proof (step_possible _ _ _ P H) as P'. pose proof (step_small _ _ _ b S H) as S'.
  pose proof (step_subs _ _ _ H) as [G' L']. cbn zeta in G', L'.
  assert (K : inner endless (frames (match s with Yield _ q => q | Again q => q end)) /\
    match s with Yield None q => callers q = callers p /\ (length (routine q) <= length (routine p))%nat | _ => True end).
  { destruct s as [[x|] q|q].
    - split; [|exact Logic.I]. eapply (inner_trace cfg endless p [x]); eauto using endless_suffix. eapply trace_emit; [exact H|constructor].
    - apply step_inv in H as [[R E]|(e & xs & o & r & E & R & H)]; [injection E as ->; auto|].
      apply execute_none in H as (-> & r' & U & ->).
      assert (C : callers p = []) by (eapply tame_end; [exact T|exists e; split; eauto]).
      cbn [callers loaded set_stack set_routine routine] in U. rewrite C in U. cbn in U. injection U as <-.
      unfold frames, SubroutineFacts.frames. cbn [callers loaded set_stack set_routine routine set_width set_frames]. split; [constructor|]. split; [auto|].
      rewrite R, !app_length. lia.
    - split; [|exact Logic.I]. eapply (inner_trace cfg endless p []); eauto using endless_suffix. eapply trace_again; [exact H|constructor]. }
  destruct K as [K1 K2]. split; [|exact K2]. unfold tame. rewrite G', L'. split; [destruct s as [[x|] q|q]; apply V'|]. repeat (split; [assumption|]). exact K1.
Qed.

Lemma step_weight d p s : tame p -> (length (callers p) <= d)%nat -> step cfg p = Ok s ->
  match s with
  | Yield (Some _) q => (length (callers q) <= d)%nat /\ (weight d q < weight d p)%nat
  | Yield None q => (length (callers q) <= d)%nat /\ (weight d q <= weight d p)%nat
  | Again q => (d < length (callers q))%nat \/ (length (callers q) <= d)%nat /\ (weight d q < weight d p)%nat
  end.
Proof.
  intros T D H. pose proof T as (_ & _ & S & _). pose proof (step_mass _ _ _ b (d - length (callers p)) S H) as M.
  destruct (step_tame _ _ T H) as [_ K]. unfold SubroutineFacts.left. destruct s as [[x|] q|q].
  - destruct M as [C M]. rewrite C. auto.
  - destruct K as [C K]. unfold frames, SubroutineFacts.frames. rewrite C. split; [exact D|]. cbn [mass]. apply Nat.add_le_mono_r, Nat.mul_le_mono_r, K.
  - destruct M as [[C M]|[[C M]|[C M]]].
    + right. rewrite C. auto.
    + destruct (Nat.lt_ge_cases d (length (callers q))) as [G|G]; auto. right. split; auto. apply M. lia.
    + right. split; [lia|]. replace (d - length (callers q))%nat with (Datatypes.S (d - length (callers p))) by lia. exact M.
Qed.

Lemma trace_weight d p q : trace cfg p [] q -> tame p -> (length (callers p) <= d)%nat ->
  (exists ops p', trace cfg p ops p' /\ (d < length (callers p'))%nat) \/
  tame q /\ (length (callers q) <= d)%nat /\ (weight d q <= weight d p)%nat.
Proof.
  intros T. remember [] as ops eqn:Eo. induction T as [p|p p1 ops q H T IH|]; intros Ta D; [right; auto| |discriminate].
  pose proof (step_weight d p _ Ta D H) as [W|[D1 W]]; cbn beta iota in *.
  - left. exists [], p1. split; [|exact W]. eapply trace_again; [exact H|constructor].
  - destruct (step_tame _ _ Ta H) as [Ta1 _]. destruct (IH Eo Ta1 D1) as [(ops' & p' & T' & W')|(Tq & Dq & Wq)].
    + left. exists ops', p'. split; [|exact W']. eapply trace_again; eauto.
    + right. split; [exact Tq|]. split; [exact Dq|]. lia.
Qed.

Lemma leaves_tame p k q : forward left -> value_left left 2 [x0c] = [] -> tame p -> step cfg p = Err k -> leaves left p q ->
  tame q /\ callers q = callers p /\ (length (routine q) < length (routine p))%nat.
Proof.
  intros Fw Z T H Le. pose proof T as (V & P & S & G & L & I). destruct (leaves_keeps _ _ _ Le V P) as (V' & P' & _ & G' & L').
  assert (K : callers q = callers p /\ exists t, t <> [] /\ routine p = t ++ routine q).
  { assert (A2 : forall (x : byte) u v, u ++ x :: v <> []) by (intros x [] v; discriminate).
    destruct Le as [p xs A|p xs b0 s u x A N U|p xs A|p xs b0 r A Cb F No|p xs b0 r A No|p xs o r A M|p xs r n c c' cs A E Cc|p xs o r st A Re];
      cbn [callers loaded set_stack set_routine routine set_stems set_frames]; [split; [reflexivity|]..| |split; [reflexivity|]].
    - exists (routine p). rewrite app_nil_r. split; [|reflexivity]. intros R. rewrite (step_empty cfg p R) in H. discriminate.
    - destruct A as (e & R & _). destruct (proj1 (Fw (Z.of_nat (length (s ++ u))) s)) as (t & E).
      exists (e ++ b0 :: t). split; [apply A2|]. rewrite R. rewrite E at 1. rewrite <- app_assoc. reflexivity.
    - rewrite Z. exists (routine p). rewrite app_nil_r. split; [|reflexivity]. intros R. rewrite (step_empty cfg p R) in H. discriminate.
    - destruct A as (e & R & _). exists (e ++ [b0]). split; [apply A2|]. rewrite R, <- app_assoc. reflexivity.
    - destruct A as (e & R & _). exists (e ++ [x0c; b0]). split; [apply A2|]. rewrite R, <- app_assoc. reflexivity.
    - destruct A as (e & R & _).
      destruct (proj2 (Fw ((declared_by o (loaded p xs r) + 7) mod 2 ^ 64 / 8) r)) as (t & E).
      exists (e ++ t2_bytes o ++ t). split.
      + intros Q. apply app_eq_nil in Q as [_ Q]. apply app_eq_nil in Q as [Q _]. exact (t2_bytes_not_nil o Q).
      + rewrite R. rewrite E at 1. rewrite <- !app_assoc. reflexivity.
    - rewrite (tame_end _ _ _ T A) in E. exfalso. destruct n as [|[|n]]; cbn in E; discriminate.
    - destruct A as (e & R & _). exists (e ++ t2_bytes o). split.
      + intros Q. apply app_eq_nil in Q as [_ Q]. exact (t2_bytes_not_nil o Q).
      + rewrite R, <- app_assoc. reflexivity. }
  destruct K as (C & t & Nt & R). split.
  - unfold tame. rewrite G', L'. unfold small. rewrite G', L'. repeat (split; [assumption|]).
    unfold inner, frames in *. rewrite C. destruct (callers p) as [|c cs]; [constructor|]. cbn [removelast] in *.
    inversion I as [|? ? N F]; subst. constructor; [|exact F]. rewrite R in N. eapply endless_suffix; eauto.
  - split; [exact C|]. rewrite R, app_length. destruct t; [congruence|]. cbn. lia.
Qed.

Lemma session_weight d p rs q : forward left -> value_left left 2 [x0c] = [] -> session left cfg p rs q -> tame p ->
  (length (callers p) <= d)%nat ->
  (exists rs' p' ops q', session left cfg p rs' p' /\ trace cfg p' ops q' /\ (d < length (callers q'))%nat) \/
  (length (filter fruitful rs) + weight d q <= weight d p)%nat.
Proof.
  intros Fw Z H. induction H as [p|fuel p x p' rs q H T IH|fuel p k p' rs q H T IH]; intros Ta D.
  - right. cbn. lia.
  - assert (N : nexts cfg p (Ok (x, p'))) by (apply (advancing_ok left); eauto). apply nexts_trace in N as (p1 & T1 & S1).
    destruct (trace_weight d p p1 T1 Ta D) as [(ops & p2 & T2 & W)|(Ta1 & D1 & W1)].
    { left. exists [], p, ops, p2. split; [constructor|]. auto. }
    destruct (step_tame _ _ Ta1 S1) as [Ta2 _]. pose proof (step_weight d _ _ Ta1 D1 S1) as W2.
    assert (D2 : (length (callers p') <= d)%nat) by (destruct x; apply W2).
    destruct (IH Ta2 D2) as [(rs' & p2 & ops & q' & S' & T' & W')|W'].
    + left. exists (Ok x :: rs'), p2, ops, q'. split; [eapply session_returned; eauto|auto].
    + right. destruct x as [y|]; cbn [filter fruitful length]; lia.
  - pose proof Ta as (V & P & _). apply advancing_err in H as H'; auto. destruct H' as (p1 & T1 & E1 & _ & Le).
    destruct (trace_weight d p p1 T1 Ta D) as [(ops & p2 & T2 & W)|(Ta1 & D1 & W1)].
    { left. exists [], p, ops, p2. split; [constructor|]. auto. }
    destruct (leaves_tame _ _ _ Fw Z Ta1 E1 Le) as (Ta2 & C2 & L2).
    destruct (IH Ta2 ltac:(rewrite C2; exact D1)) as [(rs' & p2 & ops & q' & S' & T' & W')|W'].
    + left. exists (Err k :: rs'), p2, ops, q'. split; [eapply session_failed; eauto|auto].
    + right. cbn [filter fruitful length].
      assert (W2 : (weight d p' < weight d p1)%nat).
      { unfold SubroutineFacts.left, SubroutineFacts.frames. rewrite C2. cbn [mass]. pose proof (pow_pos (S b) (d - length (callers p1)) ltac:(lia)). nia. }
      lia.
Qed.
End bound.

Lemma session_bound left cfg code g l b d rs q : forward left -> value_left left 2 [x0c] = [] ->
  Forall (fun c => (length c <= b)%nat) g -> Forall (fun c => (length c <= b)%nat) l ->
  Forall (fun c => ~ In x0e c) g -> Forall (fun c => ~ In x0e c) l ->
  session left cfg (new_program code g l) rs q ->
  (exists rs' p ops q', session left cfg (new_program code g l) rs' p /\ trace cfg p ops q' /\ (d < length (callers q'))%nat) \/
  (length (filter fruitful rs) <= length code * S b ^ d)%nat.
Proof.
  intros Fw Z Bg Bl Eg El H.
  destruct (session_weight left cfg b d _ _ _ Fw Z H) as [K|K]; [|cbn; lia|left; exact K|].
  - repeat split; auto; try constructor; try apply new_valid; try apply new_possible.
  - right. rewrite left_new in K. lia.
Qed.

(** ** Errors for ever *)

(** A subroutine that ends the character string and calls itself afterwards. *)
Definition persistent : program := new_program [x20; x0a] [] [[x0e; x20; x0a]].

Lemma persistent_again left cfg : advancing left cfg 2 persistent = (Err Other, persistent).
Proof. destruct cfg as [[] [] []]; vm_compute; reflexivity. Qed.

Lemma persistent_call cfg : exists p, step cfg persistent = Ok (Again p) /\ step cfg p = Err Other /\ length (callers p) = 1%nat.
Proof. destruct cfg as [[] [] []]; (eexists; split; [vm_compute; reflexivity|split; vm_compute; reflexivity]). Qed.

Lemma persistent_only left cfg rs p : session left cfg persistent rs p -> p = persistent.
Proof.
  intros H. remember persistent as p0 eqn:E0. revert E0. induction H as [p0|fuel p0 x p' rs q H T IH|fuel p0 k p' rs q H T IH]; intros ->; auto.
  - exfalso. assert (N : nexts cfg persistent (Ok (x, p'))) by (apply (advancing_ok left); eauto).
    apply nexts_trace in N as (p1 & T1 & S1). destruct (persistent_call cfg) as (p2 & C1 & C2 & _).
    inversion T1 as [? E|? p3 ? ? S2 T2|]; subst; [congruence|]. rewrite C1 in S2. injection S2 as <-.
    inversion T2 as [? E|? p3 ? ? S2 T3|]; subst; congruence.
  - enough (p' = persistent) as -> by (apply IH; reflexivity). assert (B : advancing left cfg 2 persistent = (Err k, p')).
    { destruct fuel as [|fuel]; [discriminate|]. cbn [advancing] in *. unfold andthen in *.
      pose proof (persistent_again left cfg) as A. cbn [advancing] in A. unfold andthen in A.
      destruct (round left cfg persistent) as [[[y|]|e|e|] p1]; try congruence.
      destruct fuel as [|fuel]; [discriminate|]. cbn [advancing] in *. unfold andthen in *.
      destruct (round left cfg p1) as [[[y|]|e|e|] p2]; try congruence. discriminate. }
    rewrite persistent_again in B. congruence.
Qed.

Lemma persists left cfg : exists code locals,
  (forall n, exists q, session left cfg (new_program code [] locals) (repeat (Err Other) n) q) /\
  forall rs p ops q, session left cfg (new_program code [] locals) rs p -> trace cfg p ops q -> (length (callers q) <= 1)%nat.
Proof.
  exists [x20; x0a], [[x0e; x20; x0a]]. split.
  - intros n. exists persistent. induction n as [|n IH]; [constructor|]. cbn [repeat].
    eapply session_failed; [apply persistent_again|exact IH].
  - intros rs p ops q H T. apply persistent_only in H as ->. destruct (persistent_call cfg) as (p2 & C1 & C2 & C3).
    inversion T as [? E|? p3 ? ? S2 T2|? ? ? ? ? S2]; subst; [cbn; lia| |congruence]. rewrite C1 in S2. injection S2 as <-.
    inversion T2 as [? E|? p3 ? ? S2 T3|? ? ? ? ? S2]; subst; [lia|congruence|congruence].
Qed.

(** Properties C08 to C13: operators and dictionary data. *)
From Coq Require Import Reals.
From Verif Require Import Base Float C1Number C1Operation T2Operation BaseFacts SpecNumber SpecRounding
  SpecOperation OperationFacts SpecT2Operator T2OperatorFacts.

(** C08. A code is accepted if and only if it is that of an operator, and every
    operator has its own code. *)
Theorem C08_operator_codes : forall (code : Z) (o : operator),
  operator_from code = Ok o <-> code = operator_code o.
Proof. exact operator_from_iff. Qed.
Print Assumptions C08_operator_codes.

Theorem C08_unknown_codes : forall code : Z,
  operator_from code = Err Other <-> forall o, code <> operator_code o.
Proof. exact operator_from_error. Qed.
Print Assumptions C08_unknown_codes.

Theorem C08_codes_distinct : forall a b : operator, operator_code a = operator_code b -> a = b.
Proof. exact operator_code_inj. Qed.
Print Assumptions C08_codes_distinct.

Theorem C08_type2_operator_codes : forall (code : Z) (o : t2_operator),
  t2_operator_from code = Ok o <-> code = t2_code o.
Proof. exact t2_operator_from_iff. Qed.
Print Assumptions C08_type2_operator_codes.

Theorem C08_type2_unknown_codes : forall code : Z,
  t2_operator_from code = Err Other <-> forall o, code <> t2_code o.
Proof. exact t2_operator_from_error. Qed.
Print Assumptions C08_type2_unknown_codes.

Theorem C08_type2_codes_distinct : forall a b : t2_operator, t2_code a = t2_code b -> a = b.
Proof. exact t2_code_inj. Qed.
Print Assumptions C08_type2_codes_distinct.

Example C08_case : operator_from (12 * 256 + 30) = Ok Op_ROS /\ operator_from 12 = Err Other
  /\ t2_operator_from (12 * 256 + 30) = Ok T2_Roll /\ t2_operator_from 0 = Err Other.
Proof. repeat split. Qed.

(** C09. *)
Theorem C09_defaults : forall o : operator,
  match specified_default o, operator_default o with
  | Some literals, Some numbers => Forall2 denotes literals numbers
  | None, None => True
  | _, _ => False
  end.
Proof. exact defaults_denote. Qed.
Print Assumptions C09_defaults.

Example C09_case : exists x, operator_default Op_BlueScale = Some [Real x] /\
  f32_leb (f32_of_i32 0) x = true /\ f32_leb x (f32_of_i32 1) = true.
Proof. eexists. split; [reflexivity|]. split; vm_compute; reflexivity. Qed.

(** C10. *)
Theorem C10_last_occurrence_wins : forall (e : list byte) (ops : list (operator * list number)),
  dictionary_encoding e ops ->
  exists m, read_operations e = Ok m /\
    (forall o v, map_get m o = Some v <-> last_occurrence ops o v) /\
    (forall o, map_get m o = None <-> forall v, ~ In (o, v) ops).
Proof. exact dictionary_reads. Qed.
Print Assumptions C10_last_occurrence_wins.

(** [391 Notice, 1 2 Private, 100 Notice]. *)
Definition sample_operations : list (operator * list number) :=
  [(Op_Notice, [Integer 391]); (Op_Private, [Integer 1; Integer 2]); (Op_Notice, [Integer 100])].
Definition sample_bytes : list byte := [xf8; x1b; x01; x8c; x8d; x12; xef; x01].
Example C10_case : dictionary_encoding sample_bytes sample_operations.
Proof.
  apply (each_cons _ [xf8; x1b; x01]).
  { exists [xf8; x1b]. split; [reflexivity|].
    apply (each_cons _ [xf8; x1b] _ []); [|constructor].
    apply (two_bytes_positive xf8 x1b). cbv; intuition discriminate. }
  apply (each_cons _ [x8c; x8d; x12]).
  { exists [x8c; x8d]. split; [reflexivity|].
    apply (each_cons _ [x8c] _ [x8d]).
    - apply (one_byte x8c). cbv; intuition discriminate.
    - apply (each_cons _ [x8d] _ []); [|constructor]. apply (one_byte x8d). cbv; intuition discriminate. }
  apply (each_cons _ [xef; x01] _ []); [|constructor].
  exists [xef]. split; [reflexivity|].
  apply (each_cons _ [xef] _ []); [|constructor]. apply (one_byte xef). cbv; intuition discriminate.
Qed.
Example C10_case_value : exists m, read_operations sample_bytes = Ok m /\
  map_get m Op_Notice = Some [Integer 100] /\ map_get m Op_Private = Some [Integer 1; Integer 2].
Proof. eexists. split; [vm_compute; reflexivity|]. split; reflexivity. Qed.

(** C11. [f] holds the operations that are complete before the cut, and [t] the
    beginning of the next one. *)
Theorem C11_dictionary_cut : forall (ops : list (operator * list number)) (e1 e2 : list byte),
  dictionary_encoding (e1 ++ e2) ops ->
  exists ops1 ops2 f t, ops = ops1 ++ ops2 /\ e1 = f ++ t /\
    dictionary_encoding f ops1 /\ dictionary_encoding (t ++ e2) ops2 /\
    (t = [] \/ exists op u, hd_error ops2 = Some op /\ u <> [] /\ operation_encoding (t ++ u) op) /\
    exists m, read_operations e1 = Ok m /\ read_operations f = Ok m /\
      forall o v, map_get m o = Some v <-> last_occurrence ops1 o v.
Proof. exact dictionary_cut. Qed.
Print Assumptions C11_dictionary_cut.

Example C11_case : dictionary_encoding ([xf8; x1b; x01; x8c; x8d] ++ [x12; xef; x01]) sample_operations.
Proof. exact C10_case. Qed.

(** C12. The bytes are accepted if and only if they are operations followed by the
    beginning of one. *)
Theorem C12_accepted : forall s : list byte,
  (exists m, read_operations s = Ok m) <->
  exists e ops t, s = e ++ t /\ dictionary_encoding e ops /\ cut_operation t.
Proof. exact dictionary_accepted. Qed.
Print Assumptions C12_accepted.

Theorem C12_rejected : forall s : list byte,
  read_operations s = Err Other <->
  ~ exists e ops t, s = e ++ t /\ dictionary_encoding e ops /\ cut_operation t.
Proof. exact dictionary_rejected. Qed.
Print Assumptions C12_rejected.

(** The result depends on the complete operations only. *)
Theorem C12_result : forall s m e ops t,
  read_operations s = Ok m -> s = e ++ t -> dictionary_encoding e ops -> cut_operation t ->
  (forall o v, map_get m o = Some v <-> last_occurrence ops o v) /\
  (forall o, map_get m o = None <-> forall v, ~ In (o, v) ops).
Proof. exact dictionary_result. Qed.
Print Assumptions C12_result.

(** What is accepted and the result, at once. *)
Theorem C12_table : forall (s : list byte) (t : operations),
  read_operations s = Ok t <-> dictionary_data s t.
Proof. exact read_operations_iff. Qed.
Print Assumptions C12_table.

Theorem C12_no_panic_no_loop : forall s : list byte, settled (read_operations s).
Proof. exact read_operations_settled. Qed.
Print Assumptions C12_no_panic_no_loop.

Example C12_case_cut : cut_operation [x8c; x1d; x00] /\ cut_operation [x8c; x0c].
Proof.
  assert (E : each operand_encoding [x8c] [Integer 1]).
  { apply (each_cons _ [x8c] _ []); [|constructor]. apply (one_byte x8c). cbv; intuition discriminate. }
  split.
  - exists [x8c], [Integer 1], [x1d; x00]. repeat split; auto. right. right. left. split; [discriminate|].
    eexists [x00; x00; x00], _. split; [discriminate|]. apply (five_bytes x00 x00 x00 x00).
  - exists [x8c], [Integer 1], [x0c]. repeat split; auto.
Qed.
Example C12_case_rejected : read_operations [x8c; x01; x16; x01] = Err Other.
Proof. reflexivity. Qed.

(** C13. *)
Theorem C13_lookup : forall (e : list byte) (ops : list (operator * list number)) (m : operations),
  dictionary_encoding e ops -> read_operations e = Ok m ->
  (forall o v, last_occurrence ops o v ->
     operations_get m o = Some v /\ get_single m o = nth_error v 0 /\
     get_double m o = match v with a :: b :: _ => Some (a, b) | _ => None end) /\
  (forall o, (forall v, ~ In (o, v) ops) ->
     operations_get m o = operator_default o /\
     get_single m o = match operator_default o with Some v => nth_error v 0 | None => None end /\
     get_double m o =
       match operator_default o with Some (a :: b :: _) => Some (a, b) | _ => None end).
Proof. exact lookup_reads. Qed.
Print Assumptions C13_lookup.

(** The operands are those written last, or else the default of the specification. *)
Theorem C13_operands : forall (e : list byte) (ops : list (operator * list number)) (m : operations)
  (o : operator) (v : list number),
  dictionary_encoding e ops -> read_operations e = Ok m ->
  (operations_get m o = Some v <->
   (last_occurrence ops o v \/
    (forall w, ~ In (o, w) ops) /\
    exists literals, specified_default o = Some literals /\ Forall2 denotes literals v)).
Proof. exact lookup_operands. Qed.
Print Assumptions C13_operands.

Example C13_case : exists m, read_operations sample_bytes = Ok m /\
  get_double m Op_Private = Some (Integer 1, Integer 2) /\ get_single m Op_CharStringType = Some (Integer 2).
Proof. eexists. split; [vm_compute; reflexivity|]. split; reflexivity. Qed.

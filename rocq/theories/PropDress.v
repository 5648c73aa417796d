(** PropDress: property C88. *)
From Coq Require Import Permutation.
From Verif Require Import Base Float C1Number C1Operation C1Index C1Glyphs C1FontSet SpecNumber SpecOperation SpecDress FontSetSamples DressFacts.
Local Open Scope list_scope.
Local Open Scope Z_scope.

(** C88. Dictionaries can be overwritten, if they say the same about where the rest is: the font set that is read
    has the new dictionaries, and nothing else has changed. *)
Theorem C88_dressed : forall (cfg : config) (tape tape' : list byte) (p : Z) (f g : font_set),
  0 <= p -> Z.of_nat (length tape) < 2 ^ 63 -> Z.of_nat (length tape') < 2 ^ 63 ->
  read_font_set cfg tape p = Ok f ->
  (forall q, font_set_rest (overflow_checks cfg) tape p f q -> same_byte tape tape' q) ->
  font_set_dressed (overflow_checks cfg) tape tape' p f g -> read_font_set cfg tape' p = Ok g.
Proof. exact font_set_dressed_read. Qed.
Print Assumptions C88_dressed.

(** If every operator occurs once, neither the order of the operations nor the encoding of the operands matters. *)
Theorem C88_order : forall (e e' : list byte) (ops ops' : list (operator * list number)),
  dictionary_encoding e ops -> dictionary_encoding e' ops' -> Permutation ops ops' -> NoDup (map fst ops) ->
  exists m m', read_operations e = Ok m /\ read_operations e' = Ok m' /\
    (forall o, operations_get m o = operations_get m' o /\ get_single m o = get_single m' o /\
       get_double m o = get_double m' o /\ map_contains m o = map_contains m' o) /\
    forall links, linked links m m'.
Proof. exact order_read. Qed.
Print Assumptions C88_order.

(** The operations of the top dictionary in another order, and another private dictionary. *)
Example C88_case : forall cfg, read_font_set cfg cid_dressed 0 = Ok cid_dressed_value.
Proof.
  intros cfg. apply (C88_dressed cfg cid_keyed cid_dressed 0 cid_keyed_value).
  - lia.
  - vm_compute. reflexivity.
  - vm_compute. reflexivity.
  - destruct cfg as [[] [] []]; vm_compute; reflexivity.
  - intros q H. apply cid_dressed_rest in H. apply cid_dressed_same, H.
  - apply cid_dressed_case.
Qed.
(** 1 2 Private, 100 Notice, and 100 Notice with five bytes, 1 2 Private. *)
Example C88_case_order :
  dictionary_encoding [x8c; x8d; x12; xef; x01] [(Op_Private, [Integer 1; Integer 2]); (Op_Notice, [Integer 100])] /\
  dictionary_encoding [x1d; x00; x00; x00; x64; x01; x8c; x8d; x12] [(Op_Notice, [Integer 100]); (Op_Private, [Integer 1; Integer 2])].
Proof.
  assert (P : operation_encoding [x8c; x8d; x12] (Op_Private, [Integer 1; Integer 2])).
  { exists [x8c; x8d]. split; [reflexivity|]. apply (each_cons _ [x8c] _ [x8d]).
    - apply (one_byte x8c). cbv; intuition discriminate.
    - apply (each_cons _ [x8d] _ []); [|constructor]. apply (one_byte x8d). cbv; intuition discriminate. }
  split.
  - apply (each_cons _ [x8c; x8d; x12]); [exact P|]. apply (each_cons _ [xef; x01] _ []); [|constructor].
    exists [xef]. split; [reflexivity|]. apply (each_cons _ [xef] _ []); [|constructor].
    apply (one_byte xef). cbv; intuition discriminate.
  - apply (each_cons _ [x1d; x00; x00; x00; x64; x01]); [|apply (each_cons _ [x8c; x8d; x12] _ []); [exact P|constructor]].
    exists [x1d; x00; x00; x00; x64]. split; [reflexivity|]. apply (each_cons _ [x1d; x00; x00; x00; x64] _ []); [|constructor].
    apply (five_bytes x00 x00 x00 x64).
Qed.

(** SpecIndex: INDEX data, after "The Compact Font Format Specification" (Adobe
    technical note 5176), section 5. *)
From Verif Require Import Base C1Index.
From Verif Require Export SpecBytes.

(** The offsets of consecutive elements, the first one being given, and the offset
    right after the last. *)
Fixpoint offsets_of (first : Z) (chunks : list (list byte)) : list Z :=
  first :: match chunks with
           | [] => []
           | c :: rest => offsets_of (first + Z.of_nat (length c)) rest
           end.

(** Table 7: the count, the offset size, the offsets, and the elements; an index
    with no elements is the count alone. *)
Definition index_bytes (size : Z) (chunks : list (list byte)) : list byte :=
  match chunks with
  | [] => [x00; x00]
  | _ :: _ =>
      be_bytes 2 (Z.of_nat (length chunks)) ++ [zb size]
      ++ flat_map (be_bytes (Z.to_nat size)) (offsets_of 1 chunks)
      ++ concat chunks
  end.

(** The count is a 16-bit integer, and the offsets fit in the announced size. *)
Definition index_fits (size : Z) (chunks : list (list byte)) : Prop :=
  Z.of_nat (length chunks) < 2 ^ 16 /\
  (chunks = [] \/ 1 <= size <= 4 /\ 1 + Z.of_nat (length (concat chunks)) < 256 ^ size).

(** What is to be reported about an index. *)
Definition index_value (size : Z) (chunks : list (list byte)) : index :=
  match chunks with
  | [] => {| count := 0; offset_size := 0; offsets := []; data := [] |}
  | _ :: _ =>
      {| count := Z.of_nat (length chunks); offset_size := size;
         offsets := offsets_of 1 chunks; data := chunks |}
  end.

Definition index_encoding (e : list byte) (x : index) : Prop :=
  exists size chunks, index_fits size chunks /\
    e = index_bytes size chunks /\ x = index_value size chunks.

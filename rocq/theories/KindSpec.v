(** Specifications for indexes over tries. *)
From Coq Require Import List NArith Sorted.
From Verif Require Import Base RecordModel StructModel ExtModel Spec KindModel.
Import ListNotations.

(** Calls that append a record or a tombstone to the buffer. *)
Definition appending {R : Type} (C : cfg) (ops : list (op R)) : Prop :=
  c_del C = TOMBSTONE \/ insert_only ops.

(** The lexicographic order of strings. *)
Inductive slt : list N -> list N -> Prop :=
| slt_nil : forall x a, slt [] (x :: a)
| slt_head : forall x y a b, (x < y)%N -> slt (x :: a) (y :: b)
| slt_tail : forall x a b, slt a b -> slt (x :: a) (x :: b).

(** A trie over distinct keys in ascending order: the lookup is exact. *)
Definition search_exact (search : list (list N) -> list N -> option nat) : Prop :=
  forall keys k, StronglySorted slt keys ->
    match search keys k with
    | Some i => nth_error keys i = Some k
    | None => ~ In k keys
    end.

Definition has_str (k : list N) (r : crec) : bool :=
  if list_eq_dec N.eq_dec (c_str r) k then true else false.

(** No key lies at the address of the empty literal. *)
Definition no_blank (literal : nat) (ops : list (op crec)) : Prop :=
  forall o, In o ops -> c_addr (op_rec o) <> literal.

(** No two inserted records have the same key. *)
Definition distinct_keys (ops : list (op crec)) : Prop := NoDup (map c_str (inserted ops)).

(** The key that is looked up lies at the address [a]: a record has this address if and
    only if it has this key. *)
Definition at_address (a : nat) (k : list N) (ops : list (op crec)) : Prop :=
  forall r, In r (inserted ops) -> (c_addr r = a <-> c_str r = k).

(** A search by scanning the vector. *)
Fixpoint first_of (keys : list (list N)) (k : list N) : option nat :=
  match keys with
  | [] => None
  | x :: keys' => if list_eq_dec N.eq_dec x k then Some 0 else option_map S (first_of keys' k)
  end.

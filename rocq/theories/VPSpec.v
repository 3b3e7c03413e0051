(** Specification of nearest neighbours, independent of the tree and of the queues. *)
From Coq Require Import List Arith Permutation.
Import ListNotations.

(** [out] are [k] of the elements of [all] (all of them if there are fewer), and no
    element left out is closer than one of [out]. *)
Definition nearest {A : Type} (closer : A -> A -> bool) (k : nat) (all out : list A) : Prop :=
  exists rest,
    Permutation all (out ++ rest) /\
    length out = min k (length all) /\
    forall x y, In x out -> In y rest -> closer x y = true.

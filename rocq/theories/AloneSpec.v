(** Histories after which the records that should be stored are determined. *)
From Coq Require Import List Arith.
From Verif Require Import Base RecordModel MergeModel StructModel ExtModel Spec.
Import ListNotations.

(** Inserts only, or inserts of different records and erases by tagging. *)
Definition settled {R : Type} {RO : RecOps R} (B : builders R) (C : cfg) (ops : list (op R)) : Prop :=
  insert_only ops \/ (c_del C = TAGGING /\ distinct_inserts ops /\ bsm_safe B C ops).

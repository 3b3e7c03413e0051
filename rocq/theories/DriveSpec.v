(** What C82 says about the histories of the benchmarks. *)
From Coq Require Import List Arith ZArith NArith Lia Bool.
From Verif Require Import Base RecordModel MergeModel StructModel ExtModel Spec.
Import ListNotations.

Section DS.
Context {R : Type} {RO : RecOps R}.

(** The records erased by a history, in order. *)
Definition erased (ops : list (op R)) : list R :=
  flat_map (fun o => match o with Ins _ => [] | Del r => [r] end) ops.

(** [n] consecutive elements of a list, from [i]. *)
Definition slice {A} (i n : nat) (l : list A) : list A := firstn n (skipn i l).

(** Every erase is at once preceded by an insert. *)
Definition after_insert (ops : list (op R)) : Prop :=
  forall pre r post, ops = pre ++ Del r :: post -> exists pre' x, pre = pre' ++ [Ins x].

(** Every record that a history erases is among [old] or was inserted before. *)
Definition erases_present (old : list R) (ops : list (op R)) : Prop :=
  forall pre r post, ops = pre ++ Del r :: post -> In r (old ++ inserted pre).

(** No two positions of a list hold equal records. *)
Definition all_different (recs : list R) : Prop :=
  forall i j a b, nth_error recs i = Some a -> nth_error recs j = Some b -> req a b = true -> i = j.
End DS.

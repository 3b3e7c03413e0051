(** How the benchmarks fill an index (benchmarks/include/standard_benchmarks.h).

    Simplifications: the index is used by one thread and its scheduler is the serial
    one; the random numbers are an arbitrary stream of outcomes of the comparison with
    delete_proportion; progress output, sleeping and the global count of the deletes are
    not modelled. *)
From Coq Require Import List Arith ZArith NArith Lia Bool.
From Verif Require Import Base RecordModel MergeModel StructModel ExtModel.
Import ListNotations.

Section Drive.
Context {R : Type} {RO : RecOps R}.
Variable B : builders R.
Variable C : cfg.
(** The arguments records, to_delete and delete_records. *)
Variable recs : list R.
Variable dels : list nat.
Variable deleting : bool.
(** The [c]-th random number is at most delete_proportion. *)
Variable coin : nat -> bool.

(** standard_benchmarks.h:143-146, 159-161: a call is repeated until it returns a number
    other than 0. *)
Fixpoint retry (fuel : nat) (e : ext R) (o : op R) : res (ext R) :=
  match fuel with
  | O => Fail FLoop
  | S fuel' => do (e1, n) <- step B C e o; if n =? 0 then retry fuel' e1 o else Ok e1
  end.

(** standard_benchmarks.h:134-166: [n] iterations from [i]; [di] is delete_idx, [c]
    counts the random numbers.  to_delete is indexed with no comparison with its size. *)
Fixpoint drive (fuel n i di c : nat) (e : ext R) : res (ext R * nat) :=
  match n with
  | O => Ok (e, di)
  | S n' =>
      do r <- nth_res i recs;
      do e1 <- retry fuel e (Ins r);
      if deleting then
        if coin c then
          do j <- nth_res di dels;
          if j <=? i then
            do x <- nth_res j recs;
            do e2 <- retry fuel e1 (Del x);
            drive fuel n' (S i) (S di) (S c) e2
          else drive fuel n' (S i) di (S c) e1
        else drive fuel n' (S i) di (S c) e1
      else drive fuel n' (S i) di c e1
  end.

(** standard_benchmarks.h:128-169; the random numbers start at [c]. *)
Definition insert_records (fuel start stop di c : nat) (e : ext R) : res (ext R * nat) :=
  drive fuel (stop - start) start di c e.

End Drive.

(** The benchmark program that inserts in batches (benchmarks/insert_tail_latency.cpp).

    Simplifications: times are left out; the numbers of records that are printed are kept.
    The thread that inserts is the only one, and the scheduler is the serial one.  The
    program passes the record type as a template argument, as in an earlier version of the
    index; it is read with the present one. *)
From Coq Require Import List Arith ZArith Bool.
From Verif Require Import Base RecordModel MergeModel StructModel ExtModel DriveModel.
Import ListNotations.

Section Batch.
Context {R : Type} {RO : RecOps R}.
Variable B : builders R.
Variable C : cfg.
(** insert_tail_latency.cpp:32: the record with key and value [i]. *)
Variable mk : Z -> R.

(** insert_tail_latency.cpp:31-43: [m] records from [i] on. *)
Fixpoint batch (fuel m i : nat) (e : ext R) : res (ext R) :=
  match m with
  | O => Ok e
  | S m' => do e1 <- retry B C fuel e (Ins (mk (Z.of_nat i))); batch fuel m' (S i) e1
  end.

(** insert_tail_latency.cpp:29-50: batches of [k] from [i] on while [i] is below [n]; at
    most [steps] of them are considered. *)
Fixpoint batches (fuel steps n k i : nat) (e : ext R) : res (ext R * list nat) :=
  match steps with
  | O => Fail FLoop
  | S steps' =>
      if i <? n then
        do e1 <- batch fuel k i e;
        do (e2, out) <- batches fuel steps' n k (i + k) e1;
        Ok (e2, i + k :: out)
      else Ok (e, [])
  end.

(** insert_tail_latency.cpp:56, 66, 73: the latencies are divided by [n], an integer. *)
Definition insert_tail_latency (fuel steps n k : nat) : res (ext R * list nat) :=
  do e0 <- ext_new C;
  do (e, out) <- batches fuel steps n k 0 e0;
  if n =? 0 then Fail FOob else Ok (e, out).
End Batch.

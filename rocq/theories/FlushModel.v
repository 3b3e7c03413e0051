(** Successive reconstructions on their own: the versions of the structure that the
    epochs hold one after the other.  Under the background scheduler a reconstruction
    flushes whatever the buffer holds when it takes its view, so the flushes have any
    size up to the high watermark, not only the low watermark. *)
From Coq Require Import List Arith ZArith NArith Lia Bool.
From Verif Require Import Base RecordModel BufferModel MergeModel StructModel ExtModel.
Import ListNotations.

Section Flush.
Context {R : Type} {RO : RecOps R}.
Variable B : builders R.
Variable C : cfg.

(** What a reconstruction flushes: the ring of the buffer and a view of it
    (DynamicExtension.h:580-589). *)
Definition batch : Type := (list (wrapped R) * view)%type.

(** One reconstruction after the other, each on a copy of the structure of the epoch
    before it (DynamicExtension.h:498-514 and 557-607). *)
Fixpoint flush_all (st : structure R) (bs : list batch) : res (structure R) :=
  match bs with
  | [] => Ok st
  | (d, v) :: bs' =>
      do st' <- reconstruct_struct B C (st_copy st) d v;
      flush_all st' bs'
  end.

End Flush.
Arguments batch R : clear implicits.

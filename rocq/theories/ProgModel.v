(** The benchmark programs from the data file to the filled index
    (benchmarks/vldb/irs_bench.cpp; pgm_bench.cpp, ts_bench.cpp and vptree_bench.cpp have
    the same lines).

    Simplifications: those of FileModel.v and DriveModel.v; the number of positions to
    delete and the number of records for the warm-up are arguments (the sources compute
    them from n in floating point); await_next_epoch is left out, since without a
    reconstruction in progress it returns at once (DynamicExtension.h:352-357). *)
From Coq Require Import List Arith ZArith NArith Lia Bool.
From Verif Require Import Base RecordModel MergeModel StructModel ExtModel FileModel DriveModel.
Import ListNotations.

Section Prog.
(** The [c]-th random number is at most delete_proportion. *)
Variable coin : nat -> bool.

(** irs_bench.cpp:44-50: the positions that are stored and the number of random numbers
    drawn; [room] entries are left, [i] is the next of [n] positions. *)
Fixpoint picks (room n i c : nat) : list nat * nat :=
  match n with
  | O => ([], c)
  | S n' =>
      match room with
      | O => ([], c)
      | S room' =>
          if coin c then let '(js, c') := picks room' n' (S i) (S c) in (i :: js, c')
          else picks room n' (S i) (S c)
      end
  end.

(** to_delete: the entries that are not assigned are 0. *)
Definition to_delete (size : nat) (js : list nat) : list nat := js ++ repeat 0 (size - length js).

Variable B : builders kv.
Variable C : cfg.

(** irs_bench.cpp:40-50, 59-68, for a file [f] of keys with [k] bytes. *)
Definition bench_fill (k : nat) (key_of : N -> Z) (fuel n size warmup : nat) (f : list N) : res (ext kv * nat) :=
  do e0 <- ext_new C;
  do recs <- read_sosd_file k key_of n f;
  let '(js, c) := picks size (length recs) 0 0 in
  let dels := to_delete size js in
  do (e1, d1) <- insert_records B C recs dels false coin fuel 0 warmup 0 c e0;
  insert_records B C recs dels true coin fuel warmup (length recs) d1 c e1.
End Prog.

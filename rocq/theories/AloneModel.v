(** Queries of one shard without an index around it: run_static_queries of
    benchmarks/include/standard_benchmarks.h, which the benchmarks call on static
    structures. *)
From Coq Require Import List Arith ZArith NArith Bool.
From Verif Require Import Base RecordModel MergeModel QueryModel VPModel SampleModel.
Import ListNotations.

Section Alone.
Context {R : Type} {RO : RecOps R}.

(** standard_benchmarks.h:105-126 with rangequery.h:47-55, 67-102: preprocessing, an empty
    distribute_query, and the query of the shard. *)
Definition alone_rq {KO : KeyOps R} (lbf : list (wrapped R) -> Z -> res nat) (l u : Z) (s : shard R)
  : res (list (wrapped R)) := rq_local lbf l u s.

(** The same with rangecount.h:53-62, 72-119. *)
Definition alone_rc {KO : KeyOps R} (lbf : list (wrapped R) -> Z -> res nat) (l u : Z) (s : shard R)
  : res (list (nat * nat)) := rc_local lbf l u s.

(** The same with pointlookup.h:46-50, 68-78. *)
Definition alone_pl (plf : list (wrapped R) -> res (option (wrapped R))) (s : shard R)
  : res (list (wrapped R)) := pl_local plf s.

(** The same with irs.h:56-72, 105-111 and 166-187: without a buffer query the one shard
    gets all [n] samples. *)
Definition alone_irs {KO : KeyOps R} (rng : nat -> nat) (lbf ubf : list (wrapped R) -> Z -> res nat)
    (n : nat) (l u : Z) (s : shard R) : res (list (wrapped R)) :=
  do q <- irs_preproc lbf ubf l u (s_data s);
  irs_local_query rng n 0 (s_data s) q.

(** The same with wss.h:95-100 and 133-148. *)
Definition alone_wss (rweight : R -> nat) (wsample : list nat -> nat -> nat) (n : nat) (s : shard R)
  : res (list (wrapped R)) := wss_local_query rweight wsample n 0 (s_data s).

(** The same with knn.h:69-86; the tree is that of the shard (see [vp_trees]). *)
Definition alone_knn {D : Type} {DO : DistOps D} {MO : MetricOps R D} (leafsz : nat)
    (pop : R -> list (wrapped R) -> option (wrapped R * list (wrapped R))) (rng : nat -> nat)
    (p : R) (k : nat) (s : shard R) : res (list (wrapped R)) :=
  do t <- vp_build leafsz rng (s_data s);
  vp_search pop t p k.

End Alone.

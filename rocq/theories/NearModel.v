(** The benchmark programs for nearest neighbours, from their files to the answers
    (benchmarks/vldb/vptree_bench.cpp and vptree_bench_alt.cpp).

    Simplifications: those of ProgModel.v; times, memory usages and printing are left out,
    and the answers, which the programs drop, are kept.  [mk] makes the record with the
    given components. *)
From Coq Require Import List Arith ZArith NArith Bool.
From Verif Require Import Base RecordModel MergeModel StructModel ExtModel VPModel KindModel AloneModel DriveModel FileModel ProgModel.
Import ListNotations.

Section Near.
Context {R : Type} {RO : RecOps R} {D : Type} {DO : DistOps D} {MO : MetricOps R D}.
Variable leafsz : nat.
Variable pop : R -> list (wrapped R) -> option (wrapped R * list (wrapped R)).
(** The random numbers that the trees of the index, and the static one, are built with. *)
Variable rng : nat -> nat -> nat.
Variable srng : nat -> nat.

(** standard_benchmarks.h:29-30, 62-65 with knn::Query: one query after the other. *)
Fixpoint run_nearest (e : ext R) (qs : list (R * nat)) : res (ext R * list (list R)) :=
  match qs with
  | [] => Ok (e, [])
  | (p, k) :: qs' =>
      do (e1, out) <- knn leafsz pop rng e p k;
      do (e2, outs) <- run_nearest e1 qs';
      Ok (e2, out :: outs)
  end.

(** standard_benchmarks.h:105-126 with knn::Query. *)
Definition static_nearest (s : shard R) (qs : list (R * nat)) : res (list (list (wrapped R))) :=
  map_res (fun q => alone_knn leafsz pop srng (fst q) (snd q) s) qs.

Variable coin : nat -> bool.
Variable C : cfg.

(** vptree_bench.cpp:41, 47-54, 58-93 on the records and queries that were read; dividing
    by queries.size() is not defined for 0. *)
Definition bench_nearest (fuel size warmup : nat) (recs : list R) (qs : list (R * nat))
  : res (list (list R) * list (list (wrapped R))) :=
  do e0 <- ext_new C;
  let '(js, c) := picks coin size (length recs) 0 0 in
  let dels := to_delete size js in
  do (e1, d1) <- insert_records vp_shards C recs dels false coin fuel 0 warmup 0 c e0;
  do (e, d) <- insert_records vp_shards C recs dels true coin fuel warmup (length recs) d1 c e1;
  do (e2, outs) <- run_nearest e qs;
  do _ <- match qs with [] => Fail FOob | _ => Ok tt end;
  do (e3, s) <- create_static_structure vp_shards e2;
  do sts <- static_nearest s qs;
  Ok (outs, sts).

(** vptree_bench.cpp:44-56: records with [dim] components, [k] neighbours for each query;
    [f] is the data file, [g] the query file. *)
Definition text_nearest {V : Type} (atof : list N -> V) (mk : list V -> R) (dim k n fuel size warmup : nat) (f g : list N)
  : res (list (list R) * list (list (wrapped R))) :=
  let recs := map mk (read_vector_file atof dim n f) in
  do qs <- read_knn_queries atof dim k g;
  bench_nearest fuel size warmup recs (map (fun q => (mk (fst q), snd q)) qs).

(** vptree_bench_alt.cpp:44-56; at most [m] queries are read. *)
Definition binary_nearest (mk : list N -> R) (dim k m n fuel size warmup : nat) (f g : list N)
  : res (list (list R) * list (list (wrapped R))) :=
  do ps <- read_binary_vector_file dim n f;
  do qs <- read_binary_knn_queries dim k m g;
  bench_nearest fuel size warmup (map mk ps) (map (fun q => (mk (fst q), snd q)) qs).
End Near.

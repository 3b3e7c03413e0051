(** The benchmark programs that count, from their files to the answers
    (benchmarks/vldb/pgm_bench.cpp; ts_bench.cpp has the same lines).

    Simplifications: those of ProgModel.v; times, throughputs, memory usages and printing
    are left out.  The answers, which the programs drop, are kept. *)
From Coq Require Import List Arith ZArith NArith Bool.
From Verif Require Import Base RecordModel MergeModel StructModel ExtModel QueryModel AloneModel FileModel ProgModel.
Import ListNotations.

Section Tour.
(** The shards' get_lower_bound. *)
Variable lbf : list (wrapped kv) -> Z -> res nat.

(** standard_benchmarks.h:29-30, 62-65 with rc::Query: one query after the other. *)
Fixpoint run_counts (e : ext kv) (qs : list (Z * Z)) : res (ext kv * list nat) :=
  match qs with
  | [] => Ok (e, [])
  | (l, u) :: qs' =>
      do (e1, n) <- range_count lbf e l u;
      do (e2, ns) <- run_counts e1 qs';
      Ok (e2, n :: ns)
  end.

(** standard_benchmarks.h:105-126 with rc::Query. *)
Definition static_counts (s : shard kv) (qs : list (Z * Z)) : res (list (list (nat * nat))) :=
  map_res (fun q => alone_rc lbf (fst q) (snd q) s) qs.

(** pgm_bench.cpp:76, 84: the time is divided by queries.size(); dividing by 0 is not
    defined. *)
Definition per_query (qs : list (Z * Z)) : res unit :=
  match qs with [] => Fail FOob | _ => Ok tt end.

Variable coin : nat -> bool.
Variable B : builders kv.
Variable C : cfg.
Context {V : Type}.
Variable scan : list N -> option (V * list N).
Variable close : V -> bool.

(** pgm_bench.cpp:42-84 on the data file [f] and the query file [g]; the bounds of the
    queries are uint64_t. *)
Definition bench_counts (fuel qfuel n size warmup : nat) (f g : list N)
  : res (list nat * list (list (nat * nat))) :=
  do qs <- read_range_queries scan close qfuel g;
  do (e, d) <- bench_fill coin B C 8 Z.of_N fuel n size warmup f;
  let zs := map (fun q => (Z.of_N (fst q), Z.of_N (snd q))) qs in
  do (e1, ns) <- run_counts e zs;
  do _ <- per_query zs;
  do (e2, s) <- create_static_structure B e1;
  do cs <- static_counts s zs;
  Ok (ns, cs).
End Tour.

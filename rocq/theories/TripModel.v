(** The benchmark program that samples, from its files to the samples
    (benchmarks/vldb/irs_bench.cpp).

    Simplifications: those of TourModel.v; the random numbers that a query draws, and the
    choices of its alias structures, are those of its position in the list of queries. *)
From Coq Require Import List Arith ZArith NArith Bool.
From Verif Require Import Base RecordModel MergeModel StructModel ExtModel QueryModel SampleModel AloneModel FileModel
  ProgModel TourModel.
Import ListNotations.

Section Trip.
Variable rng : nat -> nat -> nat.
Variable alias : nat -> list nat -> nat -> nat.
(** The shards' get_lower_bound and get_upper_bound. *)
Variables lbf ubf : list (wrapped kv) -> Z -> res nat.
(** Bounds the rounds of a query (a query that needs more never ends); the template
    parameter REJECTION; sample_size. *)
Variable rounds : nat.
Variable rej : bool.
Variable size : nat.

(** standard_benchmarks.h:29-30, 62-65 with irs::Query; the first query is number [i]. *)
Fixpoint run_samples (i : nat) (e : ext kv) (qs : list (Z * Z)) : res (ext kv * list (list kv)) :=
  match qs with
  | [] => Ok (e, [])
  | (l, u) :: qs' =>
      do (e1, out) <- range_sample (rng i) (alias i) lbf ubf rounds rej size l u e;
      do (e2, outs) <- run_samples (S i) e1 qs';
      Ok (e2, out :: outs)
  end.

(** standard_benchmarks.h:105-126 with irs::Query. *)
Fixpoint static_samples (i : nat) (s : shard kv) (qs : list (Z * Z)) : res (list (list kv)) :=
  match qs with
  | [] => Ok []
  | (l, u) :: qs' =>
      do ws <- alone_irs (rng i) lbf ubf size l u s;
      do outs <- static_samples (S i) s qs';
      Ok (map wrec ws :: outs)
  end.

Variable coin : nat -> bool.
Variable B : builders kv.
Variable C : cfg.
Context {V : Type}.
Variable scan : list N -> option (V * list N).
Variable close : V -> bool.

(** irs_bench.cpp:40-89 on the data file [f] and the query file [g]. *)
Definition bench_samples (fuel qfuel n dels warmup : nat) (f g : list N) : res (list (list kv) * list (list kv)) :=
  do qs <- read_range_queries scan close qfuel g;
  do (e, d) <- bench_fill coin B C 8 Z.of_N fuel n dels warmup f;
  let zs := map (fun q => (Z.of_N (fst q), Z.of_N (snd q))) qs in
  do (e1, outs) <- run_samples 0 e zs;
  do _ <- per_query zs;
  do (e2, s) <- create_static_structure B e1;
  do sts <- static_samples (length zs) s zs;
  Ok (outs, sts).
End Trip.

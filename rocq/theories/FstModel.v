(** The benchmark program for point lookups of strings, from its file to the answers
    (benchmarks/vldb/fst_bench.cpp).

    Simplifications: those of ProgModel.v; times, memory usages and printing are left out,
    and the answers, which the program drops, are kept. *)
From Coq Require Import List Arith ZArith NArith Bool.
From Verif Require Import Base RecordModel MergeModel StructModel ExtModel QueryModel KindModel AloneModel DriveModel FileModel ProgModel.
Import ListNotations.

Section Word.
Variable qlt : qorder crec.
Variable literal : nat.
Variable search : list (list N) -> list N -> option nat.
(** The address that the [i]-th string is stored at. *)
Variable addr : nat -> nat.

(** fst_bench.cpp:50-53: the records of the strings from the [i]-th on. *)
Fixpoint word_recs (i : nat) (ss : list (list N)) : list crec :=
  match ss with
  | [] => []
  | s :: ss' => CRec s (addr i) (Z.of_nat i) :: word_recs (S i) ss'
  end.

(** fst_bench.cpp:48, file_util.h:43-54: each query has the pointer to a string that is
    chosen at random; the string and its address. *)
Definition word_queries (qrng : nat -> nat) (cnt : nat) (ss : list (list N)) : res (list (list N * nat)) :=
  map_res (fun i => if length ss =? 0 then Fail FAssert
                    else let j := qrng i mod length ss in do s <- nth_res j ss; Ok (s, addr j)) (seq 0 cnt).

(** standard_benchmarks.h:29-30, 62-65 with pl::Query: one query after the other. *)
Fixpoint run_lookups (e : ext crec) (qs : list (list N * nat)) : res (ext crec * list (list crec)) :=
  match qs with
  | [] => Ok (e, [])
  | (k, a) :: qs' =>
      do (e1, out) <- trie_point_lookup search e k a;
      do (e2, outs) <- run_lookups e1 qs';
      Ok (e2, out :: outs)
  end.

(** standard_benchmarks.h:105-126 with pl::Query. *)
Definition static_lookups (s : shard crec) (qs : list (list N * nat)) : res (list (list (wrapped crec))) :=
  map_res (fun q => alone_pl (trie_lookup search (fst q)) s) qs.

Variable coin : nat -> bool.
Variable C : cfg.

(** fst_bench.cpp:44, 55-76, on the records. *)
Definition word_fill (fuel size warmup : nat) (recs : list crec) : res (ext crec * nat) :=
  do e0 <- ext_new C;
  let '(js, c) := picks coin size (length recs) 0 0 in
  let dels := to_delete size js in
  do (e1, d1) <- insert_records (trie_shards qlt literal) C recs dels false coin fuel 0 warmup 0 c e0;
  insert_records (trie_shards qlt literal) C recs dels true coin fuel warmup (length recs) d1 c e1.

(** fst_bench.cpp:44-93 on the data file [f]; dividing by queries.size() is not defined
    for 0. *)
Definition bench_words (qrng : nat -> nat) (cnt n fuel size warmup : nat) (f : list N)
  : res (list (list crec) * list (list (wrapped crec))) :=
  let ss := read_string_file n f in
  do qs <- word_queries qrng cnt ss;
  do (e, d) <- word_fill fuel size warmup (word_recs 0 ss);
  do (e2, outs) <- run_lookups e qs;
  do _ <- match qs with [] => Fail FOob | _ => Ok tt end;
  do (e3, s) <- create_static_structure (trie_shards qlt literal) e2;
  do sts <- static_lookups s qs;
  Ok (outs, sts).
End Word.

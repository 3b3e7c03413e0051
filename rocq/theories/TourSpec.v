(** Vocabulary for the benchmark programs that count. *)
From Coq Require Import List Arith ZArith NArith Bool.
From Verif Require Import Base RecordModel StructModel ExtModel Spec FileSpec.
Import ListNotations.

(** The ranges of the lines with bounds in order and the selectivity asked for. *)
Definition ranges {V} (close : V -> bool) (qs : list (qline V)) : list (Z * Z) :=
  map (fun q => (Z.of_N (ql_lo q), Z.of_N (ql_hi q))) (filter (fun q => (ql_lo q <? ql_hi q)%N && close (ql_sel q)) qs).

(** Every shard has a record with a key that is not below the range. *)
Definition reached (e : ext kv) (q : Z * Z) : Prop :=
  forall ls d, In ls (levels_of e) -> In d ls -> exists w, In w d /\ (fst q <= rkey (wrec w))%Z.

(** The records in the range. *)
Definition hits (rs : list kv) (q : Z * Z) : nat := length (filter (key_in (fst q) (snd q)) rs).

(** The count of one shard for [n] records: it may be missing if [n] is 0. *)
Definition shard_count (n : nat) (c : list (nat * nat)) : Prop := c = [(n, 0)] \/ (c = [] /\ n = 0).

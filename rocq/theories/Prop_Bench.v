(** The structures the benchmarks compare the framework with: blocks for the
    Bentley-Saxe method (C80, C81). *)
From Coq Require Import List Arith ZArith NArith Lia Bool Permutation Sorted.
From Verif Require Import Base RecordModel RecordProofs MergeModel Spec VPModel VPSpec KNNProofs SearchModel
  LearnModel BenchModel BenchSpec BenchProofs.
Import ListNotations.

(** C80: a block is built from any records, and gives them back. *)
Theorem C80_rebuild {R : Type} {RO : RecOps R} {D : Type} {DO : DistOps D} {DL : DistLaws D}
  {MO : MetricOps R D} :
  forall leafsz rng (rs : list R), exists t, bvp_build leafsz rng rs = Ok t /\ bvp_unbuild t = rs.
Proof. exact bvp_build_ok. Qed.
Print Assumptions C80_rebuild.

(** C80: a query for k >= 1 returns the k nearest records of a block, farthest first. *)
Theorem C80_query {R : Type} {RO : RecOps R} {D : Type} {DO : DistOps D} {DL : DistLaws D}
  {MO : MetricOps R D} {ML : MetricLaws R D} :
  forall pop (PM : PQMax pop) leafsz rng (rs : list R) t p k,
  bvp_build leafsz rng rs = Ok t -> 0 < k \/ rs = [] ->
  exists out, bvp_query pop t (Some (p, k)) = Ok out /\ nearest (near p) k rs out /\ farthest_first p out.
Proof. exact (fun pop PM leafsz => bvp_query_ok pop leafsz). Qed.
Print Assumptions C80_query.

(** C80: without a query point the answer is empty, and merging it adds nothing. *)
Theorem C80_no_query {R : Type} {RO : RecOps R} {D : Type} {DO : DistOps D} {DL : DistLaws D}
  {MO : MetricOps R D} {ML : MetricLaws R D} :
  forall pop (PM : PQMax pop) (t : vptree R D) p k (a rsa : list R), 0 < k -> nearest (near p) k a rsa ->
  exists rsb out, bvp_query pop t None = Ok rsb /\ bvp_merge pop p k rsa rsb = Ok out /\ Permutation rsa out.
Proof. exact (fun pop PM => bvp_no_query pop). Qed.
Print Assumptions C80_no_query.

(** C80: merging the answers of two sets of records gives the answer of their union. *)
Theorem C80_merge {R : Type} {RO : RecOps R} {D : Type} {DO : DistOps D} {DL : DistLaws D}
  {MO : MetricOps R D} {ML : MetricLaws R D} :
  forall pop (PM : PQMax pop) p k (a b rsa rsb : list R), 0 < k ->
  nearest (near p) k a rsa -> nearest (near p) k b rsb ->
  exists out, bvp_merge pop p k rsa rsb = Ok out /\ nearest (near p) k (a ++ b) out /\ farthest_first p out.
Proof. exact (fun pop PM => bvp_merge_parts pop). Qed.
Print Assumptions C80_merge.

(** C80: however the records are distributed over blocks, merging the answers of the
    blocks gives the k nearest records of all. *)
Theorem C80_answer {R : Type} {RO : RecOps R} {D : Type} {DO : DistOps D} {DL : DistLaws D}
  {MO : MetricOps R D} {ML : MetricLaws R D} :
  forall pop (PM : PQMax pop) leafsz p k ts (rss : list (list R)), 0 < k ->
  Forall2 (fun t rs => exists rng, bvp_build leafsz rng rs = Ok t) ts rss ->
  exists out, bvp_answer pop p k ts = Ok out /\ nearest (near p) k (concat rss) out /\ farthest_first p out.
Proof. exact (fun pop PM leafsz => bvp_answer_ok pop leafsz). Qed.
Print Assumptions C80_answer.

Definition points (l : list Z) : list kv := map (fun x => KV x 0%Z) l.
Example C80_case : exists t1 t2 : vptree kv Z,
  bvp_build 2 (fun c => c * 7 + 3) (points [5; 1; 9; 3; 7; 2; 8; 9; 4]%Z) = Ok t1 /\
  bvp_build 2 (fun c => c * 5) (points [6; 20]%Z) = Ok t2 /\
  bvp_answer pop_far (KV 6 0)%Z 3 [t1; t2] = Ok (points [5; 7; 6]%Z).
Proof. eexists. eexists. vm_compute. repeat split; reflexivity. Qed.

(** C80 fails for k = 0: the queue is empty when its head is taken. *)
Theorem C80_zero_refuted : exists (t : vptree kv Z) (rsa : list kv),
  bvp_build 2 (fun _ => 0) (points [1; 2]%Z) = Ok t /\
  bvp_query pop_far t (Some (KV 0%Z 0%Z, 0)) = Fail FOob /\
  bvp_merge pop_far (KV 0 0)%Z 0 rsa [] = Fail FOob.
Proof. eexists. exists (points [1]%Z). vm_compute. repeat split; reflexivity. Qed.
Print Assumptions C80_zero_refuted.

(** C81: a block is built from any records unless there are none, and gives them back
    (in order). *)
Theorem C81_rebuild {R : Type} {RO : RecOps R} {RL : RecLaws R} {KO : KeyOps R} {KL : KeyLaws R} :
  forall rs : list R, rs <> [] ->
  exists d, bts_build rs = Ok (Some d) /\ sorted d /\ Permutation rs (bts_unbuild d).
Proof. exact bts_build_ok. Qed.
Print Assumptions C81_rebuild.

(** C81: without records there is no block. *)
Theorem C81_null {R : Type} {RO : RecOps R} {RL : RecLaws R} {KO : KeyOps R} {KL : KeyLaws R} :
  forall rs : list R, bts_build rs = Ok None <-> rs = [].
Proof. exact built_null. Qed.
Print Assumptions C81_null.

(** C81: the same for records that are in order. *)
Theorem C81_presorted {R : Type} {RO : RecOps R} {RL : RecLaws R} {KO : KeyOps R} {KL : KeyLaws R} :
  forall rs : list R, rs <> [] -> sorted (map (W 0%N) rs) ->
  exists d, bts_build_presorted rs = Ok (Some d) /\ sorted d /\ rs = bts_unbuild d.
Proof. exact bts_presorted_ok. Qed.
Print Assumptions C81_presorted.

(** C81: without bounds the count is 0, and merging it adds nothing. *)
Theorem C81_no_query {R : Type} {RO : RecOps R} {KO : KeyOps R} :
  forall search (d : list (wrapped R)) n,
  exists rsb, bts_query search d None = Ok rsb /\ bts_merge [n] rsb = Ok [n] /\ bts_merge [] rsb = Ok [0%Z].
Proof. exact bts_no_query. Qed.
Print Assumptions C81_no_query.

(** C81: a query counts the records with a key in the range.  Missing: blocks of 50 or
    more records where the lower bound lies between two keys (false, see
    C81_between_refuted); there the count is too large by one. *)
Theorem C81_count_partial {R : Type} {RO : RecOps R} {RL : RecLaws R} {KO : KeyOps R} {KL : KeyLaws R} :
  forall search : list (wrapped R) -> Z -> nat * nat,
  (forall d k, 50 <= length d -> sorted d -> brackets d (search d k) k) ->
  forall rs d lo hi, bts_build rs = Ok (Some d) -> (lo <= hi)%Z ->
  (~ key_between lo rs -> bts_query search d (Some (lo, hi)) = Ok [Z.of_nat (in_range lo hi rs)]) /\
  (key_between lo rs -> bts_query search d (Some (lo, hi)) = Ok [(1 + Z.of_nat (in_range lo hi rs))%Z]).
Proof. exact built_query. Qed.
Print Assumptions C81_count_partial.

(** C81: the merged answers of several blocks are the count of all records, and exact
    if no block has the lower bound between two keys; otherwise too large by at most one
    for every block.  Missing: the exact count in that case (false). *)
Theorem C81_answer_partial {R : Type} {RO : RecOps R} {RL : RecLaws R} {KO : KeyOps R} {KL : KeyLaws R} :
  forall search : list (wrapped R) -> Z -> nat * nat,
  (forall d k, 50 <= length d -> sorted d -> brackets d (search d k) k) ->
  forall lo hi rss bs, (lo <= hi)%Z -> bs <> [] ->
  Forall2 (fun rs d => bts_build rs = Ok (Some d)) rss bs ->
  exists c, bts_answer search lo hi bs = Ok [c] /\
    (Z.of_nat (in_range lo hi (concat rss)) <= c <= Z.of_nat (in_range lo hi (concat rss)) + Z.of_nat (length bs))%Z /\
    ((forall rs, In rs rss -> ~ key_between lo rs) -> c = Z.of_nat (in_range lo hi (concat rss))).
Proof. exact built_answer. Qed.
Print Assumptions C81_answer_partial.

(** The even numbers from 0 to 118, largest first; a spline that brackets every key. *)
Definition evens : list kv := points (map (fun i => 118 - 2 * Z.of_nat i)%Z (seq 0 60)).
Definition whole (d : list (wrapped kv)) (_ : Z) : nat * nat := (0, length d).
Example C81_case :
  (forall d k, 50 <= length d -> sorted d -> brackets d (whole d k) k) /\
  exists d1 d2, bts_build evens = Ok (Some d1) /\ bts_build (points [21; 5; 9; 13]%Z) = Ok (Some d2) /\
    bts_query whole d1 (Some (10, 20))%Z = Ok [6%Z] /\
    bts_answer whole 10 20 [d1; d2] = Ok [7%Z].
Proof.
  split.
  - intros d k _ _. unfold brackets, whole. cbn [fst snd]. pose proof (ListLemmas.countb_le (fun w => (rkey (wrec w) <? k)%Z) d). lia.
  - eexists. eexists. vm_compute. repeat split; reflexivity.
Qed.

(** C81 fails: the record before the lower bound is counted. *)
Theorem C81_between_refuted : exists d lo hi, bts_build evens = Ok (Some d) /\
  in_range lo hi evens = 5 /\ bts_query whole d (Some (lo, hi)) = Ok [6%Z].
Proof. eexists. exists 11%Z, 20%Z. vm_compute. repeat split; reflexivity. Qed.
Print Assumptions C81_between_refuted.

(** C81 fails: records that are not in order, given as if they were, make the spline's
    assertion fail. *)
Theorem C81_unsorted_refuted : exists rs : list kv, length rs = 60 /\ bts_build_presorted rs = Fail FAssert.
Proof. exists evens. vm_compute. split; reflexivity. Qed.
Print Assumptions C81_unsorted_refuted.

(** C81 fails: an answer with no count cannot be merged. *)
Theorem C81_empty_refuted : exists a, bts_merge [a] [] = Fail FOob.
Proof. exists 3%Z. reflexivity. Qed.
Print Assumptions C81_empty_refuted.

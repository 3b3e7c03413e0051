(** The memory usage that the index reports (C60). *)
From Coq Require Import List Arith ZArith NArith Lia Bool.
From Verif Require Import Base RecordModel RecordProofs BufferModel MergeModel MergeProofs StructModel ExtModel
  ISAMModel VPModel VPSpec KindModel MemModel Spec KNNProofs MemProofs.
Import ListNotations.

(** C60: whatever the shards report, the index adds it up and adds the array of the
    buffer; the index is left as it was.  [m d] is what a shard with the records [d]
    reports.  Missing: that the records in the shards are counted (false,
    C60_records_refuted). *)
Theorem C60_total_partial {R : Type} {RO : RecOps R} {RL : RecLaws R} (qlt : qorder R) {QO : QOrder qlt} :
  forall C (mem : list (wrapped R) -> res nat) m wsize ops e rs, valid_cfg C ->
  (forall d, In d (concat (levels_of e)) -> mem d = Ok (m d)) ->
  run_new qlt C ops = Ok (e, rs) ->
  get_memory_usage mem wsize e =
    Ok (e, 2 * c_hwm C * wsize + fold_right Nat.add 0 (map m (concat (levels_of e)))) /\
  get_aux_memory_usage mem e = Ok (e, fold_right Nat.add 0 (map m (concat (levels_of e)))).
Proof. exact (fun C mem m wsize ops e rs V => memory_value qlt C V mem m wsize ops e rs). Qed.
Print Assumptions C60_total_partial.

(** C60, ISAM shards: beyond the buffer, the index reports 256 bytes per inner node, of
    which there are at most two per record and at least one per F - 1 leaves of L
    records, up to one leaf per shard.  Missing: as above. *)
Theorem C60_isam_partial {R : Type} {RO : RecOps R} {RL : RecLaws R} (qlt : qorder R) {QO : QOrder qlt}
  {KO : KeyOps R} :
  forall C F L wsize ops e rs, valid_cfg C -> 2 <= F -> 1 <= L -> run_new qlt C ops = Ok (e, rs) ->
  let shards := concat (levels_of e) in
  let n := length (concat shards) in
  exists nodes, get_memory_usage (isam_mem F L) wsize e = Ok (e, 2 * c_hwm C * wsize + 256 * nodes) /\
    nodes <= 2 * n /\ n <= L * (length shards + nodes * (F - 1)).
Proof. exact (fun C F L wsize ops e rs V => isam_memory qlt C V F L wsize ops e rs). Qed.
Print Assumptions C60_isam_partial.

(** C60, VPTree shards: at most one node per record, at most one record more per node than
    a leaf is given, and the array of pointers.
    Missing: as above. *)
Theorem C60_vp_partial {R : Type} {RO : RecOps R} {D : Type} {DO : DistOps D} {MO : MetricOps R D} :
  forall leafsz rng nsize (d : list (wrapped R)) t, vp_build leafsz rng d = Ok t ->
  exists nodes, vp_mem leafsz rng nsize d = Ok (nodes * nsize + length d * 8) /\ nodes <= length d /\
    (d <> [] -> 1 <= nodes) /\ length d <= nodes * (leafsz + 1).
Proof. exact (fun leafsz rng nsize d t H => ex_intro _ _ (vp_mem_ok leafsz rng nsize d t H)). Qed.
Print Assumptions C60_vp_partial.

(** The same for an index of VPTree shards after any history: at most one node per record
    in the shards, at least one per shard that is not empty, no more records per node than
    above, and a pointer per record.
    [rng d] are the random numbers that a shard with the records [d] was built with. *)
Theorem C60_vp_index_partial {R : Type} {RO : RecOps R} {D : Type} {DO : DistOps D} {DL : DistLaws D} {MO : MetricOps R D} :
  forall C leafsz (rng : list (wrapped R) -> nat -> nat) nsize wsize ops e rs, valid_cfg C ->
  run_new vp_shards C ops = Ok (e, rs) ->
  let shards := concat (levels_of e) in
  let n := length (concat shards) in
  exists nodes, get_memory_usage (fun d => vp_mem leafsz (rng d) nsize d) wsize e =
      Ok (e, 2 * c_hwm C * wsize + (nodes * nsize + n * 8)) /\
    nodes <= n /\ length (filter (fun d => 0 <? length d) shards) <= nodes /\ n <= nodes * (leafsz + 1).
Proof. exact vp_memory. Qed.
Print Assumptions C60_vp_index_partial.

(** C60 fails: with Alias shards the reported usage never changes, whatever is stored. *)
Theorem C60_alias_constant {R : Type} {RO : RecOps R} {RL : RecLaws R} (qlt : qorder R) {QO : QOrder qlt} :
  forall C wsize ops e rs, valid_cfg C -> run_new qlt C ops = Ok (e, rs) ->
  get_memory_usage alias_mem wsize e = Ok (e, 2 * c_hwm C * wsize).
Proof. exact (fun C wsize ops e rs V => alias_memory qlt C V wsize ops e rs). Qed.
Print Assumptions C60_alias_constant.

(** 16 keys per inner node and 16 records per leaf, as for records of two 64-bit words,
    which take 24 bytes each with their header. *)
Definition mem_cfg (l : layout) : cfg := Cfg l TOMBSTONE 10 10 2.
Definition mem_ops (n : nat) : list (op kv) := map (fun i => Ins (KV (Z.of_nat i) 0)) (seq 0 n).

(** C60 fails with ISAM shards too, in every layout: the bytes reported are fewer than
    those of the buffer and of the records in the shards. *)
Theorem C60_records_refuted : forall l, exists (ops : list (op kv)) e rs m, valid_cfg (mem_cfg l) /\
  run_new by_version (mem_cfg l) ops = Ok (e, rs) /\
  get_memory_usage (isam_mem 16 16) 24 e = Ok (e, m) /\
  m < 24 * (2 * c_hwm (mem_cfg l) + length (shard_records e)).
Proof.
  intros l. exists (mem_ops 100). destruct l;
    (do 3 eexists; split; [repeat split; simpl; auto; lia|]; split; [vm_compute; reflexivity|];
     split; [vm_compute; reflexivity|vm_compute; lia]).
Qed.
Print Assumptions C60_records_refuted.

(** ** The hypotheses are met *)

(** 100 inserts give shards with 3 inner nodes in all under leveling, and what is
    reported differs from the empty index. *)
Example C60_case : exists e rs, run_new by_version (mem_cfg LEVELING) (mem_ops 100) = Ok (e, rs) /\
  get_memory_usage (isam_mem 16 16) 24 e = Ok (e, 2 * 10 * 24 + 256 * 3) /\
  length (shard_records e) = 90.
Proof. do 2 eexists. split; [vm_compute; reflexivity|]. split; vm_compute; reflexivity. Qed.
Example C60_vp_case :
  let ws := map (fun x => W 0%N (KV x 0%Z)) [5; 1; 9; 3; 7; 2; 8; 9; 4]%Z in
  exists t, vp_build (D := Z) 2 (fun c => c * 7 + 3) ws = Ok t /\ vp_mem (D := Z) 2 (fun c => c * 7 + 3) 32 ws = Ok (5 * 32 + 72).
Proof. vm_compute. eexists. split; reflexivity. Qed.
(** 35 inserts of distinct points, and the nodes of the trees of their shards. *)
Example C60_vp_index_case : forall l, exists e rs, run_new vp_shards (mem_cfg l) (mem_ops 35) = Ok (e, rs) /\
  valid_cfg (mem_cfg l) /\ length (shard_records e) = 30 /\
  get_memory_usage (fun d => vp_mem (D := Z) 2 (fun c => c * 7 + 3) 32 d) 24 e = Ok (e, 2 * 10 * 24 + (20 * 32 + 30 * 8)).
Proof.
  intros l. destruct l; do 2 eexists; (split; [vm_compute; reflexivity|]; split; [repeat split; simpl; auto; lia|];
     split; vm_compute; reflexivity).
Qed.

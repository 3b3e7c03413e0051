(** Indexes over VPTree, FSTrie and LoudsPatricia shards (C32, C39, C46, C55, C56). *)
From Coq Require Import List Arith ZArith NArith Lia Bool Permutation Sorted.
From Verif Require Import Base RecordModel BufferModel MergeModel MergeProofs StructModel ExtModel QueryModel
  Spec VPModel VPSpec KNNProofs KindModel KindSpec KindProofs.
Import ListNotations.

(** ** VPTree *)

(** C56: no call fails on an index of VPTree shards, and every call reports success.
    (Erases with tombstones, or no erases.) *)
Theorem C56_vp_runs {R : Type} {RO : RecOps R} :
  forall C (ops : list (op R)), valid_cfg C -> appending C ops ->
  exists e, run_new vp_shards C ops = Ok (e, repeat 1 (length ops)).
Proof. exact (fun C ops V => vp_runs C V ops). Qed.
Print Assumptions C56_vp_runs.

(** C56: it stores one record for every insert and one tombstone for every erase. *)
Theorem C56_vp_stored {R : Type} {RO : RecOps R} :
  forall C (ops : list (op R)) e rs, valid_cfg C -> appending C ops -> run_new vp_shards C ops = Ok (e, rs) ->
  Permutation (map (fun o => (op_rec o, is_erase o)) ops) (map (fun w => (wrec w, is_ts w)) (stored e)).
Proof. exact (fun C ops e rs V => vp_stored C V ops e rs). Qed.
Print Assumptions C56_vp_stored.

(** C56: the record count is the number of calls. *)
Theorem C56_vp_count {R : Type} {RO : RecOps R} :
  forall C (ops : list (op R)) e rs, valid_cfg C -> appending C ops -> run_new vp_shards C ops = Ok (e, rs) ->
  get_record_count e = Ok (e, length ops).
Proof. exact (fun C ops e rs V => vp_count C V ops e rs). Qed.
Print Assumptions C56_vp_count.

(** C56: the static structure is built, and holds the same records and tombstones. *)
Theorem C56_vp_static {R : Type} {RO : RecOps R} :
  forall C (ops : list (op R)) e rs, valid_cfg C -> appending C ops -> run_new vp_shards C ops = Ok (e, rs) ->
  exists s, create_static_structure vp_shards e = Ok (e, s) /\ s_reccnt s = length ops /\
    Permutation (map (fun o => (op_rec o, is_erase o)) ops) (map (fun w => (wrec w, is_ts w)) (s_data s)).
Proof. exact (fun C ops e rs V => vp_static C V ops e rs). Qed.
Print Assumptions C56_vp_static.

(** C39: with VPTree shards the tombstone count is the number of tombstones stored:
    the shards report none, and the buffer counts those that were flushed. *)
Theorem C39_vp_tombstone_count {R : Type} {RO : RecOps R} :
  forall C (ops : list (op R)) e rs, valid_cfg C -> appending C ops -> run_new vp_shards C ops = Ok (e, rs) ->
  get_tombstone_count e = Ok (e, countb is_ts (stored e)).
Proof. exact (fun C ops e rs V => vp_tombstones C V ops e rs). Qed.
Print Assumptions C39_vp_tombstone_count.

(** C32: after any history of inserts a kNN query for k >= 1 returns k inserted records
    (all of them if there are fewer) and leaves no closer one out; for every layout and
    configuration, metric, leaf size, and random numbers used in the trees. *)
Theorem C32_knn_history {R : Type} {RO : RecOps R} {D : Type} {DO : DistOps D} {DL : DistLaws D}
  {MO : MetricOps R D} {ML : MetricLaws R D} :
  forall C pop (PM : PQMax pop) leafsz rng ops e rs p k, valid_cfg C -> insert_only ops -> 0 < k ->
  run_new vp_shards C ops = Ok (e, rs) ->
  exists out, knn leafsz pop rng e p k = Ok (e, out) /\
    nearest (fun x y => dleb (dist p x) (dist p y)) k (inserted ops) out.
Proof. exact (fun C pop PM leafsz rng ops e rs p k V => vp_knn_inserts C V pop PM leafsz rng ops e rs p k). Qed.
Print Assumptions C32_knn_history.

(** C32: with erases by tombstones the query does not fail and is exact for the records
    and tombstones of the log.  Missing: that erased records and tombstones are left
    out (false, see C32_erased_refuted). *)
Theorem C32_knn_tombstones_partial {R : Type} {RO : RecOps R} {D : Type} {DO : DistOps D} {DL : DistLaws D}
  {MO : MetricOps R D} {ML : MetricLaws R D} :
  forall C pop (PM : PQMax pop) leafsz rng ops e rs p k, valid_cfg C -> appending C ops -> 0 < k ->
  run_new vp_shards C ops = Ok (e, rs) ->
  exists out, knn leafsz pop rng e p k = Ok (e, out) /\
    nearest (fun x y => dleb (dist p x) (dist p y)) k (map op_rec ops) out.
Proof. exact (fun C pop PM leafsz rng ops e rs p k V => vp_knn C V pop PM leafsz rng ops e rs p k). Qed.
Print Assumptions C32_knn_tombstones_partial.

Definition kx_ops : list (op kv) := map (fun i => Ins (KV (Z.of_nat (i * 7 mod 31)) (Z.of_nat i))) (seq 0 20).
Definition kx_tomb : list (op kv) := kx_ops ++ [Del (KV 0 0); Ins (KV 40 0); Del (KV 7 1)]%Z.
Definition kx_cfgs : list cfg :=
  [Cfg TIERING TOMBSTONE 3 4 2; Cfg LEVELING TOMBSTONE 3 4 2; Cfg BSM TOMBSTONE 3 4 2].

Example C32_history_case : forall C, In C kx_cfgs ->
  valid_cfg C /\ insert_only kx_ops /\ appending C kx_tomb /\
  (exists e rs out, run_new vp_shards C kx_ops = Ok (e, rs) /\ 1 < length (levels_of e) /\
     knn 2 pop_far (fun i c => i + c) e (KV 12 0)%Z 3 = Ok (e, out) /\ length out = 3 /\
     forallb (fun r => (Z.abs (rkey r - 12) <=? 2)%Z) out = true) /\
  exists e rs s, run_new vp_shards C kx_tomb = Ok (e, rs) /\ get_record_count e = Ok (e, 23) /\
    get_tombstone_count e = Ok (e, 2) /\ create_static_structure vp_shards e = Ok (e, s) /\ s_reccnt s = 23.
Proof.
  intros C H. split; [|split; [|split; [|split]]].
  - simpl in H. decompose [or] H; subst; try contradiction; unfold valid_cfg; simpl; repeat split; lia || auto.
  - intros o Ho. unfold kx_ops in Ho. apply in_map_iff in Ho as (i & <- & _). eauto.
  - left. simpl in H. decompose [or] H; subst; try contradiction; auto.
  - simpl in H. decompose [or] H; subst; try contradiction; vm_compute; do 3 eexists; repeat split; repeat constructor.
  - simpl in H. decompose [or] H; subst; try contradiction; vm_compute; do 3 eexists; repeat split; reflexivity.
Qed.

(** C32 fails with erases: an erased record is returned, with tombstones (together with
    its tombstone, which takes the place of a record) and with tagging. *)
Theorem C32_erased_refuted :
  (exists C (ops : list (op kv)) e rs r x, valid_cfg C /\ c_del C = TOMBSTONE /\
     run_new vp_shards C ops = Ok (e, rs) /\ live ops = [x] /\ occ r (live ops) = 0 /\
     knn 2 pop_far (fun _ _ => 0) e r 2 = Ok (e, [r; r])) /\
  exists C (ops : list (op kv)) e rs r x, valid_cfg C /\ c_del C = TAGGING /\
     run_new vp_shards C ops = Ok (e, rs) /\ live ops = [x] /\ occ r (live ops) = 0 /\
     knn 2 pop_far (fun _ _ => 0) e r 1 = Ok (e, [r]).
Proof.
  split.
  - exists (Cfg LEVELING TOMBSTONE 2 2 2), [Ins (KV 1 0); Ins (KV 5 0); Del (KV 5 0)]%Z.
    do 2 eexists. exists (KV 5 0)%Z, (KV 1 0)%Z. split; [unfold valid_cfg; simpl; repeat split; lia || discriminate|].
    vm_compute. repeat split; reflexivity.
  - exists (Cfg LEVELING TAGGING 2 2 2), [Ins (KV 1 0); Ins (KV 5 0); Ins (KV 7 0); Del (KV 5 0); Del (KV 7 0)]%Z.
    do 2 eexists. exists (KV 5 0)%Z, (KV 1 0)%Z. split; [unfold valid_cfg; simpl; repeat split; lia || discriminate|].
    vm_compute. repeat split; reflexivity.
Qed.
Print Assumptions C32_erased_refuted.

(** C46: after any history of inserts, and erases with tombstones, a kNN query with any
    distance function does not fail and returns k records of the log, each no more often
    than it is there.  Missing: that they are the closest (false, see
    C46_cosine_refuted), and that erased records are left out (C32_erased_refuted). *)
Theorem C46_history_partial {R : Type} {RO : RecOps R} {D : Type} {DO : DistOps D} {DL : DistLaws D}
  {MO : MetricOps R D} :
  forall C pop (PM : PQMax pop) leafsz rng ops e rs p k, valid_cfg C -> appending C ops -> 0 < k ->
  run_new vp_shards C ops = Ok (e, rs) ->
  exists out rest, knn leafsz pop rng e p k = Ok (e, out) /\
    Permutation (map op_rec ops) (out ++ rest) /\ length out = Nat.min k (length ops).
Proof. exact (fun C pop PM leafsz rng ops e rs p k V => vp_knn_stored C V pop PM leafsz rng ops e rs p k). Qed.
Print Assumptions C46_history_partial.

Example C46_history_case :
  let ops := map Ins [CP 1 0; CP (-1) 0; CP 0 1; CP 0 (-1); CP 1 0; CP 0 1; CP (-1) 0]%Z in
  let C := Cfg TIERING TOMBSTONE 2 3 2 in
  valid_cfg C /\ appending C ops /\
  exists e rs out, run_new vp_shards C ops = Ok (e, rs) /\ 0 < length (levels_of e) /\
    knn 2 pop_far (fun i c => i + c) e (CP 1 0)%Z 5 = Ok (e, out) /\ length out = 5.
Proof.
  split; [unfold valid_cfg; simpl; repeat split; lia || discriminate|]. split; [left; reflexivity|].
  vm_compute. do 3 eexists. repeat split; repeat constructor.
Qed.

(** ** Tries *)

(** C56: no call fails on an index of trie shards: inserts only, or tombstones with more
    inserts than erases in every block that is flushed.  [literal] is the address that
    the test for a blank key compares with. *)
Theorem C56_trie_runs (qlt : qorder crec) {QO : QOrder qlt} :
  forall literal C ops, valid_cfg C -> no_blank literal ops ->
  insert_only ops \/ (c_del C = TOMBSTONE /\ mostly_inserts (c_lwm C) ops) ->
  exists e, run_new (trie_shards qlt literal) C ops = Ok (e, repeat 1 (length ops)).
Proof. exact (fun literal C ops V NB H => match H with
  | or_introl IO => trie_runs qlt literal C V ops IO NB
  | or_intror (conj TB MI) => trie_runs_ts qlt literal C V ops TB NB MI end). Qed.
Print Assumptions C56_trie_runs.

(** C56: it stores the inserted records. *)
Theorem C56_trie_stored (qlt : qorder crec) {QO : QOrder qlt} :
  forall literal C ops e rs, valid_cfg C -> insert_only ops -> no_blank literal ops ->
  run_new (trie_shards qlt literal) C ops = Ok (e, rs) -> Permutation (inserted ops) (map wrec (stored e)).
Proof. exact (fun literal C ops e rs V => trie_stored qlt literal C V ops e rs). Qed.
Print Assumptions C56_trie_stored.

Theorem C56_trie_count (qlt : qorder crec) {QO : QOrder qlt} :
  forall literal C ops e rs, valid_cfg C -> insert_only ops -> no_blank literal ops ->
  run_new (trie_shards qlt literal) C ops = Ok (e, rs) -> get_record_count e = Ok (e, length ops).
Proof. exact (fun literal C ops e rs V => trie_count qlt literal C V ops e rs). Qed.
Print Assumptions C56_trie_count.

(** C56: the static structure is built, sorted, and holds the inserted records. *)
Theorem C56_trie_static (qlt : qorder crec) {QO : QOrder qlt} :
  forall literal C ops e rs, valid_cfg C -> insert_only ops -> no_blank literal ops ->
  run_new (trie_shards qlt literal) C ops = Ok (e, rs) ->
  exists s, create_static_structure (trie_shards qlt literal) e = Ok (e, s) /\ s_reccnt s = length ops /\
    Permutation (inserted ops) (map wrec (s_data s)) /\ sorted (s_data s).
Proof. exact (fun literal C ops e rs V => trie_static qlt literal C V ops e rs). Qed.
Print Assumptions C56_trie_static.

(** C56: with tombstones, records and tombstones of every key keep their balance, and
    the record count is exact (BSM: as long as no shard becomes empty). *)
Theorem C56_trie_balance (qlt : qorder crec) {QO : QOrder qlt} :
  forall literal C ops e rs, valid_cfg C -> c_del C = TOMBSTONE -> no_blank literal ops ->
  bsm_safe (trie_shards qlt literal) C ops -> run_new (trie_shards qlt literal) C ops = Ok (e, rs) ->
  (forall r, n_plain r (stored e) + n_del r ops = n_tomb r (stored e) + n_ins r ops) /\
  get_record_count e = Ok (e, length (stored e)).
Proof. exact (fun literal C ops e rs V TB NB BS H =>
  conj (trie_balance qlt literal C V ops e rs TB NB BS H) (trie_count_ts qlt literal C V ops e rs TB NB BS H)). Qed.
Print Assumptions C56_trie_balance.

(** C55: after inserts with distinct keys a point lookup returns exactly the record with
    the key, or nothing.  The key that is looked up has the address of the inserted key
    ([at_address]); [search_exact] is the contract of the external trie.  Missing: keys
    at other addresses and erased keys (both false, see below). *)
Theorem C55_trie_lookup_partial (qlt : qorder crec) {QO : QOrder qlt} :
  forall literal search C ops e rs k a, valid_cfg C -> search_exact search ->
  insert_only ops -> no_blank literal ops -> distinct_keys ops -> at_address a k ops ->
  run_new (trie_shards qlt literal) C ops = Ok (e, rs) ->
  trie_point_lookup search e k a = Ok (e, filter (has_str k) (inserted ops)).
Proof. exact (fun literal search C ops e rs k a V SE => trie_lookup_exact qlt literal C V search SE ops e rs k a). Qed.
Print Assumptions C55_trie_lookup_partial.

Definition tx_rec (i : nat) : crec := CRec [N.of_nat (i * 7 mod 31); N.of_nat (i mod 3)] (100 + i) (Z.of_nat i).
Definition tx_ops : list (op crec) := map (fun i => Ins (tx_rec i)) (seq 0 20).
Definition tx_tomb : list (op crec) := [Ins (tx_rec 0); Ins (tx_rec 1); Ins (tx_rec 2); Ins (tx_rec 3);
  Del (tx_rec 1); Ins (tx_rec 4); Ins (tx_rec 5); Ins (tx_rec 6); Del (tx_rec 9); Ins (tx_rec 7)].

Example C55_case : forall C, In C kx_cfgs ->
  valid_cfg C /\ insert_only tx_ops /\ no_blank 7 tx_ops /\ distinct_keys tx_ops /\
  at_address 103 [21; 0]%N tx_ops /\ search_exact first_of /\
  exists e rs s, run_new (trie_shards by_version 7) C tx_ops = Ok (e, rs) /\ 1 < length (levels_of e) /\
    trie_point_lookup first_of e [21; 0]%N 103 = Ok (e, [tx_rec 3]) /\
    trie_point_lookup first_of e [8; 1]%N 119 = Ok (e, [tx_rec 19]) /\
    trie_point_lookup first_of e [99]%N 55 = Ok (e, []) /\
    get_record_count e = Ok (e, 20) /\
    create_static_structure (trie_shards by_version 7) e = Ok (e, s) /\ s_reccnt s = 20.
Proof.
  intros C H. split; [|split; [|split; [|split; [|split; [|split]]]]].
  - simpl in H. decompose [or] H; subst; try contradiction; unfold valid_cfg; simpl; repeat split; lia || auto.
  - intros o Ho. unfold tx_ops in Ho. apply in_map_iff in Ho as (i & <- & _). eauto.
  - intros o Ho. unfold tx_ops in Ho. apply in_map_iff in Ho as (i & <- & _). simpl. lia.
  - unfold distinct_keys. vm_compute.
    repeat (constructor; [simpl; intros X; decompose [or] X; try discriminate; try tauto|]). constructor.
  - intros r Hr. vm_compute in Hr. decompose [or] Hr; subst; try contradiction; simpl; split; congruence.
  - exact first_of_exact.
  - simpl in H. decompose [or] H; subst; try contradiction; vm_compute; do 3 eexists; repeat split; repeat constructor.
Qed.

Example C56_tombstones_case : forall C, In C kx_cfgs ->
  no_blank 7 tx_tomb /\ mostly_inserts (c_lwm C) tx_tomb /\
  exists e rs, run_new (trie_shards by_version 7) C tx_tomb = Ok (e, rs) /\
    n_plain (tx_rec 1) (stored e) = n_tomb (tx_rec 1) (stored e) /\
    n_tomb (tx_rec 9) (stored e) = 1 /\ n_plain (tx_rec 5) (stored e) = 1.
Proof.
  intros C H. split; [|split].
  - intros o Ho. simpl in Ho. decompose [or] Ho; subst; try contradiction; simpl; lia.
  - intros k L. assert (c_lwm C = 3) by (simpl in H; decompose [or] H; subst; try contradiction; auto).
    rewrite H0 in *. simpl in L. destruct k as [|[|[|k]]]; try (simpl; lia).
  - simpl in H. decompose [or] H; subst; try contradiction; vm_compute; do 2 eexists; repeat split; reflexivity.
Qed.

(** C55 fails: a buffered record is not found through another copy of the key; once it
    is flushed it is found. *)
Theorem C55_address_refuted : exists C (ops : list (op crec)) e rs r a, valid_cfg C /\ insert_only ops /\
  run_new (trie_shards by_version 7) C ops = Ok (e, rs) /\ inserted ops = [r] /\ a <> c_addr r /\
  trie_point_lookup first_of e (c_str r) a = Ok (e, []) /\
  exists e' rs', run_new (trie_shards by_version 7) C (ops ++ [Ins (tx_rec 1)]) = Ok (e', rs') /\
    trie_point_lookup first_of e' (c_str r) a = Ok (e', [r]).
Proof.
  exists (Cfg LEVELING TOMBSTONE 1 1 2), [Ins (tx_rec 0)]. do 2 eexists. exists (tx_rec 0), 5.
  split; [unfold valid_cfg; simpl; repeat split; lia || discriminate|].
  split; [intros o [<-|[]]; eauto|]. split; [vm_compute; reflexivity|]. split; [reflexivity|].
  split; [discriminate|]. split; [vm_compute; reflexivity|]. do 2 eexists. split; vm_compute; reflexivity.
Qed.
Print Assumptions C55_address_refuted.

(** C55 fails: a record that is flushed together with its tombstone is found, as the two
    are not cancelled; the trie is built over a vector with a duplicate. *)
Theorem C55_erased_refuted : exists search C (ops : list (op crec)) e rs r x, search_exact search /\
  valid_cfg C /\ c_del C = TOMBSTONE /\ no_blank 7 ops /\ run_new (trie_shards by_version 7) C ops = Ok (e, rs) /\
  live ops = [x] /\ occ r (live ops) = 0 /\
  trie_point_lookup search e (c_str r) (c_addr r) = Ok (e, [r]) /\
  exists d, In [d] (levels_of e) /\ ~ NoDup (map (fun w => c_str (wrec w)) d).
Proof.
  exists first_of, (Cfg LEVELING TOMBSTONE 2 2 2), [Ins (tx_rec 0); Del (tx_rec 0); Ins (tx_rec 1)].
  do 2 eexists. exists (tx_rec 0), (tx_rec 1). split; [exact first_of_exact|].
  split; [unfold valid_cfg; simpl; repeat split; lia || discriminate|]. split; [reflexivity|].
  split; [intros o Ho; simpl in Ho; decompose [or] Ho; subst; try contradiction; simpl; lia|].
  split; [vm_compute; reflexivity|]. split; [vm_compute; reflexivity|]. split; [vm_compute; reflexivity|].
  split; [vm_compute; reflexivity|]. eexists. split; [vm_compute; left; reflexivity|].
  vm_compute. intros H. inversion H as [|? ? N]. apply N. simpl. auto.
Qed.
Print Assumptions C55_erased_refuted.

(** C56 fails: a record whose key is the empty literal is stored in the buffer and lost
    when it is flushed; if the whole buffer is such, a later lookup uses a trie that does
    not exist. *)
Theorem C56_blank_refuted : exists C (ops : list (op crec)) e rs, valid_cfg C /\ insert_only ops /\
  run_new (trie_shards by_version 7) C ops = Ok (e, rs) /\ length ops = 2 /\ get_record_count e = Ok (e, 1) /\
  forall k, trie_point_lookup first_of e k 3 = Fail FNull.
Proof.
  exists (Cfg LEVELING TOMBSTONE 1 1 2), [Ins (CRec [] 7 0); Ins (tx_rec 1)]. do 2 eexists.
  split; [unfold valid_cfg; simpl; repeat split; lia || discriminate|].
  split; [intros o Ho; simpl in Ho; decompose [or] Ho; subst; try contradiction; eauto|].
  split; [vm_compute; reflexivity|]. split; [reflexivity|]. split; [vm_compute; reflexivity|].
  intros k. vm_compute. reflexivity.
Qed.
Print Assumptions C56_blank_refuted.

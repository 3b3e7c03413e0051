(** Indexes over VPTree, FSTrie and LoudsPatricia shards with deletes by tagging (C55, C56). *)
From Coq Require Import List Arith ZArith NArith Lia Bool Permutation Sorted.
From Verif Require Import Base RecordModel BufferModel MergeModel MergeProofs StructModel ExtModel QueryModel
  Spec VPModel VPSpec KNNProofs KindModel KindSpec KindProofs CountProofs KindTag Prop_Kind.
Import ListNotations.

(** ** VPTree (with its hash map, see StructModel.v) *)

(** C56: no call fails, if every block of records that is flushed together has one that is
    never erased. *)
Theorem C56_vp_tagging_runs {R : Type} {RO : RecOps R} {RL : RecLaws R} :
  forall C (ops : list (op R)), valid_cfg C -> c_del C = TAGGING -> survivors (c_lwm C) ops ->
  exists e rs, run_new vp_shards C ops = Ok (e, rs).
Proof. exact (fun C ops V TG => vp_tag_runs C V TG ops). Qed.
Print Assumptions C56_vp_tagging_runs.

(** C56: the records stored without a tag are those inserted and not erased since, there
    is no tombstone, and the record count counts the stored records, tagged ones
    included (BSM: as long as no shard becomes empty). *)
Theorem C56_vp_tagging_live {R : Type} {RO : RecOps R} {RL : RecLaws R} :
  forall C (ops : list (op R)) e rs, valid_cfg C -> c_del C = TAGGING -> bsm_safe vp_shards C ops ->
  distinct_inserts ops -> run_new vp_shards C ops = Ok (e, rs) ->
  Permutation (map wrec (filter (fun w => negb (is_del w)) (stored e))) (live ops) /\
  Forall (fun w => is_ts w = false) (stored e) /\
  get_record_count e = Ok (e, length (stored e)).
Proof. exact (fun C ops e rs V TG => vp_tag_live C V TG ops e rs). Qed.
Print Assumptions C56_vp_tagging_live.

(** C56: the static structure is built and holds exactly the live records. *)
Theorem C56_vp_tagging_static {R : Type} {RO : RecOps R} {RL : RecLaws R} :
  forall C (ops : list (op R)) e rs, valid_cfg C -> c_del C = TAGGING -> bsm_safe vp_shards C ops ->
  distinct_inserts ops -> run_new vp_shards C ops = Ok (e, rs) ->
  exists s, create_static_structure vp_shards e = Ok (e, s) /\ s_reccnt s = length (live ops) /\
    Permutation (live ops) (map wrec (s_data s)) /\
    Forall (fun w => is_ts w = false /\ is_del w = false) (s_data s).
Proof. exact (fun C ops e rs V TG => vp_tag_static C V TG ops e rs). Qed.
Print Assumptions C56_vp_tagging_static.

(** Erases of flushed records, of a buffered one, of one that is not there, and of one
    that is already erased. *)
Definition kt_ops : list (op kv) :=
  kx_ops ++ [Del (KV 0 0); Ins (KV 40 0); Del (KV 7 1); Del (KV 40 0); Del (KV 50 0); Del (KV 7 1); Ins (KV 41 0); Del (KV 28 4)]%Z.
Definition kt_cfgs : list cfg :=
  [Cfg TIERING TAGGING 3 4 2; Cfg LEVELING TAGGING 3 4 2; Cfg BSM TAGGING 3 4 2].

Lemma kt_survivors : survivors 3 kt_ops.
Proof.
  intros k L. change (length (inserted kt_ops)) with 22 in L.
  destruct k as [|[|[|[|[|[|[|k]]]]]]]; try (vm_compute; eexists; split; [right; right; left; reflexivity|reflexivity]);
    try (vm_compute; eexists; split; [left; reflexivity|reflexivity]).
  exfalso. lia.
Qed.

Example C56_vp_tagging_case : forall C, In C kt_cfgs ->
  valid_cfg C /\ c_del C = TAGGING /\ survivors (c_lwm C) kt_ops /\ distinct_inserts kt_ops /\
  bsm_safe vp_shards C kt_ops /\
  exists e rs s, run_new vp_shards C kt_ops = Ok (e, rs) /\ 1 < length (levels_of e) /\
    nth 25 rs 9 = 1 /\ nth 24 rs 9 = 0 /\ length (live kt_ops) = 18 /\ 18 < length (stored e) /\
    create_static_structure vp_shards e = Ok (e, s) /\ s_reccnt s = 18.
Proof.
  intros C H.
  assert (VC : valid_cfg C).
  { simpl in H. decompose [or] H; subst; try contradiction; unfold valid_cfg; simpl; repeat split; lia || auto. }
  assert (TG : c_del C = TAGGING) by (simpl in H; decompose [or] H; subst; try contradiction; auto).
  assert (SV : survivors (c_lwm C) kt_ops).
  { replace (c_lwm C) with 3 by (simpl in H; decompose [or] H; subst; try contradiction; auto). exact kt_survivors. }
  split; [exact VC|]. split; [exact TG|]. split; [exact SV|].
  split; [apply distinct_bool; vm_compute; reflexivity|].
  split; [exact (survivors_safe vp_shards C VC TG kt_ops (vp_fine _) SV)|].
  simpl in H. decompose [or] H; subst; try contradiction; vm_compute; do 3 eexists; repeat split; repeat constructor.
Qed.

(** ** Tries *)

(** C56: no call fails on an index of tries with distinct keys, if every block of records
    that is flushed together has one that is never erased.  [search_exact] is the contract
    of the external trie, through which erases look records up. *)
Theorem C56_trie_tagging_runs (qlt : qorder crec) {QO : QOrder qlt} :
  forall literal search C ops, valid_cfg C -> c_del C = TAGGING -> search_exact search ->
  no_blank literal ops -> distinct_keys ops -> survivors (c_lwm C) ops ->
  exists e rs, trie_run_new qlt literal search C ops = Ok (e, rs).
Proof. exact (fun literal search C ops V TG SE => trie_tag_runs qlt literal C V TG search SE ops). Qed.
Print Assumptions C56_trie_tagging_runs.

(** C56: the records stored without a tag are the live ones. *)
Theorem C56_trie_tagging_live (qlt : qorder crec) {QO : QOrder qlt} :
  forall literal search C ops e rs, valid_cfg C -> c_del C = TAGGING -> search_exact search ->
  no_blank literal ops -> distinct_keys ops -> survivors (c_lwm C) ops ->
  trie_run_new qlt literal search C ops = Ok (e, rs) ->
  Permutation (map wrec (filter (fun w => negb (is_del w)) (stored e))) (live ops) /\
  Forall (fun w => is_ts w = false) (stored e) /\
  get_record_count e = Ok (e, length (stored e)).
Proof. exact (fun literal search C ops e rs V TG SE => trie_tag_live qlt literal C V TG search SE ops e rs). Qed.
Print Assumptions C56_trie_tagging_live.

(** C56: the static structure is built, sorted, and holds exactly the live records, if not
    all buffered records are tagged. *)
Theorem C56_trie_tagging_static (qlt : qorder crec) {QO : QOrder qlt} :
  forall literal search C ops e rs, valid_cfg C -> c_del C = TAGGING -> search_exact search ->
  no_blank literal ops -> distinct_keys ops -> survivors (c_lwm C) ops ->
  trie_run_new qlt literal search C ops = Ok (e, rs) ->
  buffer_records e = [] \/ (exists w, In w (buffer_records e) /\ is_del w = false) ->
  exists s, create_static_structure (trie_shards qlt literal) e = Ok (e, s) /\ s_reccnt s = length (live ops) /\
    Permutation (live ops) (map wrec (s_data s)) /\ sorted (s_data s) /\
    Forall (fun w => is_ts w = false /\ is_del w = false) (s_data s).
Proof. exact (fun literal search C ops e rs V TG SE => trie_tag_static qlt literal C V TG search SE ops e rs). Qed.
Print Assumptions C56_trie_tagging_static.

(** C55: with erases by tagging a point lookup returns the live record with the key, or
    nothing.  Missing: keys at other addresses (false, see C55_address_refuted) and blocks
    that are erased altogether (false, see C55_all_tagged_refuted). *)
Theorem C55_tagging_partial (qlt : qorder crec) {QO : QOrder qlt} :
  forall literal search C ops e rs k a, valid_cfg C -> c_del C = TAGGING -> search_exact search ->
  no_blank literal ops -> distinct_keys ops -> survivors (c_lwm C) ops -> at_address a k ops ->
  trie_run_new qlt literal search C ops = Ok (e, rs) ->
  trie_point_lookup search e k a = Ok (e, filter (has_str k) (live ops)).
Proof. exact (fun literal search C ops e rs k a V TG SE => trie_tag_lookup qlt literal C V TG search SE ops e rs k a). Qed.
Print Assumptions C55_tagging_partial.

Definition tt_ops : list (op crec) :=
  tx_ops ++ [Del (tx_rec 1); Del (tx_rec 19); Del (tx_rec 30); Del (tx_rec 1); Ins (tx_rec 20)].

Lemma tt_survivors : survivors 3 tt_ops.
Proof.
  intros k L. change (length (inserted tt_ops)) with 21 in L.
  destruct k as [|[|[|[|[|[|[|k]]]]]]]; try (vm_compute; eexists; split; [right; right; left; reflexivity|reflexivity]);
    try (vm_compute; eexists; split; [left; reflexivity|reflexivity]).
  exfalso. lia.
Qed.

Example C55_tagging_case : forall C, In C kt_cfgs ->
  valid_cfg C /\ c_del C = TAGGING /\ search_exact first_of /\ no_blank 7 tt_ops /\ distinct_keys tt_ops /\
  survivors (c_lwm C) tt_ops /\ at_address 101 [7; 1]%N tt_ops /\
  exists e rs s w, trie_run_new by_version 7 first_of C tt_ops = Ok (e, rs) /\ 1 < length (levels_of e) /\
    nth 20 rs 9 = 1 /\ nth 22 rs 9 = 0 /\ length (live tt_ops) = 19 /\ 19 < length (stored e) /\
    trie_point_lookup first_of e [7; 1]%N 101 = Ok (e, []) /\
    trie_point_lookup first_of e [21; 0]%N 103 = Ok (e, [tx_rec 3]) /\
    trie_point_lookup first_of e [8; 1]%N 119 = Ok (e, []) /\
    In w (buffer_records e) /\ is_del w = false /\
    create_static_structure (trie_shards by_version 7) e = Ok (e, s) /\ s_reccnt s = 19.
Proof.
  intros C H. split; [|split; [|split; [|split; [|split; [|split; [|split]]]]]].
  - simpl in H. decompose [or] H; subst; try contradiction; unfold valid_cfg; simpl; repeat split; lia || auto.
  - simpl in H; decompose [or] H; subst; try contradiction; auto.
  - exact first_of_exact.
  - intros o Ho. unfold tt_ops in Ho. apply in_app_or in Ho as [Ho|Ho].
    + unfold tx_ops in Ho. apply in_map_iff in Ho as (i & <- & _). simpl. lia.
    + simpl in Ho. decompose [or] Ho; subst; try contradiction; simpl; lia.
  - unfold distinct_keys. vm_compute.
    repeat (constructor; [simpl; intros X; decompose [or] X; try discriminate; try tauto|]). constructor.
  - replace (c_lwm C) with 3 by (simpl in H; decompose [or] H; subst; try contradiction; auto). exact tt_survivors.
  - intros r Hr. vm_compute in Hr. decompose [or] Hr; subst; try contradiction; simpl; split; congruence.
  - simpl in H. decompose [or] H; subst; try contradiction; vm_compute; do 4 eexists;
      repeat match goal with |- _ /\ _ => split end; try (left; reflexivity); repeat constructor.
Qed.

(** C55 and C56 fail when all records of a block are erased before it is flushed: the trie
    of the shard does not exist, and the next erase or lookup uses it. *)
Theorem C55_all_tagged_refuted : exists C (ops : list (op crec)) e rs r, valid_cfg C /\ c_del C = TAGGING /\
  no_blank 7 ops /\ distinct_keys ops /\ trie_run_new by_version 7 first_of C ops = Ok (e, rs) /\
  live ops = [r] /\ trie_point_lookup first_of e [99]%N 3 = Fail FNull /\
  trie_run_new by_version 7 first_of C (ops ++ [Del r]) = Fail FNull.
Proof.
  exists (Cfg LEVELING TAGGING 1 1 2), [Ins (tx_rec 0); Del (tx_rec 0); Ins (tx_rec 1)]. do 2 eexists.
  exists (tx_rec 1).
  split; [unfold valid_cfg; simpl; repeat split; lia || discriminate|]. split; [reflexivity|].
  split; [intros o Ho; simpl in Ho; decompose [or] Ho; subst; try contradiction; simpl; lia|].
  split; [unfold distinct_keys; vm_compute;
    repeat (constructor; [simpl; intros X; decompose [or] X; try discriminate; try tauto|]); constructor|].
  split; [vm_compute; reflexivity|]. split; [vm_compute; reflexivity|]. split; vm_compute; reflexivity.
Qed.
Print Assumptions C55_all_tagged_refuted.

(** The static structure cannot be built when all buffered records are tagged: the merge
    reads the first record of a shard that has none. *)
Theorem C56_static_tagged_refuted : exists C (ops : list (op crec)) e rs, valid_cfg C /\ c_del C = TAGGING /\
  no_blank 7 ops /\ distinct_keys ops /\ survivors (c_lwm C) ops /\
  trie_run_new by_version 7 first_of C ops = Ok (e, rs) /\ length (live ops) = 2 /\
  create_static_structure (trie_shards by_version 7) e = Fail FOob.
Proof.
  exists (Cfg LEVELING TAGGING 2 3 2), [Ins (tx_rec 0); Ins (tx_rec 1); Ins (tx_rec 2); Del (tx_rec 2)]. do 2 eexists.
  split; [unfold valid_cfg; simpl; repeat split; lia || discriminate|]. split; [reflexivity|].
  split; [intros o Ho; simpl in Ho; decompose [or] Ho; subst; try contradiction; simpl; lia|].
  split; [unfold distinct_keys; vm_compute;
    repeat (constructor; [simpl; intros X; decompose [or] X; try discriminate; try tauto|]); constructor|].
  split.
  { intros k L. cbn [c_lwm] in *. change (length (inserted _)) with 3 in L.
    destruct k as [|k]; [vm_compute; eexists; split; [left; reflexivity|reflexivity]|exfalso; lia]. }
  split; [vm_compute; reflexivity|]. split; vm_compute; reflexivity.
Qed.
Print Assumptions C56_static_tagged_refuted.

(** C56 fails for tagging with a key that was inserted twice, also if the trie finds the
    first of several equal keys: both erases report success and tag the same record. *)
Theorem C56_repeated_refuted : exists C (ops : list (op crec)) e s r r' x, valid_cfg C /\ c_del C = TAGGING /\
  no_blank 7 ops /\ survivors (c_lwm C) ops /\
  trie_run_new by_version 7 first_of C ops = Ok (e, repeat 1 (length ops)) /\ live ops = [r; r'] /\
  create_static_structure (trie_shards by_version 7) e = Ok (e, s) /\ map wrec (s_data s) = [x; r; r'].
Proof.
  exists (Cfg LEVELING TAGGING 3 4 2),
    [Ins (tx_rec 0); Ins (tx_rec 0); Ins (tx_rec 1); Ins (tx_rec 2); Del (tx_rec 0); Del (tx_rec 0)].
  do 2 eexists. exists (tx_rec 1), (tx_rec 2), (tx_rec 0).
  split; [unfold valid_cfg; simpl; repeat split; lia || discriminate|]. split; [reflexivity|].
  split; [intros o Ho; simpl in Ho; decompose [or] Ho; subst; try contradiction; simpl; lia|].
  split.
  { intros k L. cbn [c_lwm] in *. change (length (inserted _)) with 4 in L.
    destruct k as [|k]; [|exfalso; lia]. vm_compute. eexists. split; [right; right; left; reflexivity|reflexivity]. }
  split; [vm_compute; reflexivity|]. split; [vm_compute; reflexivity|]. split; vm_compute; reflexivity.
Qed.
Print Assumptions C56_repeated_refuted.

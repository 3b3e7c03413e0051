(** The destruction of FSTrie shards (C79). *)
From Coq Require Import List Arith ZArith NArith Lia Bool.
From Verif Require Import Base RecordModel BufferModel MergeModel MergeProofs StructModel ExtModel QueryModel Spec
  KindModel KindSpec KindProofs KindTag Prop_Kind Prop_KindTag MemModel DropModel DropProofs DropTag
  FlushModel FlushSpec FlushMore BufConcModel SysModel SysStill SysSpec SysQuery FlushProofs FlushCancel Prop_Whole Prop_Reads DropFlush.
Import ListNotations.

(** C79: without erases every FSTrie shard that is built, also only to be merged with
    another one, can be destroyed; the histories are those of the other trie. *)
Theorem C79_inserts (qlt : qorder crec) {QO : QOrder qlt} :
  forall literal C ops, valid_cfg C -> insert_only ops -> no_blank literal ops ->
  exists e, run_new (fst_shards qlt literal) C ops = Ok (e, repeat 1 (length ops)) /\
    run_new (trie_shards qlt literal) C ops = Ok (e, repeat 1 (length ops)).
Proof. exact (fst_inserts qlt). Qed.
Print Assumptions C79_inserts.

(** With erases by tombstones, if fewer than half of the calls between two flushes are
    erases.  Missing: more erases (false, C79_erased_refuted), blocks that are all tagged
    (false, C79_tagged_refuted) and blank keys (false, C79_blank_refuted). *)
Theorem C79_erases_partial (qlt : qorder crec) {QO : QOrder qlt} :
  forall literal C ops, valid_cfg C -> c_del C = TOMBSTONE -> no_blank literal ops -> mostly_inserts (c_lwm C) ops ->
  exists e, run_new (fst_shards qlt literal) C ops = Ok (e, repeat 1 (length ops)) /\
    run_new (trie_shards qlt literal) C ops = Ok (e, repeat 1 (length ops)).
Proof. exact (fst_mostly qlt). Qed.
Print Assumptions C79_erases_partial.

(** The static structure of an index that is not empty can be destroyed, and so can the
    shards that are built on the way. *)
Theorem C79_static (qlt : qorder crec) {QO : QOrder qlt} :
  forall literal C ops e rs, valid_cfg C -> insert_only ops -> no_blank literal ops -> ops <> [] ->
  run_new (trie_shards qlt literal) C ops = Ok (e, rs) ->
  exists s, create_static_structure (fst_shards qlt literal) e = Ok (e, s) /\ s_reccnt s = length ops /\
    create_static_structure (trie_shards qlt literal) e = Ok (e, s) /\ fst_destroy s = Ok tt.
Proof. exact (fst_static qlt). Qed.
Print Assumptions C79_static.

(** The index can be destroyed, and the memory usage that it reports is that of the buffer
    and of all tries. *)
Theorem C79_destroy (qlt : qorder crec) {QO : QOrder qlt} :
  forall literal C ops e rs, valid_cfg C -> insert_only ops -> no_blank literal ops ->
  run_new (trie_shards qlt literal) C ops = Ok (e, rs) ->
  destroy_index e = Ok tt /\ forall size wsize, get_memory_usage (fst_mem size) wsize e =
    Ok (e, 2 * c_hwm C * wsize +
      fold_right Nat.add 0 (map (fun d => size (map (fun w => c_str (wrec w)) d)) (concat (levels_of e)))).
Proof. exact (fst_rest_inserts qlt). Qed.
Print Assumptions C79_destroy.

Theorem C79_destroy_erases_partial (qlt : qorder crec) {QO : QOrder qlt} :
  forall literal C ops e rs, valid_cfg C -> c_del C = TOMBSTONE -> no_blank literal ops -> mostly_inserts (c_lwm C) ops ->
  run_new (trie_shards qlt literal) C ops = Ok (e, rs) ->
  destroy_index e = Ok tt /\ forall size wsize, get_memory_usage (fst_mem size) wsize e =
    Ok (e, 2 * c_hwm C * wsize +
      fold_right Nat.add 0 (map (fun d => size (map (fun w => c_str (wrec w)) d)) (concat (levels_of e)))).
Proof. exact (fst_rest_mostly qlt). Qed.
Print Assumptions C79_destroy_erases_partial.

(** With erases by tagging, if one record of each flush is never erased and the keys
    differ: every shard that is built can be destroyed. *)
Theorem C79_tagging_partial (qlt : qorder crec) {QO : QOrder qlt} :
  forall literal C, valid_cfg C -> c_del C = TAGGING -> forall search, search_exact search -> forall ops,
  no_blank literal ops -> distinct_keys ops -> survivors (c_lwm C) ops ->
  exists e rs, run_new_by (trie_find search) (fst_shards qlt literal) C ops = Ok (e, rs) /\
    trie_run_new qlt literal search C ops = Ok (e, rs).
Proof. exact (fst_tag_runs qlt). Qed.
Print Assumptions C79_tagging_partial.

(** And so can the index. *)
Theorem C79_destroy_tagging_partial (qlt : qorder crec) {QO : QOrder qlt} :
  forall literal C, valid_cfg C -> c_del C = TAGGING -> forall search, search_exact search -> forall ops,
  no_blank literal ops -> distinct_keys ops -> survivors (c_lwm C) ops ->
  forall e rs, trie_run_new qlt literal search C ops = Ok (e, rs) ->
  destroy_index e = Ok tt /\ forall size wsize, get_memory_usage (fst_mem size) wsize e =
    Ok (e, 2 * c_hwm C * wsize +
      fold_right Nat.add 0 (map (fun d => size (map (fun w => c_str (wrec w)) d)) (concat (levels_of e)))).
Proof. exact (fst_tag_rest qlt). Qed.
Print Assumptions C79_destroy_tagging_partial.

(** And so can the static structure, if the buffer holds a record that is not tagged. *)
Theorem C79_static_tagging_partial (qlt : qorder crec) {QO : QOrder qlt} :
  forall literal C, valid_cfg C -> c_del C = TAGGING -> forall search, search_exact search ->
  forall ops e rs, no_blank literal ops -> distinct_keys ops -> survivors (c_lwm C) ops ->
  trie_run_new qlt literal search C ops = Ok (e, rs) -> (exists w, In w (buffer_records e) /\ is_del w = false) ->
  exists s, create_static_structure (fst_shards qlt literal) e = Ok (e, s) /\ s_reccnt s = length (live ops) /\
    create_static_structure (trie_shards qlt literal) e = Ok (e, s) /\ fst_destroy s = Ok tt.
Proof. exact (fst_tag_static qlt). Qed.
Print Assumptions C79_static_tagging_partial.

(** C79 for reconstructions of any sizes: without erases, every shard that they build and
    every one that is left can be destroyed. *)
Theorem C79_flushes (qlt : qorder crec) {QO : QOrder qlt} :
  forall literal C, valid_cfg C -> forall bs runs, Forall2 shows bs runs -> Forall (Forall (trie_plain literal)) runs ->
  Forall (run_size (c_hwm C)) runs ->
  exists st, flush_all (trie_shards qlt literal) C st_empty bs = Ok st /\
    flush_all (fst_shards qlt literal) C st_empty bs = Ok st /\
    forall l s, In l (st_levels st) -> In s (lv_shards l) -> fst_destroy s = Ok tt.
Proof. exact (fun literal C V bs runs F A => fst_flushes qlt literal C V bs runs F (fit_runs literal runs A)). Qed.
Print Assumptions C79_flushes.

(** With erases by tombstones, if each flush has more records than tombstones.  Missing: as
    for C79_erases_partial. *)
Theorem C79_flush_erases_partial (qlt : qorder crec) {QO : QOrder qlt} :
  forall literal C, valid_cfg C -> forall bs runs, Forall2 shows bs runs -> Forall mostly_plain runs ->
  Forall (Forall (trie_shown literal)) runs -> Forall (run_size (c_hwm C)) runs ->
  exists st, flush_all (trie_shards qlt literal) C st_empty bs = Ok st /\
    flush_all (fst_shards qlt literal) C st_empty bs = Ok st /\
    forall l s, In l (st_levels st) -> In s (lv_shards l) -> fst_destroy s = Ok tt.
Proof. exact (fst_flush_erases qlt). Qed.
Print Assumptions C79_flush_erases_partial.

(** C79 when threads insert, flush and read concurrently: the reconstructions before any
    read.  Missing: the executions that are not still (as for C63). *)
Theorem C79_concurrent_partial (qlt : qorder crec) {QO : QOrder qlt} :
  forall literal C, valid_cfg C -> forall cap, 2 * c_hwm C <= cap -> forall n (s : sys crec) seen runs buf bs,
  sreach (c_lwm C) (c_hwm C) cap still (sys_init (c_hwm C) cap n) s ->
  no_erase (cs_done (y_buf s)) -> (forall r, In r (a_recs (cs_done (y_buf s))) -> c_addr r <> literal) ->
  In (AList seen runs buf) (y_ans s) -> Forall2 shows bs runs ->
  exists st, flush_all (trie_shards qlt literal) C st_empty bs = Ok st /\
    flush_all (fst_shards qlt literal) C st_empty bs = Ok st /\
    forall l s, In l (st_levels st) -> In s (lv_shards l) -> fst_destroy s = Ok tt.
Proof. exact (fst_concurrent qlt). Qed.
Print Assumptions C79_concurrent_partial.

(** The same with erases, if each flush has more records than tombstones. *)
Theorem C79_concurrent_erases_partial (qlt : qorder crec) {QO : QOrder qlt} :
  forall literal C, valid_cfg C -> forall cap, 2 * c_hwm C <= cap -> forall n (s : sys crec) seen runs buf bs,
  sreach (c_lwm C) (c_hwm C) cap still (sys_init (c_hwm C) cap n) s ->
  (forall r, In r (a_recs (cs_done (y_buf s))) -> c_addr r <> literal) ->
  In (AList seen runs buf) (y_ans s) -> Forall mostly_plain runs -> Forall2 shows bs runs ->
  exists st, flush_all (trie_shards qlt literal) C st_empty bs = Ok st /\
    flush_all (fst_shards qlt literal) C st_empty bs = Ok st /\
    forall l s, In l (st_levels st) -> In s (lv_shards l) -> fst_destroy s = Ok tt.
Proof. exact (fst_concurrent_erases qlt). Qed.
Print Assumptions C79_concurrent_erases_partial.

(** C79 fails: a record that is merged with its tombstone leaves a shard without records,
    and the destructor frees a pointer that was never set. *)
Theorem C79_erased_refuted : exists C (ops : list (op crec)) e rs r, valid_cfg C /\ c_del C = TOMBSTONE /\
  no_blank 7 ops /\ run_new (trie_shards by_version 7) C ops = Ok (e, rs) /\ live ops = [r] /\
  destroy_index e = Fail FNull /\ run_new (fst_shards by_version 7) C ops = Fail FNull /\
  forall size, get_memory_usage (fst_mem size) 24 e = Fail FNull.
Proof.
  exists (Cfg LEVELING TOMBSTONE 1 1 2), [Ins (tx_rec 0); Del (tx_rec 0); Ins (tx_rec 1)]. do 2 eexists. exists (tx_rec 1).
  split; [unfold valid_cfg; simpl; repeat split; lia || discriminate|]. split; [reflexivity|].
  split; [intros o Ho; simpl in Ho; decompose [or] Ho; subst; try contradiction; simpl; lia|].
  split; [vm_compute; reflexivity|]. split; [vm_compute; reflexivity|]. split; [vm_compute; reflexivity|].
  split; [vm_compute; reflexivity|]. intros size. vm_compute. reflexivity.
Qed.
Print Assumptions C79_erased_refuted.

(** So does a flush of records that have all been tagged. *)
Theorem C79_tagged_refuted : exists C (ops : list (op crec)) e rs r, valid_cfg C /\ c_del C = TAGGING /\
  no_blank 7 ops /\ trie_run_new by_version 7 first_of C ops = Ok (e, rs) /\ live ops = [r] /\
  destroy_index e = Fail FNull /\
  run_new_by (trie_find first_of) (fst_shards by_version 7) C ops = Fail FNull.
Proof.
  exists (Cfg LEVELING TAGGING 1 1 2), [Ins (tx_rec 0); Del (tx_rec 0); Ins (tx_rec 1)]. do 2 eexists. exists (tx_rec 1).
  split; [unfold valid_cfg; simpl; repeat split; lia || discriminate|]. split; [reflexivity|].
  split; [intros o Ho; simpl in Ho; decompose [or] Ho; subst; try contradiction; simpl; lia|].
  split; [vm_compute; reflexivity|]. split; [vm_compute; reflexivity|]. split; vm_compute; reflexivity.
Qed.
Print Assumptions C79_tagged_refuted.

(** So does a flush of records whose keys are all the empty literal. *)
Theorem C79_blank_refuted : exists C (ops : list (op crec)) e rs, valid_cfg C /\ insert_only ops /\
  run_new (trie_shards by_version 7) C ops = Ok (e, rs) /\ destroy_index e = Fail FNull.
Proof.
  exists (Cfg TIERING TOMBSTONE 1 1 2), [Ins (CRec [] 7 0); Ins (tx_rec 1)]. do 2 eexists.
  split; [unfold valid_cfg; simpl; repeat split; lia || discriminate|].
  split; [intros o Ho; simpl in Ho; decompose [or] Ho; subst; try contradiction; eauto|].
  split; vm_compute; reflexivity.
Qed.
Print Assumptions C79_blank_refuted.

(** And the static structure of an empty index cannot be destroyed. *)
Theorem C79_empty_refuted : exists C e s, valid_cfg C /\ run_new (fst_shards by_version 7) C [] = Ok (e, []) /\
  create_static_structure (trie_shards by_version 7) e = Ok (e, s) /\ fst_destroy s = Fail FNull /\
  create_static_structure (fst_shards by_version 7) e = Fail FNull.
Proof.
  exists (Cfg LEVELING TOMBSTONE 3 4 2). do 2 eexists.
  split; [unfold valid_cfg; simpl; repeat split; lia || discriminate|].
  split; [vm_compute; reflexivity|]. split; [vm_compute; reflexivity|]. split; vm_compute; reflexivity.
Qed.
Print Assumptions C79_empty_refuted.

(** ** The hypotheses are met *)

(** The histories of Prop_Kind.v (see C55_case and C56_tombstones_case there). *)
Example C79_case : forall C, In C kx_cfgs -> exists e rs s,
  run_new (fst_shards by_version 7) C tx_ops = Ok (e, rs) /\ 1 < length (levels_of e) /\ destroy_index e = Ok tt /\
  create_static_structure (fst_shards by_version 7) e = Ok (e, s) /\ s_reccnt s = 20 /\
  get_memory_usage (fst_mem (fun ks => 5 * length ks)) 24 e = Ok (e, 2 * 4 * 24 + 5 * 18).
Proof.
  intros C H. simpl in H. decompose [or] H; subst; try contradiction; do 3 eexists;
    (split; [vm_compute; reflexivity|]; split; [vm_compute; lia|]; split; [vm_compute; reflexivity|];
     split; [vm_compute; reflexivity|]; split; vm_compute; reflexivity).
Qed.
Example C79_erases_case : forall C, In C kx_cfgs -> exists e rs,
  run_new (fst_shards by_version 7) C tx_tomb = Ok (e, rs) /\ destroy_index e = Ok tt.
Proof.
  intros C H. simpl in H. decompose [or] H; subst; try contradiction; do 2 eexists; split; vm_compute; reflexivity.
Qed.
(** The history of Prop_KindTag.v (see C55_tagging_case there). *)
Example C79_tagging_case : forall C, In C kt_cfgs -> exists e rs s,
  run_new_by (trie_find first_of) (fst_shards by_version 7) C tt_ops = Ok (e, rs) /\ destroy_index e = Ok tt /\
  create_static_structure (fst_shards by_version 7) e = Ok (e, s) /\ s_reccnt s = 19.
Proof.
  intros C H. simpl in H. decompose [or] H; subst; try contradiction; do 3 eexists;
    (split; [vm_compute; reflexivity|]; split; [vm_compute; reflexivity|]; split; vm_compute; reflexivity).
Qed.
(** The execution of Prop_Reads.v (see tr_answer, tr_keys, tr_shows and tr_fit there). *)
Example C79_flush_case : forall l, exists st,
  flush_all (fst_shards by_version 7) (wh_cfg l) st_empty [tr_batch] = Ok st /\ length (concat (map lv_shards (st_levels st))) = 1.
Proof. intros []; eexists; (split; [vm_compute; reflexivity|]); reflexivity. Qed.
(** Those with erases (see te_answer, te_fit and tf_fit there). *)
Example C79_flush_erases_case : forall l, exists st st',
  flush_all (fst_shards by_version 7) (te_cfg l) st_empty [te_batch] = Ok st /\ length (concat (map lv_shards (st_levels st))) = 1 /\
  flush_all (fst_shards by_version 7) (te_cfg l) st_empty tf_batches = Ok st' /\
  length (concat (map lv_shards (st_levels st'))) = match l with LEVELING => 1 | _ => 2 end.
Proof. intros []; do 2 eexists; repeat (split; [vm_compute; reflexivity|]); reflexivity. Qed.

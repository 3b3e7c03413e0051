(** Level sizes, heights and the planner's counts of indexes over VPTree, FSTrie and
    LoudsPatricia shards (C13, C15, C44, C57). *)
From Coq Require Import List Arith ZArith NArith Lia Bool Permutation Sorted.
From Verif Require Import Base RecordModel BufferModel MergeModel MergeProofs StructModel ExtModel QueryModel
  Spec FlushModel FlushSpec KindModel KindSpec KindProofs CountProofs KindTag Prop_Kind Prop_KindTag FlushMore
  KindSize KindBsm Prop_Flush.
Import ListNotations.

(** ** VPTree *)

(** No shard ever becomes empty, so that the next theorem applies, if erases are by
    tombstones or there are none, or if erases are by tagging and every block of records
    flushed together has one that is never erased. *)
Theorem C13_vp_no_empty {R : Type} {RO : RecOps R} {RL : RecLaws R} :
  forall C (ops : list (op R)), valid_cfg C ->
  appending C ops \/ (c_del C = TAGGING /\ survivors (c_lwm C) ops) -> bsm_safe vp_shards C ops.
Proof. exact (fun C ops V => vp_safe C V ops). Qed.
Print Assumptions C13_vp_no_empty.

(** C13: the sizes of the levels.  Missing: BSM histories on the way of which a shard
    becomes empty, and the factor two under leveling, which cannot be removed
    (C13_vp_leveling_refuted). *)
Theorem C13_vp_capacity_partial {R : Type} {RO : RecOps R} :
  forall C (ops : list (op R)) e rs i ls, valid_cfg C -> bsm_safe vp_shards C ops ->
  run_new vp_shards C ops = Ok (e, rs) -> nth_error (levels_of e) i = Some ls ->
  length ls <= max_shards C /\
  match c_layout C with
  | LEVELING => (i <= 1 -> length (concat ls) <= c_hwm C * c_sf C ^ (i + 1)) /\
                (2 <= c_sf C -> length (concat ls) <= 2 * (c_hwm C * c_sf C ^ (i + 1)))
  | _ => length (concat ls) <= c_lwm C * c_sf C ^ (i + 1)
  end.
Proof. exact (fun C ops e rs i ls V => vp_sizes C V ops e rs i ls). Qed.
Print Assumptions C13_vp_capacity_partial.

(** C13: the records of a level under tiering and BSM, also when shards become empty.
    Missing: leveling. *)
Theorem C13_vp_records_partial {R : Type} {RO : RecOps R} :
  forall C (ops : list (op R)) e rs i ls, valid_cfg C -> c_layout C <> LEVELING ->
  run_new vp_shards C ops = Ok (e, rs) -> nth_error (levels_of e) i = Some ls ->
  length (concat ls) <= c_lwm C * c_sf C ^ (i + 1).
Proof. exact (fun C ops e rs i ls V => vp_any_records C V ops e rs i ls). Qed.
Print Assumptions C13_vp_records_partial.

(** C15: a height needs a number of calls exponential in it. *)
Theorem C15_vp_height {R : Type} {RO : RecOps R} :
  forall C (ops : list (op R)) e rs h, valid_cfg C ->
  run_new vp_shards C ops = Ok (e, rs) -> get_height e = Ok (e, h) ->
  match c_layout C with
  | TIERING => 1 <= h -> c_lwm C * c_sf C ^ (h - 1) < length ops
  | BSM => 2 <= h -> c_lwm C * (2 ^ (h - 2) + 1) < length ops
  | LEVELING => 3 <= h -> c_hwm C * c_sf C ^ (h - 1) < length ops
  end.
Proof. exact (fun C ops e rs h V => vp_any_height C V ops e rs h). Qed.
Print Assumptions C15_vp_height.

(** C44: what the planner has counted is what the levels hold. *)
Theorem C44_vp_bookkeeping {R : Type} {RO : RecOps R} :
  forall C (ops : list (op R)) e rs, valid_cfg C -> run_new vp_shards C ops = Ok (e, rs) ->
  planned_counts e = map (fun ls => (length (concat ls), length ls)) (levels_of e).
Proof. exact (fun C ops e rs V => vp_any_bookkeeping C V ops e rs). Qed.
Print Assumptions C44_vp_bookkeeping.

(** C57: the same sizes and heights after any sequence of background flushes. *)
Theorem C57_vp_sizes {R : Type} {RO : RecOps R} :
  forall C bs (runs : list (list (wrapped R))) st i ls, valid_cfg C -> Forall2 shows bs runs ->
  Forall (Forall (fun w => is_del w = false)) runs -> Forall (run_size (c_hwm C)) runs ->
  flush_all vp_shards C st_empty bs = Ok st -> nth_error (st_runs st) i = Some ls ->
  length ls <= max_shards C /\
  match c_layout C with
  | LEVELING => (i <= 1 -> length (concat ls) <= c_hwm C * c_sf C ^ (i + 1)) /\
                (2 <= c_sf C -> length (concat ls) <= 2 * (c_hwm C * c_sf C ^ (i + 1)))
  | _ => length (concat ls) <= c_hwm C * c_sf C ^ (i + 1)
  end.
Proof. exact (fun C bs runs st i ls V => keep_flush_sizes vp_shards C V bs runs st i ls). Qed.
Print Assumptions C57_vp_sizes.

Theorem C57_vp_height {R : Type} {RO : RecOps R} :
  forall C bs (runs : list (list (wrapped R))) st, valid_cfg C -> Forall2 shows bs runs ->
  Forall (Forall (fun w => is_del w = false)) runs -> Forall (run_size (c_hwm C)) runs ->
  flush_all vp_shards C st_empty bs = Ok st ->
  let h := length (st_runs st) in
  match c_layout C with
  | TIERING => 1 <= h -> c_sf C ^ (h - 1) <= length runs
  | BSM => 2 <= h -> 2 ^ (h - 2) + 1 <= length runs
  | LEVELING => 3 <= h -> c_hwm C * c_sf C ^ (h - 1) < length (concat runs)
  end.
Proof. exact (fun C bs runs st V => keep_flush_height vp_shards C V bs runs st). Qed.
Print Assumptions C57_vp_height.

(** ** Tries *)

(** No shard becomes empty without erases. *)
Theorem C13_trie_no_empty (qlt : qorder crec) {QO : QOrder qlt} :
  forall literal C ops, valid_cfg C -> insert_only ops -> no_blank literal ops ->
  bsm_safe (trie_shards qlt literal) C ops.
Proof. exact (fun literal C ops V => trie_safe qlt literal C V ops). Qed.
Print Assumptions C13_trie_no_empty.

(** C13 with erases by tombstones, or without erases.  Missing: as for VPTree. *)
Theorem C13_trie_capacity_partial (qlt : qorder crec) {QO : QOrder qlt} :
  forall literal C ops e rs i ls, valid_cfg C -> appending C ops -> bsm_safe (trie_shards qlt literal) C ops ->
  run_new (trie_shards qlt literal) C ops = Ok (e, rs) -> nth_error (levels_of e) i = Some ls ->
  length ls <= max_shards C /\
  match c_layout C with
  | LEVELING => (i <= 1 -> length (concat ls) <= c_hwm C * c_sf C ^ (i + 1)) /\
                (2 <= c_sf C -> length (concat ls) <= 2 * (c_hwm C * c_sf C ^ (i + 1)))
  | _ => length (concat ls) <= c_lwm C * c_sf C ^ (i + 1)
  end.
Proof. exact (fun literal C ops e rs i ls V _ => trie_sizes qlt literal C V ops e rs i ls). Qed.
Print Assumptions C13_trie_capacity_partial.

(** C13: the records of a level under tiering and BSM.  Missing: leveling. *)
Theorem C13_trie_records_partial (qlt : qorder crec) {QO : QOrder qlt} :
  forall literal C ops e rs i ls, valid_cfg C -> appending C ops -> c_layout C <> LEVELING ->
  run_new (trie_shards qlt literal) C ops = Ok (e, rs) -> nth_error (levels_of e) i = Some ls ->
  length (concat ls) <= c_lwm C * c_sf C ^ (i + 1).
Proof. exact (fun literal C ops e rs i ls V _ => trie_any_records C V qlt literal ops e rs i ls). Qed.
Print Assumptions C13_trie_records_partial.

(** C15 with erases by tombstones, or without erases. *)
Theorem C15_trie_height (qlt : qorder crec) {QO : QOrder qlt} :
  forall literal C ops e rs h, valid_cfg C -> appending C ops ->
  run_new (trie_shards qlt literal) C ops = Ok (e, rs) -> get_height e = Ok (e, h) ->
  match c_layout C with
  | TIERING => 1 <= h -> c_lwm C * c_sf C ^ (h - 1) < length ops
  | BSM => 2 <= h -> c_lwm C * (2 ^ (h - 2) + 1) < length ops
  | LEVELING => 3 <= h -> c_hwm C * c_sf C ^ (h - 1) < length ops
  end.
Proof. exact (fun literal C ops e rs h V _ => trie_any_height C V qlt literal ops e rs h). Qed.
Print Assumptions C15_trie_height.

(** C44 with erases by tombstones, or without erases. *)
Theorem C44_trie_bookkeeping (qlt : qorder crec) {QO : QOrder qlt} :
  forall literal C ops e rs, valid_cfg C -> appending C ops ->
  run_new (trie_shards qlt literal) C ops = Ok (e, rs) ->
  planned_counts e = map (fun ls => (length (concat ls), length ls)) (levels_of e).
Proof. exact (fun literal C ops e rs V _ => trie_any_bookkeeping C V qlt literal ops e rs). Qed.
Print Assumptions C44_trie_bookkeeping.

(** C13 and C15 with erases by tagging.  Missing: also keys that are inserted twice, and
    blocks that are erased altogether (the calls then fail, C55_all_tagged_refuted). *)
Theorem C13_trie_tagging_partial (qlt : qorder crec) {QO : QOrder qlt} :
  forall literal search C ops e rs i ls, valid_cfg C -> search_exact search -> c_del C = TAGGING ->
  no_blank literal ops -> distinct_keys ops -> survivors (c_lwm C) ops ->
  trie_run_new qlt literal search C ops = Ok (e, rs) -> nth_error (levels_of e) i = Some ls ->
  length ls <= max_shards C /\
  match c_layout C with
  | LEVELING => (i <= 1 -> length (concat ls) <= c_hwm C * c_sf C ^ (i + 1)) /\
                (2 <= c_sf C -> length (concat ls) <= 2 * (c_hwm C * c_sf C ^ (i + 1)))
  | _ => length (concat ls) <= c_lwm C * c_sf C ^ (i + 1)
  end.
Proof. exact (fun literal search C ops e rs i ls V SE => trie_tag_sizes qlt literal C V search SE ops e rs i ls). Qed.
Print Assumptions C13_trie_tagging_partial.

Theorem C15_trie_tagging_partial (qlt : qorder crec) {QO : QOrder qlt} :
  forall literal search C ops e rs h, valid_cfg C -> search_exact search -> c_del C = TAGGING ->
  no_blank literal ops -> distinct_keys ops -> survivors (c_lwm C) ops ->
  trie_run_new qlt literal search C ops = Ok (e, rs) -> get_height e = Ok (e, h) ->
  match c_layout C with
  | TIERING => 1 <= h -> c_lwm C * c_sf C ^ (h - 1) < length ops
  | BSM => 2 <= h -> c_lwm C * (2 ^ (h - 2) + 1) < length ops
  | LEVELING => 3 <= h -> c_hwm C * c_sf C ^ (h - 1) < length ops
  end.
Proof. exact (fun literal search C ops e rs h V SE => trie_tag_height qlt literal C V search SE ops e rs h). Qed.
Print Assumptions C15_trie_tagging_partial.

(** C57, without erases. *)
Theorem C57_trie_sizes (qlt : qorder crec) {QO : QOrder qlt} :
  forall literal C bs runs st i ls, valid_cfg C -> Forall2 shows bs runs ->
  Forall (Forall (trie_plain literal)) runs -> Forall (run_size (c_hwm C)) runs ->
  flush_all (trie_shards qlt literal) C st_empty bs = Ok st -> nth_error (st_runs st) i = Some ls ->
  length ls <= max_shards C /\
  match c_layout C with
  | LEVELING => (i <= 1 -> length (concat ls) <= c_hwm C * c_sf C ^ (i + 1)) /\
                (2 <= c_sf C -> length (concat ls) <= 2 * (c_hwm C * c_sf C ^ (i + 1)))
  | _ => length (concat ls) <= c_hwm C * c_sf C ^ (i + 1)
  end.
Proof. exact (fun literal C bs runs st i ls V => trie_flush_sizes qlt literal C V bs runs st i ls). Qed.
Print Assumptions C57_trie_sizes.

Theorem C57_trie_height (qlt : qorder crec) {QO : QOrder qlt} :
  forall literal C bs runs st, valid_cfg C -> Forall2 shows bs runs ->
  Forall (Forall (trie_plain literal)) runs -> Forall (run_size (c_hwm C)) runs ->
  flush_all (trie_shards qlt literal) C st_empty bs = Ok st ->
  let h := length (st_runs st) in
  match c_layout C with
  | TIERING => 1 <= h -> c_sf C ^ (h - 1) <= length runs
  | BSM => 2 <= h -> 2 ^ (h - 2) + 1 <= length runs
  | LEVELING => 3 <= h -> c_hwm C * c_sf C ^ (h - 1) < length (concat runs)
  end.
Proof. exact (fun literal C bs runs st V => trie_flush_height qlt literal C V bs runs st). Qed.
Print Assumptions C57_trie_height.

(** ** The hypotheses are met *)

(** The histories of Prop_Kind.v and Prop_KindTag.v; their configurations are valid and no
    shard becomes empty (C13_vp_no_empty, C13_trie_no_empty). *)
Example kz_valid : forall C, In C (kx_cfgs ++ kt_cfgs) -> valid_cfg C.
Proof.
  intros C H. simpl in H. decompose [or] H; subst; try contradiction; unfold valid_cfg; simpl; repeat split; lia || auto.
Qed.
Example kz_vp_safe : (forall C, In C kx_cfgs -> bsm_safe vp_shards C kx_tomb) /\
  (forall C, In C kt_cfgs -> bsm_safe vp_shards C kt_ops).
Proof.
  split; intros C H; apply C13_vp_no_empty; try (apply kz_valid; apply in_or_app; auto).
  - left. left. simpl in H. decompose [or] H; subst; try contradiction; reflexivity.
  - right. split; [simpl in H; decompose [or] H; subst; try contradiction; reflexivity|].
    replace (c_lwm C) with 3 by (simpl in H; decompose [or] H; subst; try contradiction; auto). exact kt_survivors.
Qed.

(** The number of records in each shard of each level. *)
Definition kz_shape (a b c : list (list nat)) (C : cfg) : list (list nat) :=
  match c_layout C with TIERING => a | LEVELING => b | BSM => c end.
Example kz_vp : forall C, In C kx_cfgs -> exists e rs, run_new vp_shards C kx_tomb = Ok (e, rs) /\
  map (map (@length _)) (levels_of e) = kz_shape [[3]; [6]; [12]] [[3]; [6]; [12]] [[3]; []; [6]; [12]] C.
Proof. intros C H. simpl in H. decompose [or] H; subst; try contradiction; vm_compute; do 2 eexists; split; reflexivity. Qed.
Example kz_vp_tagging : forall C, In C kt_cfgs -> exists e rs, run_new vp_shards C kt_ops = Ok (e, rs) /\
  map (map (@length _)) (levels_of e) = kz_shape [[2]; [6]; [10]] [[2]; [6]; [12]] [[2]; []; [6]; [12]] C.
Proof. intros C H. simpl in H. decompose [or] H; subst; try contradiction; vm_compute; do 2 eexists; split; reflexivity. Qed.
Example kz_vp_flush : forall l, Forall (Forall (fun w => is_del w = false)) (fl_runs true) /\
  exists st, flush_all vp_shards (fl_cfg l) st_empty (fl_batches true) = Ok st /\
    map (map (@length _)) (st_runs st) =
      kz_shape [[2; 4]; [8; 6]; [12]; [23]] [[7]; [16]; [32]] [[4]; [2]; []; []; []; [49]] (fl_cfg l).
Proof.
  intros l. split; [|destruct l; vm_compute; eexists; split; reflexivity].
  apply Forall_forall. intros ws H. vm_compute in H. repeat (destruct H as [<-|H]; [repeat constructor|]). destruct H.
Qed.

(** Tries: [tx_ops] has no erase and [tt_ops] erases by tagging (C55_case, C55_tagging_case). *)
Example kz_trie : forall C, In C kx_cfgs -> bsm_safe (trie_shards by_version 7) C tx_ops /\
  exists e rs, run_new (trie_shards by_version 7) C tx_ops = Ok (e, rs) /\
  map (map (@length _)) (levels_of e) = kz_shape [[3; 3]; [6; 6]] [[6]; [12]] [[3]; [3]; []; [12]] C.
Proof.
  intros C H. split.
  - destruct (C55_case C H) as (V & IO & NB & _). apply C13_trie_no_empty; auto. exact by_version_order.
  - simpl in H. decompose [or] H; subst; try contradiction; vm_compute; do 2 eexists; split; reflexivity.
Qed.
Example kz_trie_tagging : forall C, In C kt_cfgs -> exists e rs,
  trie_run_new by_version 7 first_of C tt_ops = Ok (e, rs) /\
  map (map (@length _)) (levels_of e) = kz_shape [[3; 3]; [6; 6]] [[6]; [12]] [[3]; [3]; []; [12]] C.
Proof. intros C H. simpl in H. decompose [or] H; subst; try contradiction; vm_compute; do 2 eexists; split; reflexivity. Qed.

(** Five flushes of two strings each. *)
Definition kz_run (n : nat) : list (wrapped crec) := [append_rec (tx_rec (2 * n)) false 0; append_rec (tx_rec (2 * n + 1)) false 1].
Definition kz_runs : list (list (wrapped crec)) := map kz_run (seq 0 5).
Definition kz_batches : list (batch crec) := 
  map (fun n => ((if Nat.even n then kz_run n ++ kz_run 9 else kz_run 9 ++ kz_run n), View 4 (2 * n) (2 * n + 2) 0)) (seq 0 5).
Example kz_trie_flush : forall l, Forall2 shows kz_batches kz_runs /\ Forall (Forall (trie_plain 7)) kz_runs /\
  Forall (run_size 5) kz_runs /\
  exists st, flush_all (trie_shards by_version 7) (fl_cfg l) st_empty kz_batches = Ok st /\
    map (map (@length _)) (st_runs st) = kz_shape [[2]; [4; 4]] [[4]; [6]] [[2]; []; []; [8]] (fl_cfg l).
Proof.
  intros l. split; [|split; [|split]].
  - unfold kz_batches, kz_runs. cbn [map seq].
    do 5 (apply Forall2_cons; [split; [reflexivity|split; [reflexivity|split; [vm_compute; lia|]]];
      intros i I; cbn in I; do 2 (destruct i as [|i]; [reflexivity|]); lia|]). constructor.
  - apply Forall_forall. intros ws H. vm_compute in H.
    repeat (destruct H as [<-|H]; [repeat constructor; discriminate|]). destruct H.
  - repeat constructor.
  - destruct l; vm_compute; eexists; split; reflexivity.
Qed.

(** BSM histories in which a shard becomes empty: every record of a block is tagged, or
    cancels. *)
Example kz_empty :
  (exists e rs, valid_cfg (Cfg BSM TAGGING 2 2 2) /\
     run_new vp_shards (Cfg BSM TAGGING 2 2 2) [Ins (KV 1 0); Ins (KV 2 0); Del (KV 1 0); Del (KV 2 0); Ins (KV 3 0)] = Ok (e, rs) /\
     levels_of e = [[[]]] /\ get_height e = Ok (e, 1) /\ planned_counts e = [(0, 1)]) /\
  (exists e rs, valid_cfg (Cfg BSM TOMBSTONE 1 1 2) /\
     run_new (trie_shards by_version 7) (Cfg BSM TOMBSTONE 1 1 2) [Ins (tx_rec 0); Del (tx_rec 0); Ins (tx_rec 1); Ins (tx_rec 2)] = Ok (e, rs) /\
     map (map (@length _)) (levels_of e) = [[1]; []; [0]] /\ get_height e = Ok (e, 3) /\
     planned_counts e = [(1, 1); (0, 0); (0, 1)]).
Proof.
  split; do 2 eexists; (split; [unfold valid_cfg; simpl; repeat split; lia || auto|]);
    (split; [vm_compute; reflexivity|]); repeat split; vm_compute; reflexivity.
Qed.

(** C13: the factor two under leveling cannot be removed. *)
Theorem C13_vp_leveling_refuted : exists C (ops : list (op kv)) e rs ls, valid_cfg C /\ c_layout C = LEVELING /\
  insert_only ops /\ run_new vp_shards C ops = Ok (e, rs) /\ nth_error (levels_of e) 2 = Some ls /\
  c_hwm C * c_sf C ^ (2 + 1) < length (concat ls).
Proof.
  exists (Cfg LEVELING TOMBSTONE 1 2 2). exists (map (fun i => Ins (KV (Z.of_nat i) 0)) (seq 0 23)).
  do 3 eexists. split; [unfold valid_cfg; simpl; repeat split; lia || discriminate|]. split; [reflexivity|].
  split; [intros o Ho; apply in_map_iff in Ho as (i & <- & _); eauto|].
  split; [vm_compute; reflexivity|]. split; [vm_compute; reflexivity|]. vm_compute. lia.
Qed.
Print Assumptions C13_vp_leveling_refuted.

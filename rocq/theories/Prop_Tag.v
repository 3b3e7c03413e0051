(** Range counts and tagging deletes (C09, C10, C11, C42).  [qlt] and [lbf] are as in
    Prop_Serial. *)
From Coq Require Import List Arith ZArith NArith Lia Bool Permutation Sorted.
From Verif Require Import Base RecordModel RecordProofs BufferModel MergeModel MergeProofs StructModel ExtModel
  QueryModel Spec SerialProofs SizeProofs CountProofs BsmProofs Prop_Size.
Import ListNotations.

(** C09: a range count that succeeds is the number of stored records in range that
    are neither tombstones nor tagged.  Missing: those need not be the live ones. *)
Theorem C09_range_count_stored_partial {R : Type} {RO : RecOps R} {RL : RecLaws R} {KO : KeyOps R} {KL : KeyLaws R}
  (qlt : qorder R) {QO : QOrder qlt} (lbf : list (wrapped R) -> Z -> res nat) :
  forall C ops e rs l u e' n, valid_cfg C -> lb_sound lbf ->
  run_new qlt C ops = Ok (e, rs) -> range_count lbf e l u = Ok (e', n) ->
  e' = e /\ n = counted l u (stored e).
Proof. exact (fun C ops e rs l u e' n V LB => range_count_any qlt C V lbf LB ops e rs l u e' n). Qed.
Print Assumptions C09_range_count_stored_partial.

(** C09: it does succeed when no shard lies wholly below the range. *)
Theorem C09_range_count_ok_partial {R : Type} {RO : RecOps R} {RL : RecLaws R} {KO : KeyOps R} {KL : KeyLaws R}
  (qlt : qorder R) {QO : QOrder qlt} (lbf : list (wrapped R) -> Z -> res nat) :
  forall C ops e rs l u, valid_cfg C -> lb_sound lbf -> run_new qlt C ops = Ok (e, rs) ->
  (forall ls d, In ls (levels_of e) -> In d ls -> exists w, In w d /\ (l <= rkey (wrec w))%Z) ->
  range_count lbf e l u = Ok (e, counted l u (stored e)).
Proof. exact (fun C ops e rs l u V LB => range_count_ok_any qlt C V lbf LB ops e rs l u). Qed.
Print Assumptions C09_range_count_ok_partial.

(** C09: insert-only histories: the number of inserted records in range. *)
Theorem C09_range_count_inserts_partial {R : Type} {RO : RecOps R} {RL : RecLaws R} {KO : KeyOps R} {KL : KeyLaws R}
  (qlt : qorder R) {QO : QOrder qlt} (lbf : list (wrapped R) -> Z -> res nat) :
  forall C ops e rs l u e' n, valid_cfg C -> lb_sound lbf -> insert_only ops ->
  run_new qlt C ops = Ok (e, rs) -> range_count lbf e l u = Ok (e', n) ->
  n = length (filter (key_in l u) (inserted ops)).
Proof. exact (fun C ops e rs l u e' n V LB => range_count_inserts qlt C V lbf LB ops e rs l u e' n). Qed.
Print Assumptions C09_range_count_inserts_partial.

(** C09 and C10: with tagging and no record inserted twice, the number of live
    records in range.  Missing for C09: tombstone deletes and shards below the
    range (refuted below). *)
Theorem C10_range_count_partial {R : Type} {RO : RecOps R} {RL : RecLaws R} {KO : KeyOps R} {KL : KeyLaws R}
  (qlt : qorder R) {QO : QOrder qlt} (lbf : list (wrapped R) -> Z -> res nat) :
  forall C ops e rs l u e' n, valid_cfg C -> lb_sound lbf -> c_del C = TAGGING -> bsm_safe qlt C ops ->
  distinct_inserts ops -> run_new qlt C ops = Ok (e, rs) -> range_count lbf e l u = Ok (e', n) ->
  n = length (filter (key_in l u) (live ops)).
Proof. exact (fun C ops e rs l u e' n V LB => range_count_tagging qlt C V lbf LB ops e rs l u e' n). Qed.
Print Assumptions C10_range_count_partial.

(** C10: with tagging and no record inserted twice, the untagged stored records are
    exactly the live ones, and no tombstone is stored.  Missing: that every query
    skips the tagged ones; range queries do not (C10_range_query_refuted). *)
Theorem C10_untagged_live_partial {R : Type} {RO : RecOps R} {RL : RecLaws R}
  (qlt : qorder R) {QO : QOrder qlt} :
  forall C ops e rs, valid_cfg C -> c_del C = TAGGING -> bsm_safe qlt C ops -> distinct_inserts ops ->
  run_new qlt C ops = Ok (e, rs) ->
  Permutation (map wrec (filter (fun w => negb (is_del w)) (stored e))) (live ops) /\
  Forall (fun w => is_ts w = false) (stored e).
Proof. exact (fun C ops e rs V => tagging_live qlt C V ops e rs). Qed.
Print Assumptions C10_untagged_live_partial.

(** C11, the part that holds: with tagging every erase succeeds; it returns 1 when
    a live copy is stored, and 0 only when no copy at all is; once something has
    been inserted it returns 1 only if some copy is stored; other records are
    untouched and at most one live copy goes, exactly the reported number unless a
    tagged copy of the record is still stored.  Missing: that last case, and the
    erase on a never-used index (both refuted below). *)
Theorem C11_erase_tagging_partial {R : Type} {RO : RecOps R} {RL : RecLaws R}
  (qlt : qorder R) {QO : QOrder qlt} :
  forall C ops e rs r, valid_cfg C -> c_del C = TAGGING -> run_new qlt C ops = Ok (e, rs) ->
  exists e' n, erase qlt C e r = Ok (e', n) /\
    (0 < n_live r (stored e) -> n = 1) /\
    (n = 0 -> n_live r (stored e) = 0 /\ n_tagged r (stored e) = 0) /\
    (inserted ops <> [] -> n = 1 -> 0 < n_live r (stored e) + n_tagged r (stored e)) /\
    (forall x, req x r = false -> n_live x (stored e') = n_live x (stored e)) /\
    (exists i, i <= 1 /\ (forall x, req x r = true -> n_live x (stored e) = n_live x (stored e') + i) /\
       (inserted ops <> [] -> n_tagged r (stored e) = 0 -> i = n)).
Proof. exact (fun C ops e rs r V => erase_tagging_any qlt C V ops e rs r). Qed.
Print Assumptions C11_erase_tagging_partial.

(** C42 with tagging: nothing faults if in every block of low-watermark many
    inserted records one is never erased.  Missing: histories that erase a whole
    flush (C42_tagging_refuted). *)
Theorem C42_tagging_partial {R : Type} {RO : RecOps R} {RL : RecLaws R} {KO : KeyOps R} {KL : KeyLaws R}
  (qlt : qorder R) {QO : QOrder qlt} (lbf : list (wrapped R) -> Z -> res nat) :
  forall C ops, valid_cfg C -> lb_sound lbf -> c_del C = TAGGING -> survivors (c_lwm C) ops ->
  exists e rs, run_new qlt C ops = Ok (e, rs) /\
    (forall l u, exists out, range_query qlt lbf e l u = Ok (e, out)) /\
    get_record_count e = Ok (e, length (stored e)).
Proof. exact (fun C ops V LB => tagging_runs_ok qlt C V lbf LB ops). Qed.
Print Assumptions C42_tagging_partial.

(** ** The hypotheses are met *)

(** The histories of Prop_Size are safe in every layout; here is a range count over
    each, with tagged records in the range. *)
Example tg_distinct : distinct_inserts (sz_ops 50).
Proof. apply distinct_bool. vm_compute. reflexivity. Qed.

Example tg_counts : forall l, exists e rs n,
  run_new by_version (sz_cfg l TAGGING) (sz_ops 50) = Ok (e, rs) /\
  range_count lb_isam e 0 48 = Ok (e, n) /\ n = 30 /\
  existsb is_del (stored e) = true /\ inserted (sz_ops 50) <> [] /\
  forallb (fun d => existsb (fun w => (0 <=? rkey (wrec w))%Z) d) (concat (levels_of e)) = true.
Proof.
  intros []; (do 3 eexists; split; [vm_compute; reflexivity|]; split; [vm_compute; reflexivity|];
    split; [reflexivity|]; split; [vm_compute; reflexivity|]; split; [discriminate|];
    vm_compute; reflexivity).
Qed.

(** ** What fails *)

(** C09: every shard lies below the range, and the local count reads past it. *)
Theorem C09_range_count_fault_refuted : exists C (ops : list (op kv)) e rs,
  valid_cfg C /\ insert_only ops /\ run_new by_version C ops = Ok (e, rs) /\
  range_count lb_isam e 10 20 = Fail FOob.
Proof.
  exists (Cfg TIERING TOMBSTONE 2 2 2). exists [Ins (KV 1 0); Ins (KV 2 0); Ins (KV 15 0)].
  do 2 eexists. split; [unfold valid_cfg; simpl; repeat split; lia || discriminate|].
  split; [intros o [<-|[<-|[<-|[]]]]; eauto|]. split; [vm_compute; reflexivity|]. vm_compute. reflexivity.
Qed.
Print Assumptions C09_range_count_fault_refuted.

(** C09: a record erased by a tombstone is still counted. *)
Theorem C09_range_count_tombstone_refuted : exists C (ops : list (op kv)) e rs n,
  valid_cfg C /\ run_new by_version C ops = Ok (e, rs) /\ live ops = [] /\
  range_count lb_isam e 0 10 = Ok (e, n) /\ n = 1.
Proof.
  exists (Cfg TIERING TOMBSTONE 3 4 2). exists [Ins (KV 3 0); Del (KV 3 0)].
  do 3 eexists. split; [unfold valid_cfg; simpl; repeat split; lia || discriminate|].
  split; [vm_compute; reflexivity|]. split; [reflexivity|]. split; vm_compute; reflexivity.
Qed.
Print Assumptions C09_range_count_tombstone_refuted.

(** C10: the range query returns records that erase reported as deleted: one in
    a shard (1) and one in the buffer (3). *)
Theorem C10_range_query_refuted : exists C (ops : list (op kv)) e rs out,
  valid_cfg C /\ c_del C = TAGGING /\ distinct_inserts ops /\ run_new by_version C ops = Ok (e, rs) /\
  rs = [1; 1; 1; 1; 1] /\ live ops = [KV 2 0] /\
  range_query by_version lb_isam e 0 10 = Ok (e, out) /\ occ (KV 1 0) out = 1 /\ occ (KV 3 0) out = 1.
Proof.
  exists (Cfg TIERING TAGGING 2 2 2).
  exists [Ins (KV 1 0); Ins (KV 2 0); Ins (KV 3 0); Del (KV 1 0); Del (KV 3 0)].
  do 3 eexists. split; [unfold valid_cfg; simpl; repeat split; lia || discriminate|].
  split; [reflexivity|]. split; [apply distinct_bool; reflexivity|].
  split; [vm_compute; reflexivity|]. split; [reflexivity|]. split; [reflexivity|].
  split; [vm_compute; reflexivity|]. split; vm_compute; reflexivity.
Qed.
Print Assumptions C10_range_query_refuted.

(** C11: after insert, erase, insert, the second erase returns 1 but tags the first
    copy again; the live copy stays and is counted. *)
Theorem C11_reinsert_refuted : exists C (ops : list (op kv)) e rs e' n m,
  valid_cfg C /\ c_del C = TAGGING /\ run_new by_version C ops = Ok (e, rs) /\
  n_live (KV 1 0) (stored e) = 1 /\ erase by_version C e (KV 1 0) = Ok (e', n) /\ n = 1 /\
  n_live (KV 1 0) (stored e') = 1 /\ range_count lb_isam e' 0 10 = Ok (e', m) /\ m = 1.
Proof.
  exists (Cfg TIERING TAGGING 3 4 2). exists [Ins (KV 1 0); Del (KV 1 0); Ins (KV 1 0)].
  do 5 eexists. split; [unfold valid_cfg; simpl; repeat split; lia || discriminate|].
  split; [reflexivity|]. split; [vm_compute; reflexivity|]. split; [vm_compute; reflexivity|].
  split; [vm_compute; reflexivity|]. split; [reflexivity|]. split; [vm_compute; reflexivity|].
  split; vm_compute; reflexivity.
Qed.
Print Assumptions C11_reinsert_refuted.

(** C11: a second erase of the same record returns 1 although nothing is live. *)
Theorem C11_double_erase_refuted : exists C (ops : list (op kv)) e rs e' n,
  valid_cfg C /\ c_del C = TAGGING /\ run_new by_version C ops = Ok (e, rs) /\ live ops = [] /\
  erase by_version C e (KV 1 0) = Ok (e', n) /\ n = 1.
Proof.
  exists (Cfg TIERING TAGGING 3 4 2). exists [Ins (KV 1 0); Del (KV 1 0)].
  do 4 eexists. split; [unfold valid_cfg; simpl; repeat split; lia || discriminate|].
  split; [reflexivity|]. split; [vm_compute; reflexivity|]. split; [reflexivity|].
  split; vm_compute; reflexivity.
Qed.
Print Assumptions C11_double_erase_refuted.

(** C11: on a new index the empty view is scanned up to its tail modulo the
    capacity, and a zeroed slot matches the zero record. *)
Theorem C11_empty_erase_refuted : exists C (e : ext kv) rs e' n,
  valid_cfg C /\ c_del C = TAGGING /\ run_new by_version C [] = Ok (e, rs) /\
  erase by_version C e (KV 0 0) = Ok (e', n) /\ n = 1.
Proof.
  exists (Cfg TIERING TAGGING 3 4 2). do 4 eexists.
  split; [unfold valid_cfg; simpl; repeat split; lia || discriminate|].
  split; [reflexivity|]. split; [vm_compute; reflexivity|]. split; vm_compute; reflexivity.
Qed.
Print Assumptions C11_empty_erase_refuted.

(** C42 with tagging: erase everything in the buffer, flush it, query: fault. *)
Theorem C42_tagging_refuted : exists C (ops : list (op kv)) e rs,
  valid_cfg C /\ c_del C = TAGGING /\ run_new by_version C ops = Ok (e, rs) /\
  range_query by_version lb_isam e 0 10 = Fail FNull.
Proof.
  exists (Cfg TIERING TAGGING 2 2 2). exists [Ins (KV 1 0); Ins (KV 2 0); Del (KV 1 0); Del (KV 2 0); Ins (KV 3 0)].
  do 2 eexists. split; [unfold valid_cfg; simpl; repeat split; lia || discriminate|].
  split; [reflexivity|]. split; [vm_compute; reflexivity|]. vm_compute. reflexivity.
Qed.
Print Assumptions C42_tagging_refuted.

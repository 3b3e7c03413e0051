(** Reads after flushes with any number of tombstones (C78), and in executions with
    erases (C69).  [bs] are the buffers that are flushed, [runs] the records they show
    (FlushSpec.v); nothing is assumed about [runs], so flushes that cancel completely
    and flushes of tombstones only are included. *)
From Coq Require Import List Arith ZArith NArith Lia Bool Permutation Sorted.
From Verif Require Import Base RecordModel RecordProofs BufferModel MergeModel MergeProofs StructModel ExtModel
  QueryModel Spec QueryProofs FlushModel FlushSpec FlushProofs FlushAny Prop_Flush Prop_Delete
  VPModel VPSpec VPProofs KNNProofs KNNAny KindModel KindSpec KindProofs Prop_VP Prop_Reads
  BufConcModel SysModel SysSpec SysTrace SysQuery SysOrigin SysWild Prop_Sys Prop_Origin.
Import ListNotations.

(** C78: every stored record was flushed, with its tombstone bit, and none is stored
    more often than it was flushed; and every shard is sorted. *)
Theorem C78_stored {R : Type} {RO : RecOps R} {RL : RecLaws R} (qlt : qorder R) {QO : QOrder qlt} :
  forall C bs runs st, valid_cfg C -> Forall2 shows bs runs -> flush_all qlt C st_empty bs = Ok st ->
  part_of (st_records st) (concat runs).
Proof. exact (fun C bs runs st V => flushes_part qlt C V bs runs st). Qed.
Print Assumptions C78_stored.

Theorem C78_sorted {R : Type} {RO : RecOps R} {RL : RecLaws R} (qlt : qorder R) {QO : QOrder qlt} :
  forall C bs runs st ls d, valid_cfg C -> Forall2 shows bs runs -> flush_all qlt C st_empty bs = Ok st ->
  In ls (st_runs st) -> In d ls -> sorted d.
Proof. exact (fun C bs runs st ls d V => flushes_sorted_any qlt C V bs runs st ls d). Qed.
Print Assumptions C78_sorted.

(** The record count is no more than was flushed and is buffered. *)
Theorem C78_record_count {R : Type} {RO : RecOps R} {RL : RecLaws R} (qlt : qorder R) {QO : QOrder qlt} :
  forall C bs runs st d v win, valid_cfg C -> Forall2 shows bs runs -> flush_all qlt C st_empty bs = Ok st ->
  shows (d, v) win -> v_count v + st_reccnt st <= length (concat runs ++ win).
Proof. exact (fun C bs runs st d v win V => flushes_count_any qlt C V bs runs st d v win). Qed.
Print Assumptions C78_record_count.

(** The static structure is sorted, and a part of what was flushed and is buffered. *)
Theorem C78_static {R : Type} {RO : RecOps R} {RL : RecLaws R} (qlt : qorder R) {QO : QOrder qlt} :
  forall C bs runs st d v win s, valid_cfg C -> Forall2 shows bs runs -> flush_all qlt C st_empty bs = Ok st ->
  shows (d, v) win -> static_on qlt st d v = Ok s -> part_of (s_data s) (concat runs ++ win) /\ sorted (s_data s).
Proof. exact (fun C bs runs st d v win s V => flushes_static_any qlt C V bs runs st d v win s). Qed.
Print Assumptions C78_static.

(** A range query returns a part of the records in range, tombstones excluded. *)
Theorem C78_range_query {R : Type} {RO : RecOps R} {RL : RecLaws R} {KO : KeyOps R} {KL : KeyLaws R}
  (qlt : qorder R) {QO : QOrder qlt} (lbf : list (wrapped R) -> Z -> res nat) :
  forall C bs runs st d v win l u out, valid_cfg C -> lb_sound lbf -> Forall2 shows bs runs ->
  flush_all qlt C st_empty bs = Ok st -> shows (d, v) win -> rq_on qlt lbf l u st d v = Ok out ->
  exists rest, Permutation (filter (key_in l u) (map wrec (filter (fun w => negb (is_ts w)) (concat runs ++ win))))
    (out ++ rest).
Proof. exact (fun C bs runs st d v win l u out V LB => flushes_range_any qlt C V lbf LB bs runs st d v win l u out). Qed.
Print Assumptions C78_range_query.

(** A range count is at most the number of those records. *)
Theorem C78_range_count {R : Type} {RO : RecOps R} {RL : RecLaws R} {KO : KeyOps R} {KL : KeyLaws R}
  (qlt : qorder R) {QO : QOrder qlt} (lbf : list (wrapped R) -> Z -> res nat) :
  forall C bs runs st d v win l u n, valid_cfg C -> lb_sound lbf -> Forall2 shows bs runs ->
  flush_all qlt C st_empty bs = Ok st -> shows (d, v) win -> rc_on lbf l u st d v = Ok n ->
  n <= length (filter (key_in l u) (map wrec (filter (fun w => negb (is_ts w)) (concat runs ++ win)))).
Proof. exact (fun C bs runs st d v win l u n V LB => flushes_range_count_any qlt C V lbf LB bs runs st d v win l u n). Qed.
Print Assumptions C78_range_count.

(** A point lookup returns at most one record, which has the key and was flushed or is
    buffered other than as a tombstone. *)
Theorem C78_point_lookup {R : Type} {RO : RecOps R} {RL : RecLaws R} (qlt : qorder R) {QO : QOrder qlt}
  (hit : R -> bool) (plf : list (wrapped R) -> res (option (wrapped R))) :
  forall C bs runs st d v win out, valid_cfg C -> pl_sound hit plf -> (forall w, plf [] <> Ok (Some w)) ->
  Forall2 shows bs runs -> flush_all qlt C st_empty bs = Ok st -> shows (d, v) win -> pl_on hit plf st d v = Ok out ->
  length out <= 1 /\
  forall x, In x out -> hit x = true /\ In x (map wrec (filter (fun w => negb (is_ts w)) (concat runs ++ win))).
Proof. exact (fun C bs runs st d v win out V PL PE => flushes_lookup_any qlt C V hit plf PL PE bs runs st d v win out). Qed.
Print Assumptions C78_point_lookup.

(** ** The hypotheses are met *)

(** Flushes of mostly tombstones; the last cancels completely. *)
Definition an_rec (i : nat) : kv := KV (Z.of_nat i) 0.
Definition an_runs : list (list (wrapped kv)) :=
  [ [append_rec (an_rec 1) false 0; append_rec (an_rec 2) false 1; append_rec (an_rec 1) true 2];
    [append_rec (an_rec 2) true 0; append_rec (an_rec 3) true 1];
    [append_rec (an_rec 3) false 0; append_rec (an_rec 4) false 1; append_rec (an_rec 5) true 2];
    [append_rec (an_rec 6) false 0; append_rec (an_rec 6) true 1] ].
Definition an_batches : list (batch kv) := map (fun ws => (ws ++ [append_rec (an_rec 9) false 0], View (length ws + 1) 0 (length ws) 0)) an_runs.
Definition an_win : list (wrapped kv) := [append_rec (an_rec 4) true 0; append_rec (an_rec 7) false 1].
Definition an_buf : batch kv := (an_win ++ [append_rec (an_rec 9) false 0], View 3 0 2 0).

Example an_shows : Forall2 shows an_batches an_runs /\ shows an_buf an_win.
Proof.
  split.
  - repeat constructor; try (vm_compute; lia); intros i I; cbn in I; do 3 (destruct i; [try reflexivity; lia|]); lia.
  - repeat split; try (vm_compute; lia). intros i I. cbn in I. do 2 (destruct i; [reflexivity|]). lia.
Qed.
Example an_not_mostly : ~ Forall mostly_plain an_runs.
Proof. intros F. inversion F as [|a b _ F1]; subst. inversion F1 as [|a b [X _] _]; subst. vm_compute in X. lia. Qed.
(** All four flushes: two levels or three, one of the shards empty. *)
Example C78_case : forall l, valid_cfg (Cfg l TOMBSTONE 1 3 2) /\
  exists st out, flush_all by_version (Cfg l TOMBSTONE 1 3 2) st_empty an_batches = Ok st /\
  2 <= length (st_runs st) /\ In [] (concat (st_runs st)) /\ length (st_records st) = 4 /\
  v_count (snd an_buf) + st_reccnt st = 6 /\
  pl_on (has_key 3) (pl_key 3) st (fst an_buf) (snd an_buf) = Ok out /\
  out = (if match l with LEVELING => true | _ => false end then [] else [an_rec 3]).
Proof.
  intros l. split; [unfold valid_cfg; destruct l; cbn; lia|].
  destruct l; do 2 eexists; (split; [vm_compute; reflexivity|]); vm_compute; repeat split; auto; lia.
Qed.
(** The first three, where no shard is empty: of ten records and tombstones, two records
    are in range and returned. *)
Example C78_case_queries : forall l, exists st s, flush_all by_version (Cfg l TOMBSTONE 1 3 2) st_empty (firstn 3 an_batches) = Ok st /\
  rq_on by_version lb_isam 0 9 st (fst an_buf) (snd an_buf) = Ok [an_rec 3; an_rec 7] /\
  rc_on lb_isam 0 9 st (fst an_buf) (snd an_buf) = Ok 3 /\
  static_on by_version st (fst an_buf) (snd an_buf) = Ok s /\ s_reccnt s = 4 /\ s_tscnt s = 2.
Proof.
  intros []; do 2 eexists; (split; [vm_compute; reflexivity|]); repeat (split; [vm_compute; reflexivity|]); vm_compute; reflexivity.
Qed.
Example C78_case_lookup : forall k w, pl_key k [] <> Ok (Some w).
Proof. intros k w H. discriminate. Qed.

(** ** Any number of threads *)

(** C69: in every execution, with erases, what a static structure holds was passed to
    insert or erase, with its tombstone bit; or it is the initial record.  Here and
    below, missing as in C69_origin_partial; and reads that fault, which they can when
    a shard is empty (C42_no_crash_refuted). *)
Theorem C69_static_partial {R : Type} {RO : RecOps R} {RL : RecLaws R} (qlt : qorder R) {QO : QOrder qlt} :
  forall C cap l n (s : sys R) seen runs buf bs st d v sh, valid_cfg C -> 2 * c_hwm C <= cap ->
  ssched (c_lwm C) (c_hwm C) cap (sys_init (c_hwm C) cap n) l = Some s ->
  In (AList seen runs buf) (y_ans s) -> Forall2 shows bs runs -> flush_all qlt C st_empty bs = Ok st ->
  shows (d, v) buf -> static_on qlt st d v = Ok sh ->
  length (s_data sh) <= cb_tail (cs_buf (y_buf s)) /\ sorted (s_data sh) /\
  forall w, In w (s_data sh) ->
    (exists t, In (UCall t (UInsert (wrec w) (is_ts w))) l) \/ (wrec w = rzero /\ is_ts w = false).
Proof.
  exact (fun C cap l n s seen runs buf bs st d v sh V CAP => wild_static qlt C V cap CAP l n s seen runs buf bs st d v sh).
Qed.
Print Assumptions C69_static_partial.

(** What a range query returns is in range and was passed to insert. *)
Theorem C69_range_erases_partial {R : Type} {RO : RecOps R} {RL : RecLaws R} {KO : KeyOps R} {KL : KeyLaws R}
  (qlt : qorder R) {QO : QOrder qlt} (lbf : list (wrapped R) -> Z -> res nat) :
  forall C cap l n (s : sys R) seen runs buf bs st d v lo hi out, valid_cfg C -> lb_sound lbf -> 2 * c_hwm C <= cap ->
  ssched (c_lwm C) (c_hwm C) cap (sys_init (c_hwm C) cap n) l = Some s ->
  In (AList seen runs buf) (y_ans s) -> Forall2 shows bs runs -> flush_all qlt C st_empty bs = Ok st ->
  shows (d, v) buf -> rq_on qlt lbf lo hi st d v = Ok out ->
  length out <= cb_tail (cs_buf (y_buf s)) /\
  forall r, In r out -> key_in lo hi r = true /\ ((exists t, In (UCall t (UInsert r false)) l) \/ r = rzero).
Proof.
  exact (fun C cap l n s seen runs buf bs st d v lo hi out V LB CAP =>
    wild_range qlt C V lbf LB cap CAP l n s seen runs buf bs st d v lo hi out).
Qed.
Print Assumptions C69_range_erases_partial.

(** Record counts and range counts are at most the number of positions given out. *)
Theorem C69_counts_partial {R : Type} {RO : RecOps R} {RL : RecLaws R} {KO : KeyOps R} {KL : KeyLaws R}
  (qlt : qorder R) {QO : QOrder qlt} (lbf : list (wrapped R) -> Z -> res nat) :
  forall C cap l n (s : sys R) seen runs buf bs st d v, valid_cfg C -> lb_sound lbf -> 2 * c_hwm C <= cap ->
  ssched (c_lwm C) (c_hwm C) cap (sys_init (c_hwm C) cap n) l = Some s ->
  In (AList seen runs buf) (y_ans s) -> Forall2 shows bs runs -> flush_all qlt C st_empty bs = Ok st ->
  shows (d, v) buf ->
  v_count v + st_reccnt st <= cb_tail (cs_buf (y_buf s)) /\
  forall lo hi m, rc_on lbf lo hi st d v = Ok m -> m <= cb_tail (cs_buf (y_buf s)).
Proof.
  exact (fun C cap l n s seen runs buf bs st d v V LB CAP => wild_count qlt C V lbf LB cap CAP l n s seen runs buf bs st d v).
Qed.
Print Assumptions C69_counts_partial.

(** A point lookup returns at most one record, which has the key and was passed to
    insert. *)
Theorem C69_lookup_partial {R : Type} {RO : RecOps R} {RL : RecLaws R} (qlt : qorder R) {QO : QOrder qlt}
  (hit : R -> bool) (plf : list (wrapped R) -> res (option (wrapped R))) :
  forall C cap l n (s : sys R) seen runs buf bs st d v out, valid_cfg C -> 2 * c_hwm C <= cap ->
  pl_sound hit plf -> (forall w, plf [] <> Ok (Some w)) ->
  ssched (c_lwm C) (c_hwm C) cap (sys_init (c_hwm C) cap n) l = Some s ->
  In (AList seen runs buf) (y_ans s) -> Forall2 shows bs runs -> flush_all qlt C st_empty bs = Ok st ->
  shows (d, v) buf -> pl_on hit plf st d v = Ok out ->
  length out <= 1 /\
  forall r, In r out -> hit r = true /\ ((exists t, In (UCall t (UInsert r false)) l) \/ r = rzero).
Proof.
  exact (fun C cap l n s seen runs buf bs st d v out V CAP PL PE =>
    wild_lookup qlt C V cap hit plf PL PE l n s seen runs buf bs st d v out).
Qed.
Print Assumptions C69_lookup_partial.

(** Over VPTree shards no flush fails and kNN is exact for the records read, all of which
    were passed to insert or erase. *)
Theorem C69_knn_partial {R : Type} {RO : RecOps R} {D : Type} {DO : DistOps D} {DL : DistLaws D}
  {MO : MetricOps R D} {ML : MetricLaws R D} :
  forall C cap l n (s : sys R) seen runs buf bs, valid_cfg C ->
  ssched (c_lwm C) (c_hwm C) cap (sys_init (c_hwm C) cap n) l = Some s ->
  In (AList seen runs buf) (y_ans s) -> Forall2 shows bs runs ->
  exists st, flush_all vp_shards C st_empty bs = Ok st /\
    forall pop (PM : PQMax pop) leafsz rng d v p k, 0 < k -> shows (d, v) buf ->
      exists out, knn_on leafsz pop rng p k st d v = Ok out /\
        nearest (fun x y => dleb (dist p x) (dist p y)) k (map wrec (concat runs ++ buf)) out /\
        forall r, In r out -> (exists t ts, In (UCall t (UInsert r ts)) l) \/ r = rzero.
Proof. exact (fun C cap l n s seen runs buf bs V => wild_knn C V cap l n s seen runs buf bs). Qed.
Print Assumptions C69_knn_partial.

(** The hypotheses are met: as in [overlap] an insert of [ra] is in progress while the
    buffer is flushed, with an erase of [rb]; an insert of [rc] and a query follow. *)
Definition overlap_del : list (sact kv) :=
  UCall 0 (UInsert ra false) :: st 0 6 ++ UCall 1 (UInsert rb true) :: st 1 7 ++ [Alloc 1 1] ++ st 1 13 ++
  rcn 2 ++ st 0 3 ++ ins 1 rc ++ UCall 2 (UJob KQuery) :: st 2 12.
Definition overlap_del_batch : batch kv := ([W 0 rzero; W 13 rb; W 0 rzero; W 0 rzero], View 4 0 2 0).
Definition overlap_del_buf : batch kv := ([W 4 ra; W 13 rb; W 20 rc; W 0 rzero], View 4 2 3 0).
Example C69_erases_run :
  match ssched 1 2 4 init overlap_del with
  | Some s => exists seen, y_ans s = [AList seen [[W 0 rzero; W 13 rb]] [W 20 rc]] /\ cb_tail (cs_buf (y_buf s)) = 3
  | None => False
  end.
Proof. vm_compute. eexists. split; reflexivity. Qed.
Example C69_erases_case : forall l, Forall2 shows [overlap_del_batch] [[W 0 rzero; W 13 rb]] /\ shows overlap_del_buf [W 20 rc] /\
  exists st sh vs out, flush_all by_version (overlap_cfg l) st_empty [overlap_del_batch] = Ok st /\
    rq_on by_version lb_isam 0 5 st (fst overlap_del_buf) (snd overlap_del_buf) = Ok [rzero; rc] /\
    rc_on lb_isam 0 5 st (fst overlap_del_buf) (snd overlap_del_buf) = Ok 2 /\
    pl_on (has_key 3) (pl_key 3) st (fst overlap_del_buf) (snd overlap_del_buf) = Ok [rc] /\
    static_on by_version st (fst overlap_del_buf) (snd overlap_del_buf) = Ok sh /\ length (s_data sh) = 3 /\
    flush_all vp_shards (overlap_cfg l) st_empty [overlap_del_batch] = Ok vs /\
    knn_on 2 pop_far (fun i c => i + c) rc 2 vs (fst overlap_del_buf) (snd overlap_del_buf) = Ok out /\ length out = 2.
Proof.
  intros l. split; [|split].
  - constructor; [|constructor]. repeat split; try (vm_compute; lia). intros i I. cbn in I.
    do 2 (destruct i; [reflexivity|]). lia.
  - repeat split; try (vm_compute; lia). intros i I. cbn in I. destruct i; [reflexivity|lia].
  - destruct l; vm_compute; do 4 eexists; repeat match goal with |- _ /\ _ => split end; reflexivity.
Qed.

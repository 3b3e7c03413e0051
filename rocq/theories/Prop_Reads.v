(** All reads of an epoch, for flushes of any size (C57) and for any number of threads
    (C63), over sorted, VPTree and trie shards.  The notation is that of Prop_Flush.v and
    Prop_Whole.v. *)
From Coq Require Import List Arith ZArith NArith Lia Bool Permutation Sorted.
From Verif Require Import Base RecordModel RecordProofs BufferModel MergeModel MergeProofs StructModel ExtModel
  QueryModel Spec QueryProofs FlushModel FlushSpec FlushProofs VPModel VPSpec KNNProofs KindModel KindSpec KindProofs
  FlushMore BufConcModel SysModel SysStill SysBatch SysSpec SysTrace SysQuery SysReads FlushCancel
  Prop_Delete Prop_Flush Prop_Kind Prop_Sys Prop_Whole.
Import ListNotations.

(** ** Flushes of any size *)

(** C57: the static structure holds the flushed and the buffered records, in order. *)
Theorem C57_static {R : Type} {RO : RecOps R} {RL : RecLaws R} (qlt : qorder R) {QO : QOrder qlt} :
  forall C bs runs st d v win, valid_cfg C -> Forall2 shows bs runs -> Forall all_plain runs ->
  Forall (run_size (c_hwm C)) runs -> flush_all qlt C st_empty bs = Ok st -> shows (d, v) win -> all_plain win ->
  exists s, static_on qlt st d v = Ok s /\ Permutation (map wrec (s_data s)) (map wrec (concat runs ++ win)) /\
    sorted (s_data s) /\ all_plain (s_data s) /\ s_reccnt s = length (concat runs ++ win) /\ s_tscnt s = 0.
Proof. exact (fun C bs runs st d v win V => flushes_static qlt C V bs runs st d v win). Qed.
Print Assumptions C57_static.

(** C57: with tombstones it has the same balance for every record. *)
Theorem C57_static_bounds {R : Type} {RO : RecOps R} {RL : RecLaws R} (qlt : qorder R) {QO : QOrder qlt} :
  forall C bs runs st d v win, valid_cfg C -> Forall2 shows bs runs -> Forall mostly_plain runs ->
  Forall (run_size (c_hwm C)) runs -> flush_all qlt C st_empty bs = Ok st -> shows (d, v) win ->
  (win = [] \/ mostly_plain win) ->
  exists s, static_on qlt st d v = Ok s /\ sorted (s_data s) /\
    forall r, let ws := concat runs ++ win in
      n_plain r (s_data s) + n_tomb r ws = n_tomb r (s_data s) + n_plain r ws /\
      n_plain r (s_data s) <= n_plain r ws.
Proof. exact (fun C bs runs st d v win V => flushes_static_bounds qlt C V bs runs st d v win). Qed.
Print Assumptions C57_static_bounds.

(** C57: the range count is exact as long as every shard has a key that is not below the
    range; otherwise it fails (C09_range_count_fault_refuted). *)
Theorem C57_range_count {R : Type} {RO : RecOps R} {RL : RecLaws R} {KO : KeyOps R} {KL : KeyLaws R}
  (qlt : qorder R) {QO : QOrder qlt} (lbf : list (wrapped R) -> Z -> res nat) :
  forall C bs runs st d v win l u, valid_cfg C -> lb_sound lbf -> Forall2 shows bs runs -> Forall all_plain runs ->
  Forall (run_size (c_hwm C)) runs -> flush_all qlt C st_empty bs = Ok st -> shows (d, v) win -> all_plain win ->
  (forall ls a, In ls (st_runs st) -> In a ls -> exists w, In w a /\ (l <= rkey (wrec w))%Z) ->
  rc_on lbf l u st d v = Ok (length (filter (key_in l u) (map wrec (concat runs ++ win)))).
Proof. exact (fun C bs runs st d v win l u V LB => flushes_range_count qlt C V lbf LB bs runs st d v win l u). Qed.
Print Assumptions C57_range_count.

(** C57: a point lookup returns a record with the key if and only if there is one. *)
Theorem C57_point_lookup {R : Type} {RO : RecOps R} {RL : RecLaws R} (qlt : qorder R) {QO : QOrder qlt}
  (hit : R -> bool) (plf : list (wrapped R) -> res (option (wrapped R))) :
  forall C bs runs st d v win, valid_cfg C -> pl_sound hit plf -> Forall2 shows bs runs -> Forall all_plain runs ->
  Forall (run_size (c_hwm C)) runs -> flush_all qlt C st_empty bs = Ok st -> shows (d, v) win -> all_plain win ->
  exists out, pl_on hit plf st d v = Ok out /\
    match out with
    | [] => filter hit (map wrec (concat runs ++ win)) = []
    | [x] => In x (map wrec (concat runs ++ win)) /\ hit x = true
    | _ => False
    end.
Proof. exact (fun C bs runs st d v win V PL => flushes_point_lookup qlt C V hit plf PL bs runs st d v win). Qed.
Print Assumptions C57_point_lookup.

(** C57 for VPTree shards: the flushes succeed, and the static structure and the count have
    exactly the flushed and buffered records and tombstones. *)
Theorem C57_vp_contents {R : Type} {RO : RecOps R} :
  forall C bs (runs : list (list (wrapped R))) d v win, valid_cfg C -> Forall2 shows bs runs ->
  Forall (Forall (fun w => is_del w = false)) runs -> Forall (run_size (c_hwm C)) runs -> shows (d, v) win ->
  Forall (fun w => is_del w = false) win ->
  exists st s, flush_all vp_shards C st_empty bs = Ok st /\ static_on vp_shards st d v = Ok s /\
    Permutation (map (fun w => (wrec w, is_ts w)) (concat runs ++ win)) (map (fun w => (wrec w, is_ts w)) (s_data s)) /\
    v_count v + st_reccnt st = length (concat runs ++ win).
Proof. exact (fun C bs runs d v win V => keep_flush_all vp_shards C V bs runs d v win). Qed.
Print Assumptions C57_vp_contents.

(** C57 for VPTree shards: kNN is exact for the records, those of tombstones included
    (C32_erased_refuted). *)
Theorem C57_vp_knn {R : Type} {RO : RecOps R} {D : Type} {DO : DistOps D} {DL : DistLaws D}
  {MO : MetricOps R D} {ML : MetricLaws R D} :
  forall C pop (PM : PQMax pop) leafsz rng bs runs st d v (win : list (wrapped R)) p k, valid_cfg C -> 0 < k ->
  Forall2 shows bs runs -> Forall (Forall (fun w => is_del w = false)) runs ->
  Forall (run_size (c_hwm C)) runs -> flush_all vp_shards C st_empty bs = Ok st -> shows (d, v) win ->
  Forall (fun w => is_del w = false) win ->
  exists out, knn_on leafsz pop rng p k st d v = Ok out /\
    nearest (fun x y => dleb (dist p x) (dist p y)) k (map wrec (concat runs ++ win)) out.
Proof. exact (fun C pop PM leafsz rng bs runs st d v win p k V => vp_flush_knn C V pop PM leafsz rng bs runs st d v win p k). Qed.
Print Assumptions C57_vp_knn.

(** C57 for tries, without erases: the same, and a point lookup returns the record with the
    key when keys are distinct and the key looked up is at one address. *)
Theorem C57_trie_contents (qlt : qorder crec) {QO : QOrder qlt} :
  forall literal C bs runs d v win, valid_cfg C -> Forall2 shows bs runs -> Forall (Forall (trie_plain literal)) runs ->
  Forall (run_size (c_hwm C)) runs -> shows (d, v) win -> Forall (trie_plain literal) win ->
  exists st s, flush_all (trie_shards qlt literal) C st_empty bs = Ok st /\
    static_on (trie_shards qlt literal) st d v = Ok s /\
    Permutation (map (fun w => (wrec w, is_ts w)) (concat runs ++ win)) (map (fun w => (wrec w, is_ts w)) (s_data s)) /\
    v_count v + st_reccnt st = length (concat runs ++ win).
Proof. exact (fun literal C bs runs d v win V => trie_flush_all qlt literal C V bs runs d v win). Qed.
Print Assumptions C57_trie_contents.

Theorem C57_trie_lookup (qlt : qorder crec) {QO : QOrder qlt} :
  forall literal search C bs runs st d v win k a, valid_cfg C -> search_exact search ->
  Forall2 shows bs runs -> Forall (Forall (trie_plain literal)) runs -> Forall (run_size (c_hwm C)) runs ->
  flush_all (trie_shards qlt literal) C st_empty bs = Ok st -> shows (d, v) win -> Forall (trie_plain literal) win ->
  NoDup (map c_str (map wrec (concat runs ++ win))) ->
  (forall r, In r (map wrec (concat runs ++ win)) -> (c_addr r = a <-> c_str r = k)) ->
  pl_on (fun r => c_addr r =? a) (trie_lookup search k) st d v =
    Ok (filter (has_str k) (map wrec (concat runs ++ win))).
Proof.
  exact (fun literal search C bs runs st d v win k a V SE => trie_flush_find qlt literal C V search SE bs runs st d v win k a).
Qed.
Print Assumptions C57_trie_lookup.

(** C57 for tries with erases, when every flush has more records than tombstones: none
    fails, and the balance of records and tombstones is kept, also by the static structure.
    [trie_shown]: flagged as visible, and the key is not the empty literal. *)
Theorem C57_trie_erases (qlt : qorder crec) {QO : QOrder qlt} :
  forall literal C bs runs, valid_cfg C -> Forall2 shows bs runs -> Forall mostly_plain runs ->
  Forall (Forall (trie_shown literal)) runs -> Forall (run_size (c_hwm C)) runs ->
  exists st, flush_all (trie_shards qlt literal) C st_empty bs = Ok st /\
    (forall r, n_plain r (st_records st) + n_tomb r (concat runs) = n_tomb r (st_records st) + n_plain r (concat runs) /\
               n_plain r (st_records st) <= n_plain r (concat runs)) /\
    forall d v win, shows (d, v) win -> (win = [] \/ mostly_plain win) -> Forall (trie_shown literal) win ->
      exists s, static_on (trie_shards qlt literal) st d v = Ok s /\ sorted (s_data s) /\
        forall r, let ws := concat runs ++ win in
          n_plain r (s_data s) + n_tomb r ws = n_tomb r (s_data s) + n_plain r ws /\
          n_plain r (s_data s) <= n_plain r ws.
Proof. exact (fun literal C bs runs V => trie_flush_erases qlt literal C V bs runs). Qed.
Print Assumptions C57_trie_erases.

(** ** The hypotheses are met *)

(** The eighteen flushes of Prop_Flush.v, and a buffer with three records. *)
Definition rd_win : list (wrapped kv) := map (fun i => append_rec (fl_rec 30 i) false i) (seq 0 3).
Definition rd_buf : batch kv := fl_ring 30 rd_win.
Example rd_shows : shows rd_buf rd_win.
Proof.
  split; [reflexivity|]. split; [reflexivity|]. split; [vm_compute; lia|]. intros i I. cbn in I.
  do 3 (destruct i as [|i]; [reflexivity|]). lia.
Qed.
Example rd_plain : all_plain rd_win /\ mostly_plain rd_win /\ Forall (fun w => is_del w = false) rd_win /\ Forall (Forall (fun w => is_del w = false)) (fl_runs true).
Proof.
  split; [|split; [|split]].
  - intros w Hw. vm_compute in Hw. repeat (destruct Hw as [<-|Hw]; [split; reflexivity|]). destruct Hw.
  - split; [vm_compute; lia|]. intros w Hw. vm_compute in Hw. repeat (destruct Hw as [<-|Hw]; [reflexivity|]). destruct Hw.
  - repeat constructor.
  - apply Forall_forall. intros ws H. apply Forall_forall. pose proof fl_mostly as M. rewrite Forall_forall in M.
    exact (proj2 (M ws H)).
Qed.
Example rd_reads : forall l, exists st s, flush_all by_version (fl_cfg l) st_empty (fl_batches false) = Ok st /\
  static_on by_version st (fst rd_buf) (snd rd_buf) = Ok s /\ s_reccnt s = 54 /\
  Forall (Forall (fun a => existsb (fun w => (3 <=? rkey (wrec w))%Z) a = true)) (st_runs st) /\
  rc_on lb_isam 3 9 st (fst rd_buf) (snd rd_buf) = Ok 20 /\
  pl_on (has_key 7) (pl_key 7) st (fst rd_buf) (snd rd_buf) = Ok [fl_rec 30 2] /\
  pl_on (has_key 70) (pl_key 70) st (fst rd_buf) (snd rd_buf) = Ok [].
Proof.
  intros []; do 2 eexists; (split; [vm_compute; reflexivity|]); (split; [vm_compute; reflexivity|]); vm_compute;
  repeat match goal with |- _ /\ _ => split end; try reflexivity; repeat constructor.
Qed.
Example rd_tombs : forall l, exists st s, flush_all by_version (fl_cfg l) st_empty (fl_batches true) = Ok st /\
  static_on by_version st (fst rd_buf) (snd rd_buf) = Ok s /\ s_reccnt s = 50.
Proof. intros []; do 2 eexists; (split; [vm_compute; reflexivity|]); (split; vm_compute; reflexivity). Qed.
Example rd_knn : forall l, exists st out, flush_all vp_shards (fl_cfg l) st_empty (fl_batches true) = Ok st /\
  knn_on 2 pop_far (fun i c => i + c) (KV 9 0)%Z 4 st (fst rd_buf) (snd rd_buf) = Ok out /\ length out = 4 /\
  forallb (fun r => (Z.abs (rkey r - 9) <=? 1)%Z) out = true.
Proof. intros []; do 2 eexists; (split; [vm_compute; reflexivity|]); (split; [vm_compute; reflexivity|]); split; vm_compute; reflexivity. Qed.

(** ** Any number of threads *)

(** C63: without erases, and in a still execution, the static structure holds exactly the
    records of [l], a set of appends that has those that had returned before the call and
    some that returned since.  Missing in this and the next theorems: the executions that
    are not still (C21_lost_record_refuted). *)
Theorem C63_static_partial {R : Type} {RO : RecOps R} {RL : RecLaws R} (qlt : qorder R) {QO : QOrder qlt} :
  forall C cap n (s : sys R) seen runs buf bs, valid_cfg C -> 2 * c_hwm C <= cap ->
  sreach (c_lwm C) (c_hwm C) cap still (sys_init (c_hwm C) cap n) s ->
  no_erase (cs_done (y_buf s)) -> In (AList seen runs buf) (y_ans s) -> Forall2 shows bs runs ->
  exists st l, flush_all qlt C st_empty bs = Ok st /\
    incl seen l /\ incl l (cs_done (y_buf s)) /\ NoDup (map fst l) /\
    forall d v, shows (d, v) buf ->
      exists sh, static_on qlt st d v = Ok sh /\ Permutation (map wrec (s_data sh)) (a_recs l) /\
        sorted (s_data sh) /\ all_plain (s_data sh) /\ s_reccnt sh = length l.
Proof. exact (fun C cap n s seen runs buf bs V CAP => concurrent_static C V cap CAP qlt n s seen runs buf bs). Qed.
Print Assumptions C63_static_partial.

(** C63: with erases, when every flush and the buffer have more records than tombstones:
    the static structure has the balance of the inserts and erases of [l]. *)
Theorem C63_static_bounds_partial {R : Type} {RO : RecOps R} {RL : RecLaws R} (qlt : qorder R) {QO : QOrder qlt} :
  forall C cap n (s : sys R) seen runs buf bs, valid_cfg C -> 2 * c_hwm C <= cap ->
  sreach (c_lwm C) (c_hwm C) cap still (sys_init (c_hwm C) cap n) s ->
  In (AList seen runs buf) (y_ans s) -> Forall mostly_plain runs -> (buf = [] \/ mostly_plain buf) ->
  Forall2 shows bs runs ->
  exists st l, flush_all qlt C st_empty bs = Ok st /\
    incl seen l /\ incl l (cs_done (y_buf s)) /\ NoDup (map fst l) /\
    forall d v, shows (d, v) buf ->
      exists sh, static_on qlt st d v = Ok sh /\ sorted (s_data sh) /\
        forall r, n_plain r (s_data sh) + a_del r l = n_tomb r (s_data sh) + a_ins r l /\
                  n_plain r (s_data sh) <= a_ins r l.
Proof. exact (fun C cap n s seen runs buf bs V CAP => concurrent_static_bounds C V cap CAP qlt n s seen runs buf bs). Qed.
Print Assumptions C63_static_bounds_partial.

(** C63: range counts.  Missing: shards with keys below the range only
    (C09_range_count_fault_refuted). *)
Theorem C63_range_count_partial {R : Type} {RO : RecOps R} {RL : RecLaws R} {KO : KeyOps R} {KL : KeyLaws R}
  (qlt : qorder R) {QO : QOrder qlt} (lbf : list (wrapped R) -> Z -> res nat) :
  forall C cap n (s : sys R) seen runs buf bs, valid_cfg C -> lb_sound lbf -> 2 * c_hwm C <= cap ->
  sreach (c_lwm C) (c_hwm C) cap still (sys_init (c_hwm C) cap n) s ->
  no_erase (cs_done (y_buf s)) -> In (AList seen runs buf) (y_ans s) -> Forall2 shows bs runs ->
  exists st l, flush_all qlt C st_empty bs = Ok st /\
    incl seen l /\ incl l (cs_done (y_buf s)) /\ NoDup (map fst l) /\
    forall d v lo hi, shows (d, v) buf ->
      (forall ls a, In ls (st_runs st) -> In a ls -> exists w, In w a /\ (lo <= rkey (wrec w))%Z) ->
      rc_on lbf lo hi st d v = Ok (length (filter (key_in lo hi) (a_recs l))).
Proof. exact (fun C cap n s seen runs buf bs V LB CAP => concurrent_range_count C V cap CAP qlt lbf LB n s seen runs buf bs). Qed.
Print Assumptions C63_range_count_partial.

(** C63: point lookups. *)
Theorem C63_point_lookup_partial {R : Type} {RO : RecOps R} {RL : RecLaws R} (qlt : qorder R) {QO : QOrder qlt}
  (hit : R -> bool) (plf : list (wrapped R) -> res (option (wrapped R))) :
  forall C cap n (s : sys R) seen runs buf bs, valid_cfg C -> pl_sound hit plf -> 2 * c_hwm C <= cap ->
  sreach (c_lwm C) (c_hwm C) cap still (sys_init (c_hwm C) cap n) s ->
  no_erase (cs_done (y_buf s)) -> In (AList seen runs buf) (y_ans s) -> Forall2 shows bs runs ->
  exists st l, flush_all qlt C st_empty bs = Ok st /\
    incl seen l /\ incl l (cs_done (y_buf s)) /\ NoDup (map fst l) /\
    forall d v, shows (d, v) buf ->
      exists out, pl_on hit plf st d v = Ok out /\
        match out with
        | [] => forall r, In r (a_recs l) -> hit r = false
        | [x] => In x (a_recs l) /\ hit x = true
        | _ => False
        end.
Proof. exact (fun C cap n s seen runs buf bs V PL CAP => concurrent_point_lookup C V cap CAP qlt hit plf PL n s seen runs buf bs). Qed.
Print Assumptions C63_point_lookup_partial.

(** C63 for VPTree shards: the reconstructions succeed whatever is inserted and erased,
    the static structure holds the records and tombstones of [l], and kNN returns [k]
    of these records and leaves no closer one out.  Missing: as above, and that erased
    records are left out (C32_erased_refuted). *)
Theorem C63_vp_static_partial {R : Type} {RO : RecOps R} :
  forall C cap n (s : sys R) seen runs buf bs, valid_cfg C -> 2 * c_hwm C <= cap ->
  sreach (c_lwm C) (c_hwm C) cap still (sys_init (c_hwm C) cap n) s ->
  In (AList seen runs buf) (y_ans s) -> Forall2 shows bs runs ->
  exists st l, flush_all vp_shards C st_empty bs = Ok st /\
    incl seen l /\ incl l (cs_done (y_buf s)) /\ NoDup (map fst l) /\
    forall d v, shows (d, v) buf ->
      exists sh, static_on vp_shards st d v = Ok sh /\ s_reccnt sh = length l /\
        Permutation (map (fun w => (wrec w, is_ts w)) (s_data sh)) (map snd l).
Proof. exact (fun C cap n s seen runs buf bs V CAP => concurrent_vp C V cap CAP n s seen runs buf bs). Qed.
Print Assumptions C63_vp_static_partial.

Theorem C63_knn_partial {R : Type} {RO : RecOps R} {D : Type} {DO : DistOps D} {DL : DistLaws D}
  {MO : MetricOps R D} {ML : MetricLaws R D} :
  forall C cap n (s : sys R) seen runs buf bs, valid_cfg C -> 2 * c_hwm C <= cap ->
  sreach (c_lwm C) (c_hwm C) cap still (sys_init (c_hwm C) cap n) s ->
  In (AList seen runs buf) (y_ans s) -> Forall2 shows bs runs ->
  exists st l, flush_all vp_shards C st_empty bs = Ok st /\
    incl seen l /\ incl l (cs_done (y_buf s)) /\ NoDup (map fst l) /\
    forall pop (PM : PQMax pop) leafsz rng d v p k, 0 < k -> shows (d, v) buf ->
      exists out, knn_on leafsz pop rng p k st d v = Ok out /\
        nearest (fun x y => dleb (dist p x) (dist p y)) k (a_recs l) out.
Proof. exact (fun C cap n s seen runs buf bs V CAP => concurrent_knn C V cap CAP n s seen runs buf bs). Qed.
Print Assumptions C63_knn_partial.

(** C63 for tries: a point lookup returns exactly the record of [l] with the key.
    Missing: as above, and keys at other addresses (C55_address_refuted). *)
Theorem C63_trie_lookup_partial (qlt : qorder crec) {QO : QOrder qlt} :
  forall literal search C cap n (s : sys crec) seen runs buf bs, valid_cfg C -> search_exact search -> 2 * c_hwm C <= cap ->
  sreach (c_lwm C) (c_hwm C) cap still (sys_init (c_hwm C) cap n) s ->
  no_erase (cs_done (y_buf s)) -> (forall r, In r (a_recs (cs_done (y_buf s))) -> c_addr r <> literal) ->
  NoDup (map c_str (a_recs (cs_done (y_buf s)))) ->
  In (AList seen runs buf) (y_ans s) -> Forall2 shows bs runs ->
  exists st l, flush_all (trie_shards qlt literal) C st_empty bs = Ok st /\
    incl seen l /\ incl l (cs_done (y_buf s)) /\ NoDup (map fst l) /\
    forall d v k a, shows (d, v) buf ->
      (forall r, In r (a_recs (cs_done (y_buf s))) -> (c_addr r = a <-> c_str r = k)) ->
      exists out, pl_on (fun r => c_addr r =? a) (trie_lookup search k) st d v = Ok out /\
        Permutation out (filter (has_str k) (a_recs l)).
Proof.
  exact (fun literal search C cap n s seen runs buf bs V SE CAP =>
    concurrent_trie_lookup qlt literal C V cap CAP search SE n s seen runs buf bs).
Qed.
Print Assumptions C63_trie_lookup_partial.

(** C63 for tries with erases: the static structure has the balance of the inserts and
    erases of [l].  Missing: as for C63_static_bounds_partial. *)
Theorem C63_trie_bounds_partial (qlt : qorder crec) {QO : QOrder qlt} :
  forall literal C cap n (s : sys crec) seen runs buf bs, valid_cfg C -> 2 * c_hwm C <= cap ->
  sreach (c_lwm C) (c_hwm C) cap still (sys_init (c_hwm C) cap n) s ->
  (forall r, In r (a_recs (cs_done (y_buf s))) -> c_addr r <> literal) ->
  In (AList seen runs buf) (y_ans s) -> Forall mostly_plain runs -> (buf = [] \/ mostly_plain buf) ->
  Forall2 shows bs runs ->
  exists st l, flush_all (trie_shards qlt literal) C st_empty bs = Ok st /\
    incl seen l /\ incl l (cs_done (y_buf s)) /\ NoDup (map fst l) /\
    forall d v, shows (d, v) buf ->
      exists sh, static_on (trie_shards qlt literal) st d v = Ok sh /\ sorted (s_data sh) /\
        forall r, n_plain r (s_data sh) + a_del r l = n_tomb r (s_data sh) + a_ins r l /\
                  n_plain r (s_data sh) <= a_ins r l.
Proof.
  exact (fun literal C cap n s seen runs buf bs V CAP =>
    concurrent_trie_bounds qlt literal C V cap CAP n s seen runs buf bs).
Qed.
Print Assumptions C63_trie_bounds_partial.

(** ** The hypotheses are met *)

(** The executions [wh_ins] and [wh_del] of Prop_Whole.v meet those of the theorems on
    sorted and VPTree shards; the reads give: *)
Example rd_whole : forall l, exists st vs s w1 w2, flush_all by_version (wh_cfg l) st_empty [wh_batch] = Ok st /\
  flush_all vp_shards (wh_cfg l) st_empty [wh_batch] = Ok vs /\
  static_on by_version st (fst (wh_buf (W 20 rc))) (snd (wh_buf (W 20 rc))) = Ok s /\ s_reccnt s = 3 /\
  rc_on lb_isam 0 9 st (fst (wh_buf (W 20 rc))) (snd (wh_buf (W 20 rc))) = Ok 3 /\
  pl_on (has_key (rkey rb)) (pl_key (rkey rb)) st (fst (wh_buf (W 20 rc))) (snd (wh_buf (W 20 rc))) = Ok [rb] /\
  static_on vp_shards vs (fst (wh_buf (W 21 ra))) (snd (wh_buf (W 21 ra))) = Ok w1 /\ s_reccnt w1 = 3 /\
  knn_on 2 pop_far (fun i c => i + c) rc 2 vs (fst (wh_buf (W 20 rc))) (snd (wh_buf (W 20 rc))) = Ok w2 /\ length w2 = 2.
Proof. intros []; vm_compute; do 5 eexists; repeat match goal with |- _ /\ _ => split end; reflexivity. Qed.

(** The same execution with string keys: two records are flushed, a third is inserted. *)
Definition tr_a : crec := CRec [1; 2]%N 11 0.
Definition tr_b : crec := CRec [1]%N 12 1.
Definition tr_c : crec := CRec [2; 0; 5]%N 13 2.
Definition tr_st (t k : nat) : list (sact crec) := repeat (UStep t) k.
Definition tr_acts : list (sact crec) :=
  UCall 0 (UInsert tr_a false) :: tr_st 0 9 ++ UCall 0 (UInsert tr_b false) :: tr_st 0 7 ++ [Alloc 0 1] ++ tr_st 0 13 ++
  UCall 2 URecon :: tr_st 2 30 ++ UCall 0 (UInsert tr_c false) :: tr_st 0 9 ++ UCall 1 (UJob KQuery) :: tr_st 1 12.
Definition tr_batch : batch crec := ([W 4 tr_a; W 12 tr_b; W 0 tr_a; W 0 tr_a], View 4 0 2 0).
Definition tr_buf : batch crec := ([W 0 tr_a; W 0 tr_a; W 20 tr_c; W 0 tr_a], View 4 2 3 0).
Example tr_answer :
  match schecked (R := crec) 1 2 4 stillb (sys_init 2 4 3) tr_acts with
  | Some s => y_ans s = [AList [(2, (tr_c, false)); (1, (tr_b, false)); (0, (tr_a, false))] [[W 4 tr_a; W 12 tr_b]] [W 20 tr_c]] /\
              cs_done (y_buf s) = [(2, (tr_c, false)); (1, (tr_b, false)); (0, (tr_a, false))]
  | None => False
  end.
Proof. vm_compute. split; reflexivity. Qed.
Example tr_keys : no_erase [(2, (tr_c, false)); (1, (tr_b, false)); (0, (tr_a, false))] /\
  (forall r, In r [tr_c; tr_b; tr_a] -> c_addr r <> 7) /\ NoDup (map c_str [tr_c; tr_b; tr_a]) /\
  (forall r, In r [tr_c; tr_b; tr_a] -> (c_addr r = 12 <-> c_str r = [1]%N)).
Proof.
  split; [intros y r ts [H|[H|[H|[]]]]; inversion H; auto|].
  split; [intros r [<-|[<-|[<-|[]]]]; discriminate|].
  split; [repeat constructor; simpl; intuition discriminate|].
  intros r [<-|[<-|[<-|[]]]]; simpl; split; congruence.
Qed.
Example tr_shows : Forall2 shows [tr_batch] [[W 4 tr_a; W 12 tr_b]] /\ shows tr_buf [W 20 tr_c].
Proof.
  split.
  - constructor; [|constructor]. repeat split; try (vm_compute; lia). intros i I. cbn in I.
    do 2 (destruct i; [reflexivity|]). lia.
  - repeat split; try (vm_compute; lia). intros i I. cbn in I. destruct i; [reflexivity|lia].
Qed.
Example tr_lookup : forall l, exists st, flush_all (trie_shards by_version 7) (wh_cfg l) st_empty [tr_batch] = Ok st /\
  pl_on (fun r => c_addr r =? 12) (trie_lookup first_of [1]%N) st (fst tr_buf) (snd tr_buf) = Ok [tr_b] /\
  pl_on (fun r => c_addr r =? 13) (trie_lookup first_of [2; 0; 5]%N) st (fst tr_buf) (snd tr_buf) = Ok [tr_c].
Proof. intros []; eexists; (split; [vm_compute; reflexivity|]); split; vm_compute; reflexivity. Qed.
Example tr_fit : Forall (trie_plain 7) [W 4 tr_a; W 12 tr_b] /\ Forall (trie_plain 7) [W 20 tr_c].
Proof. split; repeat (constructor; [repeat split; discriminate|]); constructor. Qed.

(** With an erase that is flushed together with the record: as they are in one shard, no
    merge cancels them. *)
Definition te_cfg (l : layout) : cfg := Cfg l TOMBSTONE 2 3 2.
Definition te_acts : list (sact crec) :=
  UCall 0 (UInsert tr_a false) :: tr_st 0 9 ++ UCall 0 (UInsert tr_b false) :: tr_st 0 9 ++
  UCall 0 (UInsert tr_a true) :: tr_st 0 7 ++ [Alloc 0 1] ++ tr_st 0 13 ++
  UCall 2 URecon :: tr_st 2 30 ++ UCall 0 (UInsert tr_c false) :: tr_st 0 9 ++ UCall 1 (UJob KQuery) :: tr_st 1 12.
Definition te_run : list (wrapped crec) := [W 4 tr_a; W 12 tr_b; W 21 tr_a].
Definition te_batch : batch crec := ([W 4 tr_a; W 12 tr_b; W 21 tr_a; W 0 tr_a; W 0 tr_a; W 0 tr_a], View 6 0 3 0).
Definition te_buf : batch crec := ([W 0 tr_a; W 0 tr_a; W 0 tr_a; W 28 tr_c; W 0 tr_a; W 0 tr_a], View 6 3 4 0).
Example te_answer :
  match schecked (R := crec) 2 3 6 stillb (sys_init 3 6 3) te_acts with
  | Some s => y_ans s = [AList (cs_done (y_buf s)) [te_run] [W 28 tr_c]] /\
      cs_done (y_buf s) = [(3, (tr_c, false)); (2, (tr_a, true)); (1, (tr_b, false)); (0, (tr_a, false))]
  | None => False
  end.
Proof. vm_compute. split; reflexivity. Qed.
Example te_fit : (forall l, valid_cfg (te_cfg l) /\ 2 * c_hwm (te_cfg l) <= 6) /\ Forall2 shows [te_batch] [te_run] /\
  shows te_buf [W 28 tr_c] /\ mostly_plain te_run /\ mostly_plain [W 28 tr_c] /\
  Forall (trie_shown 7) (te_run ++ [W 28 tr_c]).
Proof.
  split; [intros []; unfold valid_cfg; simpl; repeat split; lia || auto|].
  split; [constructor; [|constructor]; repeat split; try (vm_compute; lia); intros i I; cbn in I;
    do 3 (destruct i; [reflexivity|]); lia|].
  split; [repeat split; try (vm_compute; lia); intros i I; cbn in I; destruct i; [reflexivity|lia]|].
  split; [split; [vm_compute; lia|intros w [<-|[<-|[<-|[]]]]; reflexivity]|].
  split; [split; [vm_compute; lia|intros w [<-|[]]; reflexivity]|].
  repeat (constructor; [split; [reflexivity|discriminate]|]). constructor.
Qed.
Example te_static : forall l, exists st s, flush_all (trie_shards by_version 7) (te_cfg l) st_empty [te_batch] = Ok st /\
  length (st_records st) = 3 /\ static_on (trie_shards by_version 7) st (fst te_buf) (snd te_buf) = Ok s /\
  map wrec (s_data s) = [tr_b; tr_a; tr_a; tr_c].
Proof. intros []; do 2 eexists; repeat (split; [vm_compute; reflexivity|]); vm_compute; reflexivity. Qed.

(** And with one that is flushed after the record. *)
Definition tf_runs : list (list (wrapped crec)) := [[W 4 tr_a]; [W 13 tr_a; W 20 tr_b; W 28 tr_c]].
Definition tf_batches : list (batch crec) :=
  [([W 4 tr_a; W 0 tr_a; W 0 tr_a; W 0 tr_a], View 4 0 1 0); ([W 0 tr_a; W 13 tr_a; W 20 tr_b; W 28 tr_c], View 4 1 4 0)].
Example tf_fit : Forall2 shows tf_batches tf_runs /\ Forall mostly_plain tf_runs /\
  Forall (Forall (trie_shown 7)) tf_runs /\ Forall (run_size 3) tf_runs.
Proof.
  split; [|split; [|split]].
  - constructor; [|constructor; [|constructor]]; repeat split; try (vm_compute; lia); intros i I; cbn in I;
      do 3 (destruct i; [try lia; reflexivity|]); lia.
  - repeat (constructor; [split; [vm_compute; lia|intros w W; cbn in W; decompose [or] W; subst; try contradiction; reflexivity]|]).
    constructor.
  - repeat (constructor; [repeat (constructor; [split; [reflexivity|discriminate]|]); constructor|]). constructor.
  - repeat (constructor; [split; cbn; lia|]). constructor.
Qed.
Example tf_static : forall l, exists st s, flush_all (trie_shards by_version 7) (te_cfg l) st_empty tf_batches = Ok st /\
  length (st_records st) = match l with LEVELING => 2 | _ => 4 end /\
  static_on (trie_shards by_version 7) st [W 0 tr_a] (View 1 0 0 0) = Ok s /\ map wrec (s_data s) = [tr_b; tr_c].
Proof. intros []; do 2 eexists; repeat (split; [vm_compute; reflexivity|]); vm_compute; reflexivity. Qed.

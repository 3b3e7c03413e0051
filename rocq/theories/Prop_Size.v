(** Properties of the sizes of the index: levels, height, tombstones, bookkeeping
    (C13, C14, C15, C39, C42, C44, C53, C54).  [qlt] is the order of the external priority queue,
    as in Prop_Serial. *)
From Coq Require Import List Arith ZArith NArith Lia Bool Permutation Sorted.
From Verif Require Import Base RecordModel RecordProofs BufferModel MergeModel MergeProofs StructModel ExtModel
  QueryModel Spec QueryProofs SizeProofs CountProofs BsmProofs.
Import ListNotations.

(** C13, tiering and BSM: level [i] never holds more than lwm * sf^(i+1) records
    (so at most the advertised hwm * sf^(i+1)).  Missing: leveling, below. *)
Theorem C13_record_capacity_partial {R : Type} {RO : RecOps R} {RL : RecLaws R}
  (qlt : qorder R) {QO : QOrder qlt} :
  forall C ops e rs i ls, valid_cfg C -> c_layout C <> LEVELING ->
  run_new qlt C ops = Ok (e, rs) -> nth_error (levels_of e) i = Some ls ->
  length (concat ls) <= c_lwm C * c_sf C ^ (i + 1).
Proof. exact (fun C ops e rs i ls V => record_capacity qlt C V ops e rs i ls). Qed.
Print Assumptions C13_record_capacity_partial.

(** C13: no level has more shards than its layout allows.  Missing: BSM histories
    on the way of which a shard becomes empty (false, C13_bsm_refuted). *)
Theorem C13_shard_capacity_partial {R : Type} {RO : RecOps R} {RL : RecLaws R}
  (qlt : qorder R) {QO : QOrder qlt} :
  forall C ops e rs i ls, valid_cfg C -> bsm_safe qlt C ops ->
  run_new qlt C ops = Ok (e, rs) -> nth_error (levels_of e) i = Some ls ->
  length ls <= max_shards C.
Proof. exact (fun C ops e rs i ls V => shard_capacity qlt C V ops e rs i ls). Qed.
Print Assumptions C13_shard_capacity_partial.

(** C13, leveling: one shard per level, the first two levels within capacity, and
    no level above twice its capacity.  Missing: the factor two cannot be removed,
    see C13_leveling_refuted. *)
Theorem C13_leveling_partial {R : Type} {RO : RecOps R} {RL : RecLaws R}
  (qlt : qorder R) {QO : QOrder qlt} :
  forall C ops e rs i ls, valid_cfg C -> c_layout C = LEVELING ->
  run_new qlt C ops = Ok (e, rs) -> nth_error (levels_of e) i = Some ls ->
  length ls <= 1 /\
  (i <= 1 -> length (concat ls) <= c_hwm C * c_sf C ^ (i + 1)) /\
  (2 <= c_sf C -> length (concat ls) <= 2 * (c_hwm C * c_sf C ^ (i + 1))).
Proof. exact (fun C ops e rs i ls V => leveling_capacity qlt C V ops e rs i ls). Qed.
Print Assumptions C13_leveling_partial.

(** C14: the tombstone proportion check succeeds under tiering and BSM.  Missing:
    leveling (false, C14_leveling_refuted). *)
Theorem C14_tombstone_proportion_partial {R : Type} {RO : RecOps R} {RL : RecLaws R}
  (qlt : qorder R) {QO : QOrder qlt} :
  forall C ops e rs, valid_cfg C -> c_layout C <> LEVELING ->
  run_new qlt C ops = Ok (e, rs) -> validate_ts_prop C e = Ok (e, true).
Proof. exact (fun C ops e rs V => proportion_any qlt C V ops e rs). Qed.
Print Assumptions C14_tombstone_proportion_partial.

(** C15: height [h] needs a number of operations exponential in [h]. *)
Theorem C15_height {R : Type} {RO : RecOps R} {RL : RecLaws R}
  (qlt : qorder R) {QO : QOrder qlt} :
  forall C ops e rs h, valid_cfg C ->
  run_new qlt C ops = Ok (e, rs) -> get_height e = Ok (e, h) ->
  match c_layout C with
  | TIERING => 1 <= h -> c_lwm C * c_sf C ^ (h - 1) < length ops
  | BSM => 2 <= h -> c_lwm C * (2 ^ (h - 2) + 1) < length ops
  | LEVELING => 3 <= h -> c_hwm C * c_sf C ^ (h - 1) < length ops
  end.
Proof. exact (fun C ops e rs h V => height_any qlt C V ops e rs h). Qed.
Print Assumptions C15_height.

(** C39: what the tombstone count really is: the tombstones ever appended plus
    those in the shards.  Missing: that is not what C39 asks for. *)
Theorem C39_count_value_partial {R : Type} {RO : RecOps R} {RL : RecLaws R}
  (qlt : qorder R) {QO : QOrder qlt} :
  forall C ops e rs, valid_cfg C -> run_new qlt C ops = Ok (e, rs) ->
  get_tombstone_count e = Ok (e, ts_appended C ops + countb is_ts (shard_records e)).
Proof. exact (fun C ops e rs V => tombstone_value_any qlt C V ops e rs). Qed.
Print Assumptions C39_count_value_partial.

(** C39, the part that holds: it is never below the number of stored tombstones,
    and is that number before the first flush and with tagging.  Missing: equality
    after a flush, which fails (C39_tombstone_count_refuted). *)
Theorem C39_tombstone_count_partial {R : Type} {RO : RecOps R} {RL : RecLaws R}
  (qlt : qorder R) {QO : QOrder qlt} :
  forall C ops e rs, valid_cfg C -> run_new qlt C ops = Ok (e, rs) ->
  exists n, get_tombstone_count e = Ok (e, n) /\ countb is_ts (stored e) <= n /\
    (c_del C = TAGGING \/ length ops <= c_lwm C -> n = countb is_ts (stored e)).
Proof. exact (fun C ops e rs V => tombstone_ge_any qlt C V ops e rs). Qed.
Print Assumptions C39_tombstone_count_partial.

(** C44: the planner's record and shard counts are those of the actual levels. *)
Theorem C44_bookkeeping {R : Type} {RO : RecOps R} {RL : RecLaws R}
  (qlt : qorder R) {QO : QOrder qlt} :
  forall C ops e rs, valid_cfg C -> run_new qlt C ops = Ok (e, rs) ->
  planned_counts e = map (fun ls => (length (concat ls), length ls)) (levels_of e).
Proof. exact (fun C ops e rs V => bookkeeping_any qlt C V ops e rs). Qed.
Print Assumptions C44_bookkeeping.

(** C42 and C44: whatever happened before, the next operation does not fault, nor
    do its planned reconstructions, if no shard is empty and (leveling only, and
    only when the operation flushes) the buffer does not cancel completely.
    Missing: states with an empty shard, in which faults do occur
    (C42_merge_refuted). *)
Theorem C44_next_operation_partial {R : Type} {RO : RecOps R} {RL : RecLaws R}
  (qlt : qorder R) {QO : QOrder qlt} :
  forall C ops e rs o, valid_cfg C -> run_new qlt C ops = Ok (e, rs) ->
  (forall ls d, In ls (levels_of e) -> In d ls -> d <> []) ->
  (c_layout C = LEVELING -> length (buffer_records e) = c_lwm C ->
   exists r, n_live r (buffer_records e) <> n_tomb r (buffer_records e)) ->
  exists e' n, step qlt C e o = Ok (e', n).
Proof. exact (fun C ops e rs o V => next_step qlt C V ops e rs o). Qed.
Print Assumptions C44_next_operation_partial.

(** C42: nor does a range query. *)
Theorem C42_next_query_partial {R : Type} {RO : RecOps R} {RL : RecLaws R} {KO : KeyOps R} {KL : KeyLaws R}
  (qlt : qorder R) {QO : QOrder qlt} (lbf : list (wrapped R) -> Z -> res nat) :
  forall C ops e rs l u, valid_cfg C -> lb_sound lbf -> run_new qlt C ops = Ok (e, rs) ->
  (forall ls d, In ls (levels_of e) -> In d ls -> d <> []) ->
  exists out, range_query qlt lbf e l u = Ok (e, out).
Proof. exact (fun C ops e rs l u V LB => next_query qlt C V lbf LB ops e rs l u). Qed.
Print Assumptions C42_next_query_partial.

(** C53: the reported number of records is the number physically stored, in the
    buffer and all shards. *)
Theorem C53_record_count {R : Type} {RO : RecOps R} {RL : RecLaws R}
  (qlt : qorder R) {QO : QOrder qlt} :
  forall C ops e rs, valid_cfg C -> run_new qlt C ops = Ok (e, rs) ->
  get_record_count e = Ok (e, length (stored e)).
Proof. exact (fun C ops e rs V => record_count_any qlt C V ops e rs). Qed.
Print Assumptions C53_record_count.

(** C54: nothing is made up: of every record, no more copies are stored than were
    inserted, no more tombstones than it was erased, and none with tagging. *)
Theorem C54_nothing_made_up {R : Type} {RO : RecOps R} {RL : RecLaws R}
  (qlt : qorder R) {QO : QOrder qlt} :
  forall C ops e rs r, valid_cfg C -> run_new qlt C ops = Ok (e, rs) ->
  n_plain r (stored e) <= n_ins r ops /\ n_tomb r (stored e) <= n_del r ops /\
  (c_del C = TAGGING -> n_tomb r (stored e) = 0).
Proof. exact (fun C ops e rs r V => nothing_made_up qlt C V ops e rs r). Qed.
Print Assumptions C54_nothing_made_up.

(** C54: nor do range queries return anything out of range, or anything more often
    than it is stored and was inserted. *)
Theorem C54_range_query_sound {R : Type} {RO : RecOps R} {RL : RecLaws R} {KO : KeyOps R} {KL : KeyLaws R}
  (qlt : qorder R) {QO : QOrder qlt} (lbf : list (wrapped R) -> Z -> res nat) :
  forall C ops e rs l u e' out, valid_cfg C -> lb_sound lbf ->
  run_new qlt C ops = Ok (e, rs) -> range_query qlt lbf e l u = Ok (e', out) ->
  e' = e /\ forall r, if key_in l u r then occ r out <= n_plain r (stored e) /\ occ r out <= n_ins r ops
                     else occ r out = 0.
Proof. exact (fun C ops e rs l u e' out V LB => range_query_sound qlt C V lbf LB ops e rs l u e' out). Qed.
Print Assumptions C54_range_query_sound.

(** ** The hypotheses are met *)

(** [n] operations: inserts, every fifth one an erase of the record before it. *)
Definition sz_ops (n : nat) : list (op kv) :=
  map (fun i => if i mod 5 =? 4 then Del (KV (Z.of_nat (i - 1)) 0) else Ins (KV (Z.of_nat i) 0)) (seq 0 n).
Definition sz_cfg (l : layout) (d : delpol) : cfg := Cfg l d 3 4 2.

Example sz_cfg_valid : forall l d, valid_cfg (sz_cfg l d).
Proof. intros. unfold valid_cfg, sz_cfg; simpl; repeat split; lia || auto. Qed.

(** 50 operations are safe in every layout and both delete policies. *)
Lemma sz_mostly : mostly_inserts 3 (sz_ops 50).
Proof.
  intros k L. assert (K : k < 16) by (change (length (sz_ops 50)) with 50 in L; lia).
  do 16 (destruct k as [|k]; [vm_compute; lia|]). lia.
Qed.
Lemma sz_survivors : survivors 3 (sz_ops 50).
Proof.
  intros k L. change (length (inserted (sz_ops 50))) with 40 in L.
  assert (K : k < 13) by lia.
  do 13 (destruct k as [|k];
    [first [eexists; split; [left; reflexivity|vm_compute; reflexivity]
           |eexists; split; [right; left; reflexivity|vm_compute; reflexivity]]|]). lia.
Qed.
Example sz_safe : forall l d, bsm_safe by_version (sz_cfg l d) (sz_ops 50).
Proof.
  intros l d _. refine (few_never_empty by_version _ (sz_cfg_valid l d) _ _).
  destruct d; right; [left|right]; split; auto; [exact sz_mostly|exact sz_survivors].
Qed.
(** They run, and give three or more levels with tombstones stored. *)
Example sz_runs : forall l d, exists e rs h,
  run_new by_version (sz_cfg l d) (sz_ops 50) = Ok (e, rs) /\ get_height e = Ok (e, h) /\ 3 <= h /\
  (exists ls, nth_error (levels_of e) (h - 1) = Some ls /\ 12 <= length (concat ls)) /\
  (d = TOMBSTONE -> 1 <= countb is_ts (stored e)).
Proof.
  intros [] []; (do 3 eexists; split; [vm_compute; reflexivity|]; split; [vm_compute; reflexivity|];
    split; [lia|]; split; [eexists; split; [vm_compute; reflexivity|vm_compute; lia]|
    intros E; first [discriminate E | vm_compute; lia]]).
Qed.

(** The theorems without [bsm_safe] also speak of BSM histories like this one, in
    which shards become empty and records are lost. *)
Definition sz_lossy : list (op kv) :=
  [Ins (KV 10 0); Del (KV 10 0); Ins (KV 20 0); Del (KV 20 0); Ins (KV 1 0); Ins (KV 2 0); Ins (KV 3 0); Ins (KV 4 0);
   Ins (KV 5 0)].
Example sz_lossy_runs : exists e rs, run_new by_version (Cfg BSM TOMBSTONE 2 2 2) sz_lossy = Ok (e, rs) /\
  get_record_count e = Ok (e, 1) /\ planned_counts e = [(0, 2)] /\ length (stored e) = 1.
Proof.
  do 2 eexists. split; [vm_compute; reflexivity|]. repeat split; vm_compute; reflexivity.
Qed.
(** After 48 of the 50 operations the buffer is full, and the conditions of the
    progress theorem are met. *)
Example sz_next : forall l d, exists e rs, run_new by_version (sz_cfg l d) (sz_ops 48) = Ok (e, rs) /\
  (forall ls x, In ls (levels_of e) -> In x ls -> x <> []) /\
  exists r, n_live r (buffer_records e) <> n_tomb r (buffer_records e) /\ length (buffer_records e) = 3.
Proof.
  intros l d.
  assert (N : shards_never_empty by_version (sz_cfg l d) (sz_ops 50)).
  { refine (few_never_empty by_version _ (sz_cfg_valid l d) _ _).
    destruct d; right; [left|right]; split; auto; [exact sz_mostly|exact sz_survivors]. }
  assert (K : exists e rs, run_new by_version (sz_cfg l d) (sz_ops 48) = Ok (e, rs) /\
    exists r, n_live r (buffer_records e) <> n_tomb r (buffer_records e) /\ length (buffer_records e) = 3).
  { destruct l, d; (do 2 eexists; split; [vm_compute; reflexivity|]; exists (KV 47 0);
    split; [intro Q; vm_compute in Q; discriminate Q|vm_compute; reflexivity]). }
  destruct K as (e & rs & E & K). exists e, rs. split; [auto|]. split; [|auto].
  apply (N (sz_ops 48) (skipn 48 (sz_ops 50))) with (rs := rs); auto.
Qed.

(** ** What fails *)

(** C13 under leveling: level 2 (capacity 16) holds 18 records. *)
Theorem C13_leveling_refuted : exists C (ops : list (op kv)) e rs ls,
  valid_cfg C /\ c_layout C = LEVELING /\ run_new by_version C ops = Ok (e, rs) /\
  nth_error (levels_of e) 2 = Some ls /\ c_hwm C * c_sf C ^ (2 + 1) < length (concat ls).
Proof.
  exists (Cfg LEVELING TOMBSTONE 1 2 2). exists (map (fun i => Ins (KV (Z.of_nat i) 0)) (seq 0 23)).
  do 3 eexists. split; [unfold valid_cfg; simpl; repeat split; lia || discriminate|].
  split; [reflexivity|]. split; [vm_compute; reflexivity|]. split; [vm_compute; reflexivity|].
  vm_compute. lia.
Qed.
Print Assumptions C13_leveling_refuted.

(** C13 under BSM: two flushes in which everything cancels leave two shards in
    level 0. *)
Definition sz_cancel : list (op kv) :=
  [Ins (KV 10 0); Del (KV 10 0); Ins (KV 20 0); Del (KV 20 0); Ins (KV 0 0)].
Theorem C13_bsm_refuted : exists C e rs ls,
  valid_cfg C /\ c_layout C = BSM /\ run_new by_version C sz_cancel = Ok (e, rs) /\
  nth_error (levels_of e) 0 = Some ls /\ max_shards C < length ls.
Proof.
  exists (Cfg BSM TOMBSTONE 2 2 2). do 3 eexists.
  split; [unfold valid_cfg; simpl; repeat split; lia || auto|].
  split; [reflexivity|]. split; [vm_compute; reflexivity|]. split; [vm_compute; reflexivity|].
  vm_compute. lia.
Qed.
Print Assumptions C13_bsm_refuted.

(** C14 under leveling: erases of absent records fill a level with more tombstones
    than it has capacity. *)
Theorem C14_leveling_refuted : exists C (ops : list (op kv)) e rs,
  valid_cfg C /\ c_layout C = LEVELING /\ run_new by_version C ops = Ok (e, rs) /\
  validate_ts_prop C e = Ok (e, false).
Proof.
  exists (Cfg LEVELING TOMBSTONE 1 2 2). exists (map (fun i => Del (KV (Z.of_nat i) 0)) (seq 0 23)).
  do 2 eexists. split; [unfold valid_cfg; simpl; repeat split; lia || discriminate|].
  split; [reflexivity|]. split; [vm_compute; reflexivity|]. vm_compute. reflexivity.
Qed.
Print Assumptions C14_leveling_refuted.

(** C39: one tombstone stored, two reported. *)
Theorem C39_tombstone_count_refuted : exists C (ops : list (op kv)) e rs,
  valid_cfg C /\ bsm_safe by_version C ops /\ run_new by_version C ops = Ok (e, rs) /\
  countb is_ts (stored e) = 1 /\ get_tombstone_count e = Ok (e, 2).
Proof.
  exists (Cfg TIERING TOMBSTONE 2 2 2). exists [Ins (KV 3 0); Del (KV 5 0); Ins (KV 4 0)].
  do 2 eexists. split; [unfold valid_cfg; simpl; repeat split; lia || discriminate|].
  split; [intro; discriminate|]. split; [vm_compute; reflexivity|]. split; vm_compute; reflexivity.
Qed.
Print Assumptions C39_tombstone_count_refuted.

(** C15: the bound of 2^(h-1) flushes for BSM would be wrong: three flushes of one
    record each already give height 3. *)
Theorem C15_bsm_refuted : exists C (ops : list (op kv)) e rs h,
  valid_cfg C /\ c_layout C = BSM /\ run_new by_version C ops = Ok (e, rs) /\
  get_height e = Ok (e, h) /\ length ops < c_lwm C * 2 ^ (h - 1) + 1.
Proof.
  exists (Cfg BSM TOMBSTONE 1 1 2). exists (map (fun i => Ins (KV (Z.of_nat i) 0)) (seq 0 4)).
  do 3 eexists. split; [unfold valid_cfg; simpl; repeat split; lia || discriminate|].
  split; [reflexivity|]. split; [vm_compute; reflexivity|]. split; [vm_compute; reflexivity|].
  vm_compute. lia.
Qed.
Print Assumptions C15_bsm_refuted.

(** Properties of histories with tombstone deletes (C06, C08, C35).

    Here the tie rule of the external priority queue matters: [by_version] puts
    the record of the lower (older) cursor first, [by_header] compares the wrapped
    records themselves. *)
From Coq Require Import List Arith ZArith NArith Lia Bool Permutation Sorted.
From Verif Require Import Base RecordModel RecordProofs BufferModel MergeModel MergeProofs StructModel ExtModel
  QueryModel Spec SerialProofs WordProofs QueryWord Prop_Serial.
Import ListNotations.

(** C06: the static structure holds a plain copy of each live record, and of no
    other.  [no_wrap]: no buffer crosses the end of the ring (see
    C06_wrap_refuted); [2 ^ 29]: timestamps fit into the header.  Missing: the other
    tie rule (false, C06_header_order_refuted), BSM histories in which a shard
    becomes empty (false, C12_bsm_flush_refuted). *)
Theorem C06_static_live_partial {R : Type} {RO : RecOps R} {RL : RecLaws R} :
  forall C ops e rs e' s, valid_cfg C -> c_del C = TOMBSTONE ->
  bsm_safe by_version C ops ->
  never_doubled ops -> no_wrap C (length ops) -> (N.of_nat (2 * c_hwm C) <= 2 ^ 29)%N ->
  run_new by_version C ops = Ok (e, rs) ->
  create_static_structure by_version e = Ok (e', s) ->
  e' = e /\ sorted (s_data s) /\ forall r, n_plain r (s_data s) = occ r (live ops).
Proof.
  exact (fun C ops e rs e' s V T M D W B H K =>
    conj (proj1 (static_live rzero C V ops e rs e' s T M D W B H K))
   (conj (proj2 (proj2 (static_live rzero C V ops e rs e' s T M D W B H K)))
         (fun r => proj1 (proj2 (static_live r C V ops e rs e' s T M D W B H K))))).
Qed.
Print Assumptions C06_static_live_partial.

(** C08: a range query returns every live record of the range once and no erased
    one.  Missing: tiering (false, C08_tier_refuted), and a buffer that holds the
    records of the range unordered or a record together with its tombstone (false,
    C08_buffer_refuted). *)
Theorem C08_range_query_live_partial {R : Type} {RO : RecOps R} {RL : RecLaws R} {KO : KeyOps R} {KL : KeyLaws R}
  (lbf : list (wrapped R) -> Z -> res nat) :
  forall C ops e rs l u e' out r, valid_cfg C -> lb_sound lbf ->
  c_del C = TOMBSTONE -> c_layout C <> TIERING ->
  bsm_safe by_version C ops ->
  never_doubled ops -> no_wrap C (length ops) -> (N.of_nat (2 * c_hwm C) <= 2 ^ 29)%N ->
  run_new by_version C ops = Ok (e, rs) -> buffer_increasing l u e ->
  range_query by_version lbf e l u = Ok (e', out) ->
  occ r out = if key_in l u r then occ r (live ops) else 0.
Proof. exact (fun C ops e rs l u e' out r V LB => range_live C V lbf LB ops e rs l u e' out r). Qed.
Print Assumptions C08_range_query_live_partial.

(** C35: a point lookup of a key that was inserted at most once and not erased.
    [hit] is "has the searched key"; [selects]: all records of the history with
    that key are equal to [r].  Missing: keys that were erased, see below. *)
Theorem C35_point_lookup_partial {R : Type} {RO : RecOps R} {RL : RecLaws R}
  (qlt : qorder R) {QO : QOrder qlt}
  (hit : R -> bool) (plf : list (wrapped R) -> res (option (wrapped R))) :
  forall C ops e rs r, valid_cfg C -> pl_sound hit plf ->
  c_del C = TOMBSTONE -> shards_never_empty qlt C ops -> selects hit r ops ->
  run_new qlt C ops = Ok (e, rs) ->
  (history_of r ops = [] \/ exists x, history_of r ops = [Ins x]) ->
  exists out, point_lookup_query hit plf e = Ok (e, out) /\
    length out = occ r (live ops) /\ Forall (fun x => req r x = true) out.
Proof. exact (fun C ops e rs r V PL => lookup_kept C V r hit plf PL qlt ops e rs). Qed.
Print Assumptions C35_point_lookup_partial.

(** C35: a key that was inserted once and erased later is not found.  Missing:
    tiering, and a buffer that holds the record and its tombstone (both false, see
    C35_tier_refuted and C35_buffer_refuted); re-inserted keys (false,
    C35_reinsert_refuted). *)
Theorem C35_erased_partial {R : Type} {RO : RecOps R} {RL : RecLaws R}
  (hit : R -> bool) (plf : list (wrapped R) -> res (option (wrapped R))) :
  forall C ops e rs r, valid_cfg C -> pl_sound hit plf ->
  c_del C = TOMBSTONE -> c_layout C <> TIERING -> shards_never_empty by_version C ops -> selects hit r ops ->
  no_wrap C (length ops) -> (N.of_nat (2 * c_hwm C) <= 2 ^ 29)%N ->
  run_new by_version C ops = Ok (e, rs) ->
  (exists x y, history_of r ops = [Ins x; Del y]) ->
  countb (fun w => hit (wrec w)) (buffer_records e) <= 1 ->
  point_lookup_query hit plf e = Ok (e, []).
Proof. exact (fun C ops e rs r V PL => lookup_erased C V r hit plf PL ops e rs). Qed.
Print Assumptions C35_erased_partial.

(** ** Concrete cases *)

(** Nine inserts and three erases over several flushes (the low watermark 4
    divides the ring size 8); record 3 is erased and inserted again. *)
Definition dl_ops : list (op kv) :=
  [Ins (KV 3 0); Ins (KV 1 0); Del (KV 3 0); Ins (KV 4 0);
   Ins (KV 9 0); Ins (KV 3 0); Ins (KV 8 0); Del (KV 1 0);
   Ins (KV 7 0); Ins (KV 6 0); Del (KV 8 0); Ins (KV 2 0);
   Ins (KV 5 0)]%Z.
Definition dl_cfg (l : layout) : cfg := Cfg l TOMBSTONE 4 4 2.
Definition has_key (k : Z) (r : kv) : bool := (rkey r =? k)%Z.
(** A lookup by key, and one for the record {k, 0}. *)
Definition pl_key (k : Z) (d : list (wrapped kv)) : res (option (wrapped kv)) :=
  Ok (find (fun w => has_key k (wrec w)) d).
Definition pl_rec (k : Z) (d : list (wrapped kv)) : res (option (wrapped kv)) :=
  Ok (find (fun w => req (KV k 0) (wrec w)) d).

Example pl_key_sound : forall k, pl_sound (has_key k) (pl_key k).
Proof.
  intros k d _ _. unfold pl_key. destruct (find _ d) eqn:E.
  - apply find_some in E. auto.
  - intros w Hw. apply (find_none _ _ E w Hw).
Qed.

Example dl_never_doubled : never_doubled dl_ops.
Proof.
  intros pre r post E.
  do 14 (destruct pre as [|o pre]; [inversion E; subst; vm_compute; reflexivity|];
         inversion E; subst; clear E; rename H1 into E).
Qed.
Example dl_mostly : mostly_inserts 4 dl_ops.
Proof.
  intros k L. assert (K : k < 3) by (simpl in L; lia).
  destruct k as [|[|[|k]]]; [vm_compute; lia..|lia].
Qed.

Example dl_safe : forall l, shards_never_empty by_version (dl_cfg l) dl_ops.
Proof.
  intros l. refine (few_erases_safe by_version _ _ _ _); [unfold valid_cfg; simpl; repeat split; lia || auto|].
  right; left; split; [reflexivity|exact dl_mostly].
Qed.

(** The run, its static structure, a range query over a buffer with a record in
    range, a lookup of a kept key and of an erased one. *)
Example dl_runs : forall l, In l [LEVELING; BSM] ->
  valid_cfg (dl_cfg l) /\ no_wrap (dl_cfg l) (length dl_ops) /\
  exists e rs s, run_new by_version (dl_cfg l) dl_ops = Ok (e, rs) /\
    create_static_structure by_version e = Ok (e, s) /\ length (s_data s) = 7 /\
    buffer_increasing 2 8 e /\
    (exists out, range_query by_version lb_isam e 2 8 = Ok (e, out) /\ length out = 6) /\
    history_of (KV 9 0) dl_ops = [Ins (KV 9 0)] /\ selects (has_key 9) (KV 9 0) dl_ops /\
    history_of (KV 8 0) dl_ops = [Ins (KV 8 0); Del (KV 8 0)] /\ selects (has_key 8) (KV 8 0) dl_ops /\
    countb (fun w => has_key 8 (wrec w)) (buffer_records e) <= 1.
Proof.
  intros l H. simpl in H. decompose [or] H; subst; try contradiction;
  (split; [unfold valid_cfg; simpl; repeat split; lia || auto|];
   split; [left; exists 2; reflexivity|]; do 3 eexists;
   split; [vm_compute; reflexivity|]; split; [vm_compute; reflexivity|]; split; [reflexivity|];
   split; [vm_compute; repeat constructor|];
   split; [eexists; split; [vm_compute; reflexivity|reflexivity]|];
   split; [reflexivity|];
   split; [intros o Ho; simpl in Ho; repeat destruct Ho as [<-|Ho]; reflexivity || contradiction|];
   split; [reflexivity|];
   split; [intros o Ho; simpl in Ho; repeat destruct Ho as [<-|Ho]; reflexivity || contradiction|];
   vm_compute; lia).
Qed.

(** ** What fails *)

(** C06 without [no_wrap]: a record is inserted at the last slot of the ring and
    erased at the first; the timestamp order puts the tombstone first, and the
    erased record 50 stays. *)
Theorem C06_wrap_refuted : exists C (ops : list (op kv)) e rs s,
  valid_cfg C /\ never_doubled ops /\ occ (KV 50 0) (live ops) = 0 /\
  run_new by_version C ops = Ok (e, rs) /\ create_static_structure by_version e = Ok (e, s) /\
  n_plain (KV 50 0) (s_data s) = 1.
Proof.
  exists (Cfg TIERING TOMBSTONE 3 4 2).
  exists ([Ins (KV 0 0); Ins (KV 1 0); Ins (KV 2 0); Ins (KV 3 0); Ins (KV 4 0); Ins (KV 5 0);
           Ins (KV 6 0); Ins (KV 50 0); Del (KV 50 0); Ins (KV 100 0); Ins (KV 101 0)]%Z).
  do 3 eexists. split; [unfold valid_cfg; simpl; repeat split; lia || discriminate|].
  split; [|split; [vm_compute; reflexivity|split; [vm_compute; reflexivity|split; vm_compute; reflexivity]]].
  intros pre r post E.
  do 12 (destruct pre as [|o pre]; [inversion E; subst; vm_compute; reflexivity|];
         inversion E; subst; clear E; rename H1 into E).
Qed.
Print Assumptions C06_wrap_refuted.

(** C06 if the queue breaks ties by the wrapped record: a record erased before it
    is inserted (in different flushes) is lost although live. *)
Theorem C06_header_order_refuted : exists C (ops : list (op kv)) e rs s,
  valid_cfg C /\ never_doubled ops /\ no_wrap C (length ops) /\ occ (KV 3 0) (live ops) = 1 /\
  run_new by_header C ops = Ok (e, rs) /\ create_static_structure by_header e = Ok (e, s) /\
  n_plain (KV 3 0) (s_data s) = 0.
Proof.
  exists (Cfg TIERING TOMBSTONE 2 2 2).
  exists ([Ins (KV 0 0); Del (KV 3 0); Ins (KV 1 0); Ins (KV 3 0); Ins (KV 100 0)]%Z).
  do 3 eexists. split; [unfold valid_cfg; simpl; repeat split; lia || discriminate|].
  split; [|split; [left; exists 2; reflexivity|]; split; [vm_compute; reflexivity|
           split; [vm_compute; reflexivity|split; vm_compute; reflexivity]]].
  intros pre r post E.
  do 6 (destruct pre as [|o pre]; [inversion E; subst; vm_compute; reflexivity|];
         inversion E; subst; clear E; rename H1 into E).
Qed.
Print Assumptions C06_header_order_refuted.

(** C08: insert and erase in the same buffer; the query returns the erased record. *)
Theorem C08_buffer_refuted : exists C (ops : list (op kv)) e rs,
  valid_cfg C /\ c_layout C = LEVELING /\ history_of (KV 3 0) ops = [Ins (KV 3 0); Del (KV 3 0)] /\
  run_new by_version C ops = Ok (e, rs) /\
  range_query by_version lb_isam e 0 10 = Ok (e, [KV 3 0]).
Proof.
  exists (Cfg LEVELING TOMBSTONE 3 4 2). exists [Ins (KV 3 0); Del (KV 3 0)].
  do 2 eexists. split; [unfold valid_cfg; simpl; repeat split; lia || discriminate|].
  split; [reflexivity|]. split; [reflexivity|]. split; vm_compute; reflexivity.
Qed.
Print Assumptions C08_buffer_refuted.

(** C08 under tiering: the tombstone reaches a later shard of the same level as
    the record.  The query sees the shards of a level in the wrong order. *)
Theorem C08_tier_refuted : exists C (ops : list (op kv)) e rs out,
  valid_cfg C /\ history_of (KV 3 0) ops = [Ins (KV 3 0); Del (KV 3 0)] /\
  run_new by_version C ops = Ok (e, rs) /\ length (buffer_records e) = 1 /\
  range_query by_version lb_isam e 0 10 = Ok (e, out) /\ occ (KV 3 0) out = 1.
Proof.
  exists (Cfg TIERING TOMBSTONE 2 2 2).
  exists ([Ins (KV 3 0); Ins (KV 1 0); Ins (KV 2 0); Del (KV 3 0); Ins (KV 20 0)]%Z).
  do 3 eexists. split; [unfold valid_cfg; simpl; repeat split; lia || discriminate|].
  split; [reflexivity|]. split; [vm_compute; reflexivity|]. split; [vm_compute; reflexivity|].
  split; vm_compute; reflexivity.
Qed.
Print Assumptions C08_tier_refuted.

(** C35: insert and erase in the same buffer; the scan stops at the record. *)
Theorem C35_buffer_refuted : exists C (ops : list (op kv)) e rs,
  valid_cfg C /\ history_of (KV 3 0) ops = [Ins (KV 3 0); Del (KV 3 0)] /\
  run_new by_version C ops = Ok (e, rs) /\
  point_lookup_query (has_key 3) (pl_key 3) e = Ok (e, [KV 3 0]).
Proof.
  exists (Cfg LEVELING TOMBSTONE 3 4 2). exists [Ins (KV 3 0); Del (KV 3 0)].
  do 2 eexists. split; [unfold valid_cfg; simpl; repeat split; lia || discriminate|].
  split; [reflexivity|]. split; vm_compute; reflexivity.
Qed.
Print Assumptions C35_buffer_refuted.

(** C35 under tiering: within a level the older shard answers first. *)
Theorem C35_tier_refuted : exists C (ops : list (op kv)) e rs,
  valid_cfg C /\ history_of (KV 3 0) ops = [Ins (KV 3 0); Del (KV 3 0)] /\
  run_new by_version C ops = Ok (e, rs) /\
  point_lookup_query (has_key 3) (pl_key 3) e = Ok (e, [KV 3 0]).
Proof.
  exists (Cfg TIERING TOMBSTONE 2 2 2).
  exists ([Ins (KV 3 0); Ins (KV 1 0); Ins (KV 2 0); Del (KV 3 0); Ins (KV 20 0)]%Z).
  do 2 eexists. split; [unfold valid_cfg; simpl; repeat split; lia || discriminate|].
  split; [reflexivity|]. split; vm_compute; reflexivity.
Qed.
Print Assumptions C35_tier_refuted.

(** C35: a key that is erased and inserted again is not found although live. *)
Theorem C35_reinsert_refuted : exists C (ops : list (op kv)) e rs,
  valid_cfg C /\ c_layout C = LEVELING /\ never_doubled ops /\ occ (KV 3 0) (live ops) = 1 /\
  run_new by_version C ops = Ok (e, rs) /\
  point_lookup_query (has_key 3) (pl_key 3) e = Ok (e, []).
Proof.
  exists (Cfg LEVELING TOMBSTONE 2 2 2).
  exists ([Ins (KV 3 0); Ins (KV 1 0); Del (KV 3 0); Ins (KV 3 0)]%Z).
  do 2 eexists. split; [unfold valid_cfg; simpl; repeat split; lia || discriminate|].
  split; [reflexivity|]. split; [|split; [vm_compute; reflexivity|split; vm_compute; reflexivity]].
  intros pre r post E.
  do 5 (destruct pre as [|o pre]; [inversion E; subst; vm_compute; reflexivity|];
         inversion E; subst; clear E; rename H1 into E).
Qed.
Print Assumptions C35_reinsert_refuted.

(** C35: the query searches the shards for the record {k, 0}; a shard whose
    point_lookup compares whole records does not find (3, 7). *)
Theorem C35_value_refuted : exists C (ops : list (op kv)) e rs,
  valid_cfg C /\ insert_only ops /\ In (KV 3 7) (live ops) /\
  run_new by_version C ops = Ok (e, rs) /\
  point_lookup_query (has_key 3) (pl_rec 3) e = Ok (e, []).
Proof.
  exists (Cfg LEVELING TOMBSTONE 1 1 2). exists [Ins (KV 3 7); Ins (KV 4 0)].
  do 2 eexists. split; [unfold valid_cfg; simpl; repeat split; lia || discriminate|].
  split; [intros o [<-|[<-|[]]]; eauto|]. split; [vm_compute; auto|]. split; vm_compute; reflexivity.
Qed.
Print Assumptions C35_value_refuted.

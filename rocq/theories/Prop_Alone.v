(** Queries of the static structure of an index (C84). *)
From Coq Require Import List Arith ZArith NArith Lia Bool Permutation Sorted.
From Verif Require Import Base RecordModel RecordProofs BufferModel MergeModel MergeProofs StructModel ExtModel
  SampleModel SampleSpec SampleProofs QueryModel Spec ISAMModel VPModel VPSpec KindModel AloneModel AloneSpec AloneProofs
  DistProofs KNNProofs StepProofs CountProofs Prop_Size Prop_Tag Prop_Delete.
Import ListNotations.

(** C84: a range query of the static structure returns the live records in the range, in
    order.  [settled]: inserts only, or different records and erases by tagging. *)
Theorem C84_range_query {R : Type} {RO : RecOps R} {RL : RecLaws R} {KO : KeyOps R} {KL : KeyLaws R}
  (qlt : qorder R) {QO : QOrder qlt} (lbf : list (wrapped R) -> Z -> res nat) :
  forall C, valid_cfg C -> forall (ops : list (op R)) e e' rs s, settled qlt C ops -> run_new qlt C ops = Ok (e, rs) ->
  create_static_structure qlt e = Ok (e', s) -> live ops <> [] -> forall l u, lb_sound lbf ->
  exists ws, alone_rq lbf l u s = Ok ws /\ sorted ws /\ Permutation (map wrec ws) (filter (key_in l u) (live ops)) /\
    Forall (fun w => is_ts w = false /\ is_del w = false) ws.
Proof. exact (fun C V ops e e' rs s ST RN SS NX => after_rq qlt C V ops e e' rs s ST RN SS NX lbf). Qed.
Print Assumptions C84_range_query.

(** C84: after insertions it returns the records that the index itself returns. *)
Theorem C84_same {R : Type} {RO : RecOps R} {RL : RecLaws R} {KO : KeyOps R} {KL : KeyLaws R}
  (qlt : qorder R) {QO : QOrder qlt} :
  forall C, valid_cfg C -> forall lbf (ops : list (op R)) e rs l u, lb_sound lbf -> insert_only ops ->
  ops <> [] -> run_new qlt C ops = Ok (e, rs) ->
  exists s out ws, create_static_structure qlt e = Ok (e, s) /\ range_query qlt lbf e l u = Ok (e, out) /\
    alone_rq lbf l u s = Ok ws /\ Permutation out (map wrec ws).
Proof. exact (fun C V => after_same qlt C V). Qed.
Print Assumptions C84_same.

(** C84: a range count of it gives their number; there may be no result if it is 0. *)
Theorem C84_range_count {R : Type} {RO : RecOps R} {RL : RecLaws R} {KO : KeyOps R} {KL : KeyLaws R}
  (qlt : qorder R) {QO : QOrder qlt} (lbf : list (wrapped R) -> Z -> res nat) :
  forall C, valid_cfg C -> forall (ops : list (op R)) e e' rs s, settled qlt C ops -> run_new qlt C ops = Ok (e, rs) ->
  create_static_structure qlt e = Ok (e', s) -> live ops <> [] -> forall l u, lb_sound lbf ->
  let n := length (filter (key_in l u) (live ops)) in
  alone_rc lbf l u s = Ok [(n, 0)] \/ (alone_rc lbf l u s = Ok [] /\ n = 0).
Proof. exact (fun C V ops e e' rs s ST RN SS NX => after_rc qlt C V ops e e' rs s ST RN SS NX lbf). Qed.
Print Assumptions C84_range_count.

(** C84: a point lookup of it returns one live record that matches, or nothing if none does. *)
Theorem C84_lookup {R : Type} {RO : RecOps R} {RL : RecLaws R} (qlt : qorder R) {QO : QOrder qlt}
  (hit : R -> bool) (plf : list (wrapped R) -> res (option (wrapped R))) :
  forall C, valid_cfg C -> forall (ops : list (op R)) e e' rs s, settled qlt C ops -> run_new qlt C ops = Ok (e, rs) ->
  create_static_structure qlt e = Ok (e', s) -> live ops <> [] -> pl_sound hit plf ->
  exists ws, alone_pl plf s = Ok ws /\
    match ws with
    | [] => forall r, In r (live ops) -> hit r = false
    | [w] => In (wrec w) (live ops) /\ hit (wrec w) = true
    | _ => False
    end.
Proof. exact (fun C V ops e e' rs s ST RN SS NX => after_pl qlt C V ops e e' rs s ST RN SS NX hit plf). Qed.
Print Assumptions C84_lookup.

(** C84: range sampling of it returns the requested number of records.  Each is the one a
    random number selects from a list [Y] of the live records in the range, so all are
    equally likely. *)
Theorem C84_sample {R : Type} {RO : RecOps R} {RL : RecLaws R} {KO : KeyOps R} {KL : KeyLaws R}
  (qlt : qorder R) {QO : QOrder qlt} (rng : nat -> nat) (lbf ubf : list (wrapped R) -> Z -> res nat) :
  forall C, valid_cfg C -> forall (ops : list (op R)) e e' rs s, settled qlt C ops -> run_new qlt C ops = Ok (e, rs) ->
  create_static_structure qlt e = Ok (e', s) -> live ops <> [] -> forall n l u, bounds_exact lbf ubf ->
  (exists r, In r (live ops) /\ key_in l u r = true) ->
  exists Y ws, Permutation Y (filter (key_in l u) (live ops)) /\ alone_irs rng lbf ubf n l u s = Ok ws /\
    map wrec ws = map (fun k => nth (rng k mod length Y) Y rzero) (seq 0 n).
Proof. exact (fun C V ops e e' rs s ST RN SS NX => after_irs qlt C V ops e e' rs s ST RN SS NX rng lbf ubf). Qed.
Print Assumptions C84_sample.

(** C84: weighted sampling of it returns the requested number of live records of positive
    weight. *)
Theorem C84_weighted {R : Type} {RO : RecOps R} {RL : RecLaws R} (qlt : qorder R) {QO : QOrder qlt}
  (rweight : R -> nat) (wsample : list nat -> nat -> nat) :
  forall C, valid_cfg C -> forall (ops : list (op R)) e e' rs s, settled qlt C ops -> run_new qlt C ops = Ok (e, rs) ->
  create_static_structure qlt e = Ok (e', s) -> live ops <> [] -> forall n, alias_contract wsample ->
  (exists r, In r (live ops) /\ 0 < rweight r) ->
  exists ws, alone_wss rweight wsample n s = Ok ws /\ length ws = n /\
    forall w, In w ws -> In (wrec w) (live ops) /\ 0 < rweight (wrec w).
Proof. exact (fun C V ops e e' rs s ST RN SS NX => after_wss qlt C V ops e e' rs s ST RN SS rweight wsample). Qed.
Print Assumptions C84_weighted.

(** C84: a kNN query for k >= 1 of a static VPTree returns the k nearest live records. *)
Theorem C84_knn {R : Type} {RO : RecOps R} {RL : RecLaws R} {D : Type} {DO : DistOps D} {DL : DistLaws D}
  {MO : MetricOps R D} {ML : MetricLaws R D} :
  forall C (ops : list (op R)) e rs e' s pop leafsz rng p k, PQMax pop -> valid_cfg C -> settled vp_shards C ops ->
  run_new vp_shards C ops = Ok (e, rs) -> create_static_structure vp_shards e = Ok (e', s) -> 0 < k ->
  exists out, alone_knn leafsz pop rng p k s = Ok out /\
    nearest (fun x y => dleb (dist p x) (dist p y)) k (live ops) (map wrec out).
Proof. exact vp_alone. Qed.
Print Assumptions C84_knn.

(** ** A case: 40 inserts and 9 erases by tagging *)

Example C84_settled : forall l, settled by_version (sz_cfg l TAGGING) (sz_ops 49).
Proof.
  intros l. right. split; [reflexivity|].
  split; [apply distinct_bool; vm_compute; reflexivity|].
  apply (safe_prefix by_version _ _ [Del (KV 48 0)%Z]). exact (sz_safe l TAGGING).
Qed.

Example C84_case : forall l, exists e rs e' s ws w xs ys,
  run_new by_version (sz_cfg l TAGGING) (sz_ops 49) = Ok (e, rs) /\
  create_static_structure by_version e = Ok (e', s) /\ live (sz_ops 49) <> [] /\
  alone_rq (isam_find 2 1) 3 9 s = Ok ws /\ map (fun w => rkey (wrec w)) ws = [5; 6; 7]%Z /\
  alone_rc (isam_find 2 1) 3 9 s = Ok [(3, 0)] /\ alone_rc (isam_find 2 1) 3 4 s = Ok [(0, 0)] /\
  alone_pl (pl_key 7) s = Ok [w] /\ rkey (wrec w) = 7%Z /\ alone_pl (pl_key 8) s = Ok [] /\
  alone_irs (fun c => 2 * c + 1) (isam_find 2 1) (isam_find_upper 2 1) 4 3 9 s = Ok xs /\
  map (fun w => rkey (wrec w)) xs = [6; 5; 7; 6]%Z /\
  alone_wss (fun r => Z.to_nat (rkey r)) (exact_alias (fun c => 10 * c)) 3 s = Ok ys /\
  map (fun w => rkey (wrec w)) ys = [1; 6; 7]%Z.
Proof. intros []; do 8 eexists; repeat (split; [vm_compute; reflexivity || discriminate|]); vm_compute; reflexivity. Qed.

Example C84_knn_case : forall l, exists e rs e' s q,
  settled vp_shards (sz_cfg l TAGGING) (map (fun x => Ins (KV x 0)) [5; 1; 9; 3; 7; 2; 8; 9; 4; 30]%Z) /\
  run_new vp_shards (sz_cfg l TAGGING) (map (fun x => Ins (KV x 0)) [5; 1; 9; 3; 7; 2; 8; 9; 4; 30]%Z) = Ok (e, rs) /\
  create_static_structure vp_shards e = Ok (e', s) /\
  alone_knn 2 pop_far (fun c => c * 7 + 3) (KV 29 0)%Z 1 s = Ok q /\ map wrec q = [KV 30 0]%Z.
Proof.
  intros []; do 5 eexists; (split; [left; intros o Ho; apply in_map_iff in Ho as (x & <- & _); eauto|]);
  repeat (split; [vm_compute; reflexivity|]); vm_compute; reflexivity.
Qed.

(** ** What fails *)

(** C84 fails for sampling in a range without records: a record outside it is returned. *)
Theorem C84_empty_range_refuted : exists C (ops : list (op kv)) e rs s w,
  valid_cfg C /\ insert_only ops /\ run_new by_version C ops = Ok (e, rs) /\
  create_static_structure by_version e = Ok (e, s) /\
  alone_irs (fun c => c) (isam_find 2 1) (isam_find_upper 2 1) 1 3 4 s = Ok [w] /\ key_in 3 4 (wrec w) = false.
Proof.
  exists (Cfg TIERING TAGGING 3 4 2), (map (fun x => Ins (KV x 0)) [1; 2; 5; 6]%Z). do 4 eexists.
  split; [unfold valid_cfg; simpl; repeat split; lia || discriminate|].
  split; [intros o Ho; apply in_map_iff in Ho as (x & <- & _); eauto|].
  repeat (split; [vm_compute; reflexivity|]). vm_compute. reflexivity.
Qed.
Print Assumptions C84_empty_range_refuted.

(** C84 fails with tombstones: one that found no record to cancel is returned by the query
    and added to the count. *)
Theorem C84_tombstone_refuted : exists C (ops : list (op kv)) e rs s w,
  valid_cfg C /\ run_new by_version C ops = Ok (e, rs) /\ create_static_structure by_version e = Ok (e, s) /\
  filter (key_in 3 4) (live ops) = [] /\ live ops <> [] /\
  alone_rq (isam_find 2 1) 3 4 s = Ok [w] /\ is_ts w = true /\ alone_rc (isam_find 2 1) 3 4 s = Ok [(1, 1)].
Proof.
  exists (Cfg TIERING TOMBSTONE 3 4 2), ([Ins (KV 1 0); Ins (KV 5 0); Del (KV 3 0)]%Z). do 4 eexists.
  split; [unfold valid_cfg; simpl; repeat split; lia || discriminate|].
  repeat (split; [vm_compute; reflexivity || discriminate|]). vm_compute. reflexivity.
Qed.
Print Assumptions C84_tombstone_refuted.

(** C84 fails without records: the search of the empty structure faults. *)
Theorem C84_empty_refuted : exists C (e : ext kv) s f,
  valid_cfg C /\ run_new by_version C [] = Ok (e, []) /\ create_static_structure by_version e = Ok (e, s) /\
  alone_rq (isam_find 2 1) 3 4 s = Fail f /\ alone_irs (fun c => c) (isam_find 2 1) (isam_find_upper 2 1) 1 3 4 s = Fail f.
Proof.
  exists (Cfg TIERING TOMBSTONE 3 4 2). do 3 eexists.
  split; [unfold valid_cfg; simpl; repeat split; lia || discriminate|].
  repeat (split; [vm_compute; reflexivity|]). vm_compute. reflexivity.
Qed.
Print Assumptions C84_empty_refuted.

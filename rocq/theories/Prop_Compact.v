(** Compactions and tombstone queries of a level (C67, C68). *)
From Coq Require Import List Arith ZArith NArith Lia Bool.
From Verif Require Import Base RecordModel RecordProofs BufferModel MergeModel StructModel ExtModel Spec
  SearchModel CompactModel CompactSpec CompactProofs.
Import ListNotations.

(** C67: after any history, there are compaction tasks exactly when some level holds more
    tombstones than the fraction [mx] of its capacity. *)
Theorem C67_idle {R : Type} {RO : RecOps R} {RL : RecLaws R} (qlt : qorder R) {QO : QOrder qlt} :
  forall C mx ops e rs, valid_cfg C -> run_new qlt C ops = Ok (e, rs) ->
  (compaction_tasks C mx (structure_of e) = Ok [] <-> within C mx (contents (structure_of e))).
Proof. exact (fun C mx ops e rs V => idle_iff qlt C V mx ops e rs). Qed.
Print Assumptions C67_idle.

(** C67: if level 0 is beyond the bound and the level below has room, one round moves the
    records of level 0 there, keeps the other levels, and changes the records only by
    cancelling records with their tombstones: the number of copies of a record minus that
    of its tombstones stays.  Missing: a full level below and a first violation in a deeper
    level (both false, below), empty shards (C05_bsm_refuted), tagging (the check counts no tombstones)
    and BSM. *)
Theorem C67_first_partial {R : Type} {RO : RecOps R} {RL : RecLaws R} (qlt : qorder R) {QO : QOrder qlt} :
  forall C mx ops e rs, valid_cfg C -> c_del C = TOMBSTONE -> run_new qlt C ops = Ok (e, rs) ->
  let st := structure_of e in
  (forall ls d, In ls (contents st) -> In d ls -> d <> []) ->
  ~ within C mx (firstn 1 (contents st)) -> room_below C (contents st) ->
  exists st', compact_once qlt C mx st = Ok st' /\
    nth_error (contents st') 0 = Some [] /\
    (forall i, 2 <= i -> nth_error (contents st') i = nth_error (contents st) i) /\
    forall r, n_plain r (all_records st') + n_tomb r (all_records st) =
              n_plain r (all_records st) + n_tomb r (all_records st').
Proof. exact (fun C mx ops e rs V => compact_first qlt C V mx ops e rs). Qed.
Print Assumptions C67_first_partial.

(** Level 0 holds tombstones for 1 and 5; they become the newer shard of level 1. *)
Definition cp_cfg : cfg := Cfg TIERING TOMBSTONE 2 2 2.
Definition cp_move : list (op kv) :=
  [Ins (KV 1 0); Ins (KV 2 0); Ins (KV 3 0); Ins (KV 4 0); Del (KV 1 0); Del (KV 5 0); Ins (KV 6 0)].
Definition shown (st : structure kv) : list (list (list (Z * bool))) :=
  map (map (map (fun w => (k_key (wrec w), is_ts w)))) (contents st).

Example C67_case :
  match run_new by_version cp_cfg cp_move with
  | Ok (e, _) =>
      let st := structure_of e in
      valid_cfg cp_cfg /\
      (forall ls d, In ls (contents st) -> In d ls -> d <> []) /\
      ~ within cp_cfg (1, 4) (firstn 1 (contents st)) /\ room_below cp_cfg (contents st) /\
      shown st = [[[(1, true); (5, true)]]; [[(1, false); (2, false); (3, false); (4, false)]]]%Z /\
      match compact_once by_version cp_cfg (1, 4) st with
      | Ok st' => shown st' =
          [[]; [[(1, false); (2, false); (3, false); (4, false)]; [(1, true); (5, true)]]]%Z
      | Fail _ => False
      end
  | Fail _ => False
  end.
Proof.
  vm_compute run_new. cbv zeta.
  split; [unfold valid_cfg; cbn; repeat split; lia || discriminate|].
  split.
  { vm_compute. intros ls d [<-|[<-|[]]]; intros [<-|[]]; discriminate. }
  split.
  { intros W. specialize (W 0 _ eq_refl). vm_compute in W. lia. }
  split; [vm_compute; lia|]. split; vm_compute; reflexivity.
Qed.

(** C67 is false of the code: every task takes its records from level 0 (the source is
    written [i - i]), so a deeper level beyond the bound stays beyond it and the loop that
    waits for the bound does not end. *)
Definition cp_deep : list (op kv) :=
  [Ins (KV 1 0); Del (KV 11 0); Del (KV 12 0); Del (KV 13 0); Del (KV 1 0); Ins (KV 2 0); Ins (KV 3 0)].

Theorem C67_stuck_refuted : exists C mx (ops : list (op kv)) e rs st1,
  valid_cfg C /\ c_del C = TOMBSTONE /\ run_new by_version C ops = Ok (e, rs) /\
  ~ within C mx (contents (structure_of e)) /\ ~ within C mx (contents st1) /\
  forall n, rounds by_version C mx (S n) (structure_of e) = Ok st1.
Proof.
  exists cp_cfg, (1, 4), cp_deep. do 3 eexists.
  split; [unfold valid_cfg; cbn; repeat split; lia || discriminate|].
  split; [reflexivity|]. split; [vm_compute; reflexivity|].
  assert (P : forall (A B C : Prop), (A /\ C) -> B -> A /\ B /\ C) by tauto.
  apply P; [split|].
  - intros W. specialize (W 1 _ eq_refl). vm_compute in W. lia.
  - intros n. apply rounds_fix; vm_compute; reflexivity.
  - intros W. specialize (W 1 _ eq_refl). vm_compute in W. lia.
Qed.
Print Assumptions C67_stuck_refuted.

(** C67 is false of the code: the same round moves the tombstone of record 1 from level 0
    to level 2, below the record in level 1.  The static structure does not list record 1
    before the compaction and lists it after. *)
Theorem C67_order_refuted : exists C mx (ops : list (op kv)) e rs st1 s s1 v,
  valid_cfg C /\ c_del C = TOMBSTONE /\ run_new by_version C ops = Ok (e, rs) /\ v_count v = 0 /\
  compact_once by_version C mx (structure_of e) = Ok st1 /\
  static_on by_version (structure_of e) [] v = Ok s /\ static_on by_version st1 [] v = Ok s1 /\
  (forall w, In w (s_data s) -> is_ts w = false -> wrec w <> KV 1 0) /\
  exists w, In w (s_data s1) /\ is_ts w = false /\ wrec w = KV 1 0.
Proof.
  exists cp_cfg, (1, 4), cp_deep. do 5 eexists. exists (View 4 0 0 0).
  split; [unfold valid_cfg; cbn; repeat split; lia || discriminate|].
  split; [reflexivity|]. split; [vm_compute; reflexivity|]. split; [reflexivity|].
  split; [vm_compute; reflexivity|]. split; [vm_compute; reflexivity|]. split; [vm_compute; reflexivity|].
  split.
  - intros w I T. cbn in I. repeat destruct I as [<-|I]; try discriminate T; try contradiction; discriminate.
  - eexists. split; [right; left; reflexivity|]. split; reflexivity.
Qed.
Print Assumptions C67_order_refuted.

(** C67 is false of the code under leveling: when the last level is beyond the bound (here
    the bound 1 that the index passes), the planner reads the level it has yet to make. *)
Theorem C67_leveling_refuted : exists C (ops : list (op kv)) e rs,
  valid_cfg C /\ c_layout C = LEVELING /\ run_new by_version C ops = Ok (e, rs) /\
  compaction_tasks C (1, 1) (structure_of e) = Fail FOob.
Proof.
  exists (Cfg LEVELING TOMBSTONE 1 2 2). exists (map (fun i => Del (KV (Z.of_nat i) 0)) (seq 0 23)).
  do 2 eexists. split; [unfold valid_cfg; simpl; repeat split; lia || discriminate|].
  split; [reflexivity|]. split; [vm_compute; reflexivity|]. vm_compute. reflexivity.
Qed.
Print Assumptions C67_leveling_refuted.

(** C67 is false of the code under leveling also when the violating level has room below:
    the first task empties level 0, and the second dereferences its null shard. *)
Theorem C67_leveling_null_refuted : exists C mx (ops : list (op kv)) e rs ts,
  valid_cfg C /\ c_layout C = LEVELING /\ run_new by_version C ops = Ok (e, rs) /\
  compaction_tasks C mx (structure_of e) = Ok ts /\
  compact_once by_version C mx (structure_of e) = Fail FNull.
Proof.
  exists (Cfg LEVELING TOMBSTONE 1 2 2), (1, 2), (map (fun i => Del (KV (Z.of_nat i) 0)) (seq 0 14)).
  do 3 eexists. split; [unfold valid_cfg; simpl; repeat split; lia || discriminate|].
  split; [reflexivity|]. split; [vm_compute; reflexivity|]. split; vm_compute; reflexivity.
Qed.
Print Assumptions C67_leveling_null_refuted.

(** C68: the tombstone query of a level does not fail, and answers yes only if one of the
    shards from [stop] on has a tombstone for the record; it does then answer yes if no
    shard holds both a record and a tombstone for it.  Missing: shards that hold both
    (false, below). *)
Theorem C68_check_partial {R : Type} {RO : RecOps R} : forall find stop (r : R) l,
  (forall s, In s (skipn stop (lv_shards l)) -> finds find r (s_data s)) ->
  exists x, lv_check_tombstone find stop r l = Ok x /\
    (x = true -> exists s, In s (skipn stop (lv_shards l)) /\ tombstoned r (s_data s)) /\
    ((forall s, In s (skipn stop (lv_shards l)) -> one_sort r (s_data s)) ->
     (exists s, In s (skipn stop (lv_shards l)) /\ tombstoned r (s_data s)) -> x = true).
Proof. exact level_check. Qed.
Print Assumptions C68_check_partial.

(** Two shards, looked up as Alias shards: the record 1 in the older one, its tombstone in
    the newer one. *)
Definition cp_find (r : kv) (d : list (wrapped kv)) : res (option nat) := alias_point_lookup true d r true.
Definition cp_level : level kv :=
  Level 1 2 [Shard [W 0 (KV 1 0); W 0 (KV 2 0)] 2 0; Shard [W 1 (KV 1 0); W 0 (KV 3 0)] 2 1] None.

Example C68_case :
  (forall s, In s (skipn 0 (lv_shards cp_level)) -> finds cp_find (KV 1 0) (s_data s)) /\
  (forall s, In s (skipn 0 (lv_shards cp_level)) -> one_sort (KV 1 0) (s_data s)) /\
  lv_check_tombstone cp_find 0 (KV 1 0) cp_level = Ok true /\
  lv_check_tombstone cp_find 0 (KV 2 0) cp_level = Ok false.
Proof.
  split; [|split; [|split; vm_compute; reflexivity]].
  - intros s I. cbn in I. destruct I as [<-|[<-|[]]]; exists (Some 0); (split; [vm_compute; reflexivity|]);
      eexists; split; reflexivity.
  - intros s I w w' J J' Q Q'. cbn in I. destruct I as [<-|[<-|[]]]; cbn in J, J';
      destruct J as [<-|[<-|[]]]; destruct J' as [<-|[<-|[]]]; try discriminate; reflexivity.
Qed.

(** C68 is false of the code: a record that is inserted twice and erased twice within one
    flush leaves one copy and one tombstone in the shard; the query finds the copy first
    and answers that there is no tombstone. *)
Theorem C68_check_refuted : exists C (ops : list (op kv)) e rs l s r,
  valid_cfg C /\ run_new by_version C ops = Ok (e, rs) /\
  nth_error (st_levels (structure_of e)) 0 = Some l /\ lv_shards l = [s] /\
  finds cp_find r (s_data s) /\ tombstoned r (s_data s) /\
  lv_check_tombstone cp_find 0 r l = Ok false.
Proof.
  exists (Cfg TIERING TOMBSTONE 4 4 2), [Ins (KV 1 0); Ins (KV 1 0); Del (KV 1 0); Del (KV 1 0); Ins (KV 2 0)].
  do 4 eexists. exists (KV 1 0).
  split; [unfold valid_cfg; simpl; repeat split; lia || discriminate|].
  split; [vm_compute; reflexivity|]. split; [vm_compute; reflexivity|]. split; [vm_compute; reflexivity|].
  split; [exists (Some 0); split; [vm_compute; reflexivity|]; eexists; split; reflexivity|].
  split; [eexists; split; [right; left; reflexivity|]; split; reflexivity|].
  vm_compute. reflexivity.
Qed.
Print Assumptions C68_check_refuted.

(** C68: the tombstone proportion of a level of tombstones only is one half: the count is
    added to the number of records, which already contains it. *)
Theorem C68_prop_refuted : exists C (ops : list (op kv)) e rs l,
  valid_cfg C /\ run_new by_version C ops = Ok (e, rs) /\
  nth_error (st_levels (structure_of e)) 0 = Some l /\
  (forall s w, In s (lv_shards l) -> In w (s_data s) -> is_ts w = true) /\
  lv_tombstone_prop l = (2, 4).
Proof.
  exists cp_cfg, [Del (KV 1 0); Del (KV 2 0); Ins (KV 3 0)]. do 3 eexists.
  split; [unfold valid_cfg; simpl; repeat split; lia || discriminate|].
  split; [vm_compute; reflexivity|]. split; [vm_compute; reflexivity|].
  split; [|vm_compute; reflexivity].
  intros s w I J. cbn in I. destruct I as [<-|[]]. cbn in J. destruct J as [<-|[<-|[]]]; reflexivity.
Qed.
Print Assumptions C68_prop_refuted.

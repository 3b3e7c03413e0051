(** The shards with a learned index, PGM and TrieSpline (C77).  [qlt] is the order of the
    merge queue, as in Prop_Serial; [qlt] as a kind of shards stands for the arrays of
    util/SortedMerge.h. *)
From Coq Require Import List Arith ZArith NArith Lia Bool Sorted.
From Verif Require Import Base RecordModel RecordProofs BufferModel BufferProofs MergeModel MergeProofs StructModel ExtModel
  ExtProofs Spec LearnModel LearnSpec LearnProofs LearnHist.
Import ListNotations.

(** ** PGM *)

(** C77: from any readable view the constructor makes the array of SortedMerge.h, and
    PGMIndex gets the keys of this array in order. *)
Theorem C77_pgm_view {R : Type} {RO : RecOps R} {RL : RecLaws R} {KO : KeyOps R} {KL : KeyLaws R} :
  forall (d : list (wrapped R)) v l, v_copy d v = Ok l ->
  exists p, pgm_from_view d v = Ok p /\ shard_from_view d v = Ok (fst p) /\ pgm_handed p.
Proof. exact pgm_view. Qed.
Print Assumptions C77_pgm_view.

(** C77: the same when shards are merged. *)
Theorem C77_pgm_merge {R : Type} {RO : RecOps R} {RL : RecLaws R} {KO : KeyOps R} {KL : KeyLaws R}
  (qlt : qorder R) {QO : QOrder qlt} :
  forall ss s, shard_from_shards qlt ss = Ok s -> Forall shard_ok ss ->
  exists p, pgm_from_shards qlt ss = Ok p /\ fst p = s /\ pgm_handed p.
Proof. exact (pgm_merge qlt). Qed.
Print Assumptions C77_pgm_merge.

(** C77: so a history of an index of PGM shards is that of an index of sorted arrays,
    with any operations and any arguments; and so is its static structure. *)
Theorem C77_pgm_history {R : Type} {RO : RecOps R} {RL : RecLaws R} {KO : KeyOps R} {KL : KeyLaws R}
  (qlt : qorder R) :
  forall C ops e rs, run_new (pgm_shards qlt) C ops = Ok (e, rs) <-> run_new qlt C ops = Ok (e, rs).
Proof. exact (pgm_history qlt). Qed.
Print Assumptions C77_pgm_history.

Theorem C77_pgm_static {R : Type} {RO : RecOps R} {RL : RecLaws R} {KO : KeyOps R} {KL : KeyLaws R}
  (qlt : qorder R) :
  forall e e' s, create_static_structure (pgm_shards qlt) e = Ok (e', s) <-> create_static_structure qlt e = Ok (e', s).
Proof. exact (pgm_static qlt). Qed.
Print Assumptions C77_pgm_static.

(** ** TrieSpline *)

(** C77: from a view with records the constructor makes the array of SortedMerge.h; the
    builder gets the keys of this array in order and between the announced bounds, and
    the shard remembers its least and greatest key.  Missing: an empty view
    (C77_empty_view_refuted). *)
Theorem C77_view_partial {R : Type} {RO : RecOps R} {RL : RecLaws R} {KO : KeyOps R} {KL : KeyLaws R} :
  forall (d : list (wrapped R)) v, vok d v -> 0 < v_count v ->
  exists t b s, ts_from_view d v = Ok (t, b) /\ shard_from_view d v = Ok s /\ sp_shard t = s /\
    handed b (s_data s) /\ exact_bounds t.
Proof. exact ts_view. Qed.
Print Assumptions C77_view_partial.

(** C77: the same when shards are merged.  Missing: no shards at all
    (C77_static_empty_refuted). *)
Theorem C77_merge_partial {R : Type} {RO : RecOps R} {RL : RecLaws R} {KO : KeyOps R} {KL : KeyLaws R}
  (qlt : qorder R) {QO : QOrder qlt} :
  forall (ts : list (spline R)) s, ts <> [] -> Forall exact_bounds ts -> Forall shard_ok (map sp_shard ts) ->
  shard_from_shards qlt (map sp_shard ts) = Ok s ->
  exists t b, ts_from_shards qlt ts = Ok (t, b) /\ sp_shard t = s /\ handed b (s_data s) /\ exact_bounds t.
Proof. exact (ts_merge qlt). Qed.
Print Assumptions C77_merge_partial.

(** C77: when a history of an index of TrieSpline shards succeeds, the index is the one
    of sorted arrays; any operations, any arguments. *)
Theorem C77_refines {R : Type} {RO : RecOps R} {RL : RecLaws R} {KO : KeyOps R} {KL : KeyLaws R}
  (qlt : qorder R) :
  forall C ops x, run_new (spline_shards qlt) C ops = Ok x -> run_new qlt C ops = Ok x.
Proof. exact (spline_refines qlt). Qed.
Print Assumptions C77_refines.

(** C77: and it succeeds when that of sorted arrays does. *)
Theorem C77_history {R : Type} {RO : RecOps R} {RL : RecLaws R} {KO : KeyOps R} {KL : KeyLaws R}
  (qlt : qorder R) {QO : QOrder qlt} :
  forall C ops, valid_cfg C -> forall x, run_new qlt C ops = Ok x -> run_new (spline_shards qlt) C ops = Ok x.
Proof. exact (spline_history qlt). Qed.
Print Assumptions C77_history.

(** C77: every history of inserts succeeds. *)
Theorem C77_inserts {R : Type} {RO : RecOps R} {RL : RecLaws R} {KO : KeyOps R} {KL : KeyLaws R}
  (qlt : qorder R) {QO : QOrder qlt} :
  forall C ops, valid_cfg C -> insert_only ops ->
  exists e, run_new (spline_shards qlt) C ops = Ok (e, repeat 1 (length ops)) /\
    run_new qlt C ops = Ok (e, repeat 1 (length ops)).
Proof. exact (spline_inserts qlt). Qed.
Print Assumptions C77_inserts.

(** C77: the static structure, after at least one call that appended something.
    Missing: an empty index (next theorem). *)
Theorem C77_static_partial {R : Type} {RO : RecOps R} {RL : RecLaws R} {KO : KeyOps R} {KL : KeyLaws R}
  (qlt : qorder R) {QO : QOrder qlt} :
  forall C ops e rs, valid_cfg C -> Exists (appends C) ops -> run_new qlt C ops = Ok (e, rs) ->
  forall x, create_static_structure qlt e = Ok x -> create_static_structure (spline_shards qlt) e = Ok x.
Proof. exact (spline_static qlt). Qed.
Print Assumptions C77_static_partial.

(** C77 fails: without any call before, it reads the first of no shards. *)
Theorem C77_static_empty_refuted : exists (C : cfg) (e : ext kv), valid_cfg C /\
  run_new by_version C [] = Ok (e, []) /\
  create_static_structure (spline_shards by_version) e = Fail FOob /\
  exists x, create_static_structure by_version e = Ok x.
Proof.
  exists (Cfg TIERING TOMBSTONE 2 4 2). eexists. split; [unfold valid_cfg; simpl; repeat split; lia || discriminate|].
  split; [vm_compute; reflexivity|]. split; [vm_compute; reflexivity|]. eexists. vm_compute. reflexivity.
Qed.
Print Assumptions C77_static_empty_refuted.

(** C77 fails: the constructor reads the first of no records when the view is empty; the
    one of sorted arrays does not.  With low watermark 0 the first insert does this. *)
Theorem C77_empty_view_refuted : exists (d : list (wrapped kv)) v, vok d v /\
  ts_from_view d v = Fail FOob /\ shard_from_view d v = Ok (Shard [] 0 0) /\
  pgm_from_view d v = Ok (Shard [] 0 0, None) /\
  exists C (r : kv), c_lwm C = 0 /\ run_new (spline_shards by_version) C [Ins r] = Fail FOob.
Proof.
  exists (repeat wzero 8), (View 8 3 3 0). split; [unfold vok; simpl; lia|].
  do 3 (split; [vm_compute; reflexivity|]).
  exists (Cfg TIERING TOMBSTONE 0 4 2), (KV 1 1). split; [|vm_compute]; reflexivity.
Qed.
Print Assumptions C77_empty_view_refuted.

(** ** Concrete cases *)

(** A buffer of six slots whose view wraps round: 9, 2 with its tombstone, a tagged 4,
    and 7. *)
Definition le_buf : list (wrapped kv) :=
  [W 1 (KV 2 2); W 2 (KV 4 4); W 0 (KV 7 7); W 0 (KV 0 0); W 0 (KV 9 9); W 0 (KV 2 2)].
Definition le_view : view := View 6 4 9 1.
Example le_vok : vok le_buf le_view /\ 0 < v_count le_view.
Proof. unfold vok, v_count. simpl. lia. Qed.
Example le_built : exists t b, ts_from_view le_buf le_view = Ok (t, b) /\
  tb_min b = 2%Z /\ tb_max b = 9%Z /\ rev (tb_keys b) = [7; 9]%Z /\ sp_min t = 7%Z /\ sp_max t = 9%Z.
Proof. do 2 eexists. split; [vm_compute; reflexivity|]. vm_compute. repeat split. Qed.
Example le_pgm : exists l p, v_copy le_buf le_view = Ok l /\ pgm_from_view le_buf le_view = Ok p /\
  snd p = Some [7; 9]%Z.
Proof. do 2 eexists. split; [vm_compute; reflexivity|]. split; vm_compute; reflexivity. Qed.

(** Three shards, the second of them empty; 3 meets its tombstone. *)
Definition le_shards : list (spline kv) :=
  [Spline (Shard [W 0 (KV 1 1); W 0 (KV 3 3)] 2 0) 1 3; Spline (Shard [] 0 0) 9 2;
   Spline (Shard [W 1 (KV 3 3); W 0 (KV 5 5)] 2 1) 3 5].
Definition le_full : list (spline kv) := [nth 0 le_shards (sp_of (Shard [] 0 0)); nth 2 le_shards (sp_of (Shard [] 0 0))].
Example le_hyp : le_full <> [] /\ Forall exact_bounds le_full /\ Forall shard_ok (map sp_shard le_full).
Proof.
  split; [discriminate|]. split.
  - repeat constructor; simpl; auto; discriminate.
  - repeat constructor.
Qed.
Example le_merged : exists s t b, shard_from_shards by_version (map sp_shard le_full) = Ok s /\
  ts_from_shards by_version le_full = Ok (t, b) /\ sp_shard t = s /\
  rev (tb_keys b) = [1; 5]%Z /\ sp_min t = 1%Z /\ sp_max t = 5%Z.
Proof. do 3 eexists. split; [vm_compute; reflexivity|]. split; [vm_compute; reflexivity|]. vm_compute. repeat split. Qed.

(** Forty calls, a fourth of them erases, on each layout and with each kind of deletes. *)
Definition le_ops : list (op kv) :=
  map (fun i => if i mod 4 =? 3 then Del (KV (Z.of_nat (i - 1)) 1) else Ins (KV (Z.of_nat i) 1)) (seq 0 40).
Example le_runs : Forall (fun y => exists e rs,
  run_new by_version (Cfg (fst y) (snd y) 4 6 2) le_ops = Ok (e, rs) /\
  run_new (spline_shards by_version) (Cfg (fst y) (snd y) 4 6 2) le_ops = Ok (e, rs) /\
  run_new (pgm_shards by_version) (Cfg (fst y) (snd y) 4 6 2) le_ops = Ok (e, rs) /\
  exists s, create_static_structure by_version e = Ok (e, s) /\
    create_static_structure (spline_shards by_version) e = Ok (e, s) /\ s_data s <> [])
  [(LEVELING, TOMBSTONE); (TIERING, TOMBSTONE); (BSM, TOMBSTONE);
   (LEVELING, TAGGING); (TIERING, TAGGING); (BSM, TAGGING)].
Proof.
  repeat apply Forall_cons; try apply Forall_nil; do 2 eexists;
    do 3 (split; [vm_compute; reflexivity|]);
    eexists; do 2 (split; [vm_compute; reflexivity|]); vm_compute; discriminate.
Qed.
Example le_ops_ok : forall y t, valid_cfg (Cfg y t 4 6 2) /\ Exists (appends (Cfg y t 4 6 2)) le_ops.
Proof.
  intros y t. split; [unfold valid_cfg; simpl; repeat split; lia || auto|]. left. right. auto.
Qed.
Example le_only : insert_only (map (fun i => Ins (KV (Z.of_nat i) 1)) (seq 0 9)).
Proof. intros o Ho. apply in_map_iff in Ho as (i & <- & _). eauto. Qed.

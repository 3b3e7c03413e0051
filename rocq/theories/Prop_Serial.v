(** Properties of single-threaded histories (C01-C05, C07, C12, C42).

    [qlt] is the order of the external priority queue: any order that puts a
    smaller record first and is total on distinct versions (class QOrder; both
    candidate tie rules are instances).  [lbf] is the shard's lower-bound search,
    any function that meets [lb_sound]. *)
From Coq Require Import List Arith ZArith NArith Lia Bool Permutation Sorted.
From Verif Require Import Base RecordModel RecordProofs BufferModel MergeModel MergeProofs StructModel ExtModel
  QueryModel Spec SerialProofs SizeProofs StepProofs.
Import ListNotations.

(** C01: every insert of an insert-only history returns 1 and nothing faults. *)
Theorem C01_serial_inserts_succeed {R : Type} {RO : RecOps R} {RL : RecLaws R}
  (qlt : qorder R) {QO : QOrder qlt} :
  forall C ops, valid_cfg C -> insert_only ops ->
  exists e, run_new qlt C ops = Ok (e, repeat 1 (length ops)).
Proof. exact (fun C ops V => inserts_succeed qlt C V ops). Qed.
Print Assumptions C01_serial_inserts_succeed.

(** C02: the record count is the number of inserts, and asking does not change
    the index. *)
Theorem C02_record_count {R : Type} {RO : RecOps R} {RL : RecLaws R}
  (qlt : qorder R) {QO : QOrder qlt} :
  forall C ops e rs, valid_cfg C -> insert_only ops ->
  run_new qlt C ops = Ok (e, rs) -> get_record_count e = Ok (e, length ops).
Proof. exact (fun C ops e rs V => record_count_exact qlt C V ops e rs). Qed.
Print Assumptions C02_record_count.

(** C03: a range query returns exactly the inserted records in the range. *)
Theorem C03_range_query_exact {R : Type} {RO : RecOps R} {RL : RecLaws R} {KO : KeyOps R} {KL : KeyLaws R}
  (qlt : qorder R) {QO : QOrder qlt} (lbf : list (wrapped R) -> Z -> res nat) :
  forall C ops e rs l u, valid_cfg C -> lb_sound lbf ->
  insert_only ops -> run_new qlt C ops = Ok (e, rs) ->
  exists out, range_query qlt lbf e l u = Ok (e, out) /\
    Permutation out (filter (key_in l u) (inserted ops)).
Proof. exact (fun C ops e rs l u V LB => range_query_exact qlt C V lbf LB ops e rs l u). Qed.
Print Assumptions C03_range_query_exact.

(** C04: the static structure is the sorted array of the inserted records. *)
Theorem C04_static_structure_exact {R : Type} {RO : RecOps R} {RL : RecLaws R}
  (qlt : qorder R) {QO : QOrder qlt} :
  forall C ops e rs, valid_cfg C -> insert_only ops ->
  run_new qlt C ops = Ok (e, rs) ->
  exists s, create_static_structure qlt e = Ok (e, s) /\
    Permutation (map wrec (s_data s)) (inserted ops) /\ sorted (s_data s) /\
    Forall (fun w => is_ts w = false /\ is_del w = false) (s_data s) /\
    s_reccnt s = length ops /\ s_tscnt s = 0.
Proof. exact (fun C ops e rs V => static_plain qlt C V ops e rs). Qed.
Print Assumptions C04_static_structure_exact.

(** C05: stored plain copies minus stored tombstones = inserts minus erases, for
    every record.  The restriction of BSM histories is part of the property: see
    C05_bsm_refuted. *)
Theorem C05_net_balance {R : Type} {RO : RecOps R} {RL : RecLaws R}
  (qlt : qorder R) {QO : QOrder qlt} :
  forall C ops e rs, valid_cfg C -> c_del C = TOMBSTONE ->
  bsm_safe qlt C ops ->
  run_new qlt C ops = Ok (e, rs) ->
  forall r, n_plain r (stored e) + n_del r ops = n_tomb r (stored e) + n_ins r ops.
Proof. exact (fun C ops e rs V => net_balance qlt C V ops e rs). Qed.
Print Assumptions C05_net_balance.

(** C07: a range query returns an in-range record at least (inserts - erases) and
    at most (inserts) times, and nothing outside the range.  BSM: as in C05
    (C07_bsm_refuted). *)
Theorem C07_range_query_bounds {R : Type} {RO : RecOps R} {RL : RecLaws R} {KO : KeyOps R} {KL : KeyLaws R}
  (qlt : qorder R) {QO : QOrder qlt} (lbf : list (wrapped R) -> Z -> res nat) :
  forall C ops e rs l u e' out, valid_cfg C -> lb_sound lbf ->
  c_del C = TOMBSTONE -> bsm_safe qlt C ops ->
  run_new qlt C ops = Ok (e, rs) -> range_query qlt lbf e l u = Ok (e', out) ->
  forall r, if key_in l u r then n_ins r ops <= occ r out + n_del r ops /\ occ r out <= n_ins r ops
            else occ r out = 0.
Proof. exact (fun C ops e rs l u e' out V LB => range_query_bounds qlt C V lbf LB ops e rs l u e' out). Qed.
Print Assumptions C07_range_query_bounds.

(** C12: one more operation, flushing or not, changes the balance of every record
    by that operation only; when it flushes, the buffer afterwards holds just the
    new record, so everything else is in the shards.  Missing: as in C05
    (C12_bsm_flush_refuted). *)
Theorem C12_flush_loses_nothing_partial {R : Type} {RO : RecOps R} {RL : RecLaws R}
  (qlt : qorder R) {QO : QOrder qlt} :
  forall C ops o e rs e' rs', valid_cfg C -> c_del C = TOMBSTONE ->
  bsm_safe qlt C (ops ++ [o]) ->
  run_new qlt C ops = Ok (e, rs) -> run_new qlt C (ops ++ [o]) = Ok (e', rs') ->
  (forall r, n_plain r (stored e') + n_tomb r (stored e) + n_del r [o] =
             n_plain r (stored e) + n_tomb r (stored e') + n_ins r [o]) /\
  length (buffer_records e') =
    (if length (buffer_records e) =? c_lwm C then 1 else length (buffer_records e) + 1).
Proof. exact (fun C ops o e rs e' rs' V => step_balance qlt C V ops o e rs e' rs'). Qed.
Print Assumptions C12_flush_loses_nothing_partial.

(** When the hypothesis of these theorems holds: histories with few enough erases
    leave no empty shard anywhere, in any layout. *)
Theorem few_erases_safe {R : Type} {RO : RecOps R} {RL : RecLaws R}
  (qlt : qorder R) {QO : QOrder qlt} :
  forall C ops, valid_cfg C -> few_erases C ops -> shards_never_empty qlt C ops.
Proof. exact (fun C ops V => few_never_empty qlt C V ops). Qed.
Print Assumptions few_erases_safe.

(** C42, the part that holds: with tombstone deletes, no operation faults as long
    as every block of low-watermark many operations has more inserts than erases;
    range queries and counts then work too.  Missing: histories that flush an
    all-cancelled buffer; they do fault, see C42_no_crash_refuted. *)
Theorem C42_no_crash_partial {R : Type} {RO : RecOps R} {RL : RecLaws R} {KO : KeyOps R} {KL : KeyLaws R}
  (qlt : qorder R) {QO : QOrder qlt} (lbf : list (wrapped R) -> Z -> res nat) :
  forall C ops, valid_cfg C -> lb_sound lbf -> c_del C = TOMBSTONE ->
  mostly_inserts (c_lwm C) ops ->
  exists e, run_new qlt C ops = Ok (e, repeat 1 (length ops)) /\
    (forall l u, exists out, range_query qlt lbf e l u = Ok (e, out)) /\
    get_record_count e = Ok (e, length (stored e)).
Proof. exact (fun C ops V LB => tombstone_runs_ok qlt C V lbf LB ops). Qed.
Print Assumptions C42_no_crash_partial.

(** ** The hypotheses are met *)

Definition ex_ins (n : nat) : list (op kv) :=
  map (fun i => Ins (KV (Z.of_nat ((i * 7) mod 5)) (Z.of_nat i))) (seq 0 n).
Definition ex_mix : list (op kv) :=
  [Ins (KV 3 0); Ins (KV 1 0); Del (KV 3 0); Ins (KV 4 0); Ins (KV 3 0); Del (KV 1 0);
   Ins (KV 9 0); Ins (KV 8 0); Del (KV 9 0); Ins (KV 7 0)]%Z.
Definition ex_cfgs : list cfg :=
  [Cfg TIERING TOMBSTONE 3 4 2; Cfg LEVELING TOMBSTONE 3 4 2; Cfg BSM TOMBSTONE 3 4 2].

Example ex_cfgs_valid : Forall valid_cfg ex_cfgs.
Proof. repeat constructor; simpl; discriminate || (unfold valid_cfg; simpl; repeat split; lia || auto). Qed.

Example ex_ins_only : insert_only (ex_ins 40).
Proof. intros o H. unfold ex_ins in H. apply in_map_iff in H as (i & <- & _). eauto. Qed.

(** 40 inserts reach height 3 or more in every layout; the query returns the 24
    records in range. *)
Example ex_ins_runs : forall C, In C ex_cfgs ->
  exists e rs, run_new by_version C (ex_ins 40) = Ok (e, rs) /\
    (exists h, get_height e = Ok (e, h) /\ 3 <= h) /\
    exists out, range_query by_version lb_isam e 1 3 = Ok (e, out) /\ length out = 24.
Proof.
  intros C H. simpl in H. decompose [or] H; subst; try contradiction;
  (eexists; eexists; split; [vm_compute; reflexivity|]; split;
   [eexists; split; [vm_compute; reflexivity|lia] |
    eexists; split; [vm_compute; reflexivity|reflexivity]]).
Qed.

(** A mixed history in which two pairs cancel on the way. *)
Example ex_mix_mostly : mostly_inserts 3 ex_mix.
Proof.
  intros k L. assert (K : k < 3) by (simpl in L; lia).
  destruct k as [|[|[|k]]]; [vm_compute; lia..|lia].
Qed.
Example ex_mix_safe : forall C, In C ex_cfgs -> bsm_safe by_version C ex_mix.
Proof.
  intros C H _. simpl in H. decompose [or] H; subst; try contradiction;
  (refine (few_erases_safe by_version _ _ _ _); [unfold valid_cfg; simpl; repeat split; lia || auto|
   right; left; split; [reflexivity|exact ex_mix_mostly]]).
Qed.
(** Half of the operations may be erases: here a flush of two erases, and still no
    shard is ever empty. *)
Definition ex_half : list (op kv) :=
  [Ins (KV 3 0); Ins (KV 1 0); Del (KV 1 0); Del (KV 2 0); Ins (KV 4 0); Ins (KV 5 0);
   Del (KV 7 0); Del (KV 5 0); Ins (KV 6 0)]%Z.
Example ex_half_safe : bsm_safe by_version (Cfg BSM TOMBSTONE 2 2 2) ex_half /\
  ~ mostly_inserts 2 ex_half /\
  exists e rs, run_new by_version (Cfg BSM TOMBSTONE 2 2 2) ex_half = Ok (e, rs) /\ 2 <= length (shard_records e).
Proof.
  split; [|split; [intros M; specialize (M 1); vm_compute in M; lia|
    do 2 eexists; split; [vm_compute; reflexivity|vm_compute; lia]]].
  intros _. apply never_empty_bool. vm_compute. reflexivity.
Qed.
Example ex_mix_runs : forall C, In C ex_cfgs ->
  exists e rs out, run_new by_version C ex_mix = Ok (e, rs) /\ length rs = 10 /\
    length (stored e) < 10 /\ range_query by_version lb_isam e 0 10 = Ok (e, out) /\
    In (KV 4 0) out.
Proof.
  intros C H. simpl in H. decompose [or] H; subst; try contradiction;
  (do 3 eexists; split; [vm_compute; reflexivity|]; split; [reflexivity|]; split; [vm_compute; lia|];
   split; [vm_compute; reflexivity|simpl; tauto]).
Qed.

(** The search contract is met by the counting search that the ISAM tree
    implements. *)
Example ex_lb : lb_sound (lb_isam (R := kv)).
Proof. exact lb_isam_sound. Qed.

(** ** What fails *)

(** C12 under BSM: a flush whose records all cancel leaves an empty shard in a
    level of capacity one; the next flush is put beside it and lost.  Records 10
    and 11 were inserted, never erased, and are gone. *)
Theorem C12_bsm_flush_refuted : exists C ops e rs out,
  valid_cfg C /\ run_new by_version C ops = Ok (e, rs) /\
  n_ins (KV 10 0) ops = 1 /\ n_del (KV 10 0) ops = 0 /\
  n_plain (KV 10 0) (stored e) = 0 /\
  range_query by_version (fun d k => match d with [] => Ok 0 | _ => lb_isam d k end) e 0 100 = Ok (e, out) /\
  occ (KV 10 0) out = 0.
Proof.
  exists (Cfg BSM TOMBSTONE 2 2 2).
  exists [Ins (KV 0 0); Ins (KV 1 0); Ins (KV 2 0); Del (KV 2 0); Ins (KV 10 0); Ins (KV 11 0); Ins (KV 20 0)].
  do 3 eexists. split; [unfold valid_cfg; simpl; repeat split; lia|].
  split; [vm_compute; reflexivity|]. repeat (split; [vm_compute; reflexivity|]). vm_compute. reflexivity.
Qed.
Print Assumptions C12_bsm_flush_refuted.

(** C05 and C07 under BSM, by the same history. *)
Theorem C05_bsm_refuted : exists C (ops : list (op kv)) e rs r,
  valid_cfg C /\ c_del C = TOMBSTONE /\ run_new by_version C ops = Ok (e, rs) /\
  n_plain r (stored e) + n_del r ops <> n_tomb r (stored e) + n_ins r ops.
Proof.
  exists (Cfg BSM TOMBSTONE 2 2 2).
  exists [Ins (KV 0 0); Ins (KV 1 0); Ins (KV 2 0); Del (KV 2 0); Ins (KV 10 0); Ins (KV 11 0); Ins (KV 20 0)].
  do 2 eexists. exists (KV 10 0). split; [unfold valid_cfg; simpl; repeat split; lia|].
  split; [reflexivity|]. split; [vm_compute; reflexivity|]. vm_compute. discriminate.
Qed.
Print Assumptions C05_bsm_refuted.

Theorem C07_bsm_refuted : exists lbf C (ops : list (op kv)) e rs out r,
  lb_sound lbf /\ valid_cfg C /\ c_del C = TOMBSTONE /\ run_new by_version C ops = Ok (e, rs) /\
  range_query by_version lbf e 0 100 = Ok (e, out) /\ key_in 0 100 r = true /\
  occ r out + n_del r ops < n_ins r ops.
Proof.
  exists (fun d k => match d with [] => Ok 0 | _ => lb_isam d k end). exists (Cfg BSM TOMBSTONE 2 2 2).
  exists [Ins (KV 0 0); Ins (KV 1 0); Ins (KV 2 0); Del (KV 2 0); Ins (KV 10 0); Ins (KV 11 0); Ins (KV 20 0)].
  do 3 eexists. exists (KV 10 0).
  split; [intros [|w d] k NE SS; [congruence|exact (lb_isam_sound (w :: d) k NE SS)]|].
  split; [unfold valid_cfg; simpl; repeat split; lia|].
  split; [reflexivity|]. split; [vm_compute; reflexivity|]. split; [vm_compute; reflexivity|].
  split; [reflexivity|]. vm_compute. lia.
Qed.
Print Assumptions C07_bsm_refuted.

(** C42: insert and erase a record so that a buffer cancels completely, then
    query: the lower-bound search of the empty shard follows a null root. *)
Theorem C42_no_crash_refuted : exists C (ops : list (op kv)) e rs,
  valid_cfg C /\ run_new by_version C ops = Ok (e, rs) /\
  range_query by_version lb_isam e 0 10 = Fail FNull.
Proof.
  exists (Cfg TIERING TOMBSTONE 2 2 2). exists [Ins (KV 3 0); Del (KV 3 0); Ins (KV 4 0)].
  do 2 eexists. split; [unfold valid_cfg; simpl; repeat split; lia || discriminate|].
  split; [vm_compute; reflexivity|]. vm_compute. reflexivity.
Qed.
Print Assumptions C42_no_crash_refuted.

(** ... and the merge of such a shard reads the first record of an empty array. *)
Theorem C42_merge_refuted : exists C ops,
  valid_cfg C /\ run_new (R := kv) by_version C ops = Fail FOob.
Proof.
  exists (Cfg TIERING TOMBSTONE 2 2 2).
  exists [Ins (KV 3 0); Del (KV 3 0); Ins (KV 4 0); Ins (KV 5 0); Ins (KV 6 0); Ins (KV 7 0); Ins (KV 8 0)].
  split; [unfold valid_cfg; simpl; repeat split; lia || discriminate|]. vm_compute. reflexivity.
Qed.
Print Assumptions C42_merge_refuted.

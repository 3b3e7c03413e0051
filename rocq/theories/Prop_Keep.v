(** Reconstructions and reads lose no record that is not erased (C83).  [bs] are the
    buffers that are flushed, [runs] the records they show (FlushSpec.v), with any number
    of tombstones. *)
From Coq Require Import List Arith ZArith NArith Lia Bool Permutation Sorted.
From Verif Require Import Base RecordModel RecordProofs BufferModel MergeModel MergeProofs StructModel ExtModel
  QueryModel Spec QueryProofs FlushModel FlushSpec FlushProofs FlushAny FlushKeep Prop_Flush Prop_Any
  BufConcModel SysModel SysSpec SysTrace KeepSpec SysKeep Prop_Sys Prop_Origin.
Import ListNotations.

(** C83: for every record, the copies stored minus the tombstones stored are those
    flushed; a record without tombstones is stored as often as it was flushed.  Here and
    below, missing: the Bentley-Saxe layout (false, see C83_bsm_refuted). *)
Theorem C83_balance_partial {R : Type} {RO : RecOps R} {RL : RecLaws R} (qlt : qorder R) {QO : QOrder qlt} :
  forall C bs runs st r, valid_cfg C -> c_layout C <> BSM -> Forall2 shows bs runs -> Forall untagged runs ->
  flush_all qlt C st_empty bs = Ok st ->
  n_plain r (st_records st) + n_tomb r (concat runs) = n_tomb r (st_records st) + n_plain r (concat runs) /\
  n_plain r (st_records st) <= n_plain r (concat runs).
Proof. exact (fun C bs runs st r V NB => keep_balance qlt C V NB bs runs st r). Qed.
Print Assumptions C83_balance_partial.

(** The same for the static structure, over what was flushed and is buffered. *)
Theorem C83_static_partial {R : Type} {RO : RecOps R} {RL : RecLaws R} (qlt : qorder R) {QO : QOrder qlt} :
  forall C bs runs st d v win s r, valid_cfg C -> c_layout C <> BSM -> Forall2 shows bs runs -> Forall untagged runs ->
  flush_all qlt C st_empty bs = Ok st -> shows (d, v) win -> untagged win -> static_on qlt st d v = Ok s ->
  n_plain r (s_data s) + n_tomb r (concat runs ++ win) = n_tomb r (s_data s) + n_plain r (concat runs ++ win) /\
  n_plain r (s_data s) <= n_plain r (concat runs ++ win).
Proof. exact (fun C bs runs st d v win s r V NB => keep_static qlt C V NB bs runs st d v win s r). Qed.
Print Assumptions C83_static_partial.

(** A range query returns a record in range at least (copies - tombstones) and at most
    (copies) times. *)
Theorem C83_range_query_partial {R : Type} {RO : RecOps R} {RL : RecLaws R} {KO : KeyOps R} {KL : KeyLaws R}
  (qlt : qorder R) {QO : QOrder qlt} (lbf : list (wrapped R) -> Z -> res nat) :
  forall C bs runs st d v win l u out r, valid_cfg C -> c_layout C <> BSM -> lb_sound lbf ->
  Forall2 shows bs runs -> Forall untagged runs ->
  flush_all qlt C st_empty bs = Ok st -> shows (d, v) win -> rq_on qlt lbf l u st d v = Ok out ->
  if key_in l u r then n_plain r (concat runs ++ win) <= occ r out + n_tomb r (concat runs ++ win) /\
                       occ r out <= n_plain r (concat runs ++ win)
  else occ r out = 0.
Proof. exact (fun C bs runs st d v win l u out r V NB LB => keep_range qlt C V NB lbf LB bs runs st d v win l u out r). Qed.
Print Assumptions C83_range_query_partial.

(** The hypotheses are met: of the runs of C78_case, which are not mostly records, the
    record 4 is stored although others are erased, and 3 is stored or cancelled. *)
Example C83_case : forall l, l <> BSM -> let C := Cfg l TOMBSTONE 1 3 2 in
  valid_cfg C /\ c_layout C <> BSM /\ Forall untagged an_runs /\ untagged an_win /\
  exists st s, flush_all by_version C st_empty (firstn 3 an_batches) = Ok st /\
    n_plain (an_rec 4) (st_records st) = 1 /\ n_tomb (an_rec 4) (concat an_runs) = 0 /\
    n_tomb (an_rec 5) (st_records st) = 1 /\ n_plain (an_rec 5) (concat an_runs) = 0 /\
    static_on by_version st (fst an_buf) (snd an_buf) = Ok s /\ n_plain (an_rec 7) (s_data s) = 1 /\
    rq_on by_version lb_isam 0 9 st (fst an_buf) (snd an_buf) = Ok [an_rec 3; an_rec 7].
Proof.
  intros l NB C. split; [unfold valid_cfg; destruct l; cbn; lia|]. split; [exact NB|].
  split; [repeat constructor|]. split; [repeat constructor|].
  destruct l; [| |congruence]; do 2 eexists; (split; [vm_compute; reflexivity|]); vm_compute; repeat split; reflexivity.
Qed.

(** C83 fails with the Bentley-Saxe layout: two flushes that cancel completely, and the
    next two are lost. *)
Definition lost_runs : list (list (wrapped kv)) :=
  [ [append_rec (an_rec 1) false 0; append_rec (an_rec 1) true 1];
    [append_rec (an_rec 2) false 0; append_rec (an_rec 2) true 1];
    [append_rec (an_rec 3) false 0]; [append_rec (an_rec 4) false 0] ].
Theorem C83_bsm_refuted : exists C bs (r : kv) st, valid_cfg C /\ c_layout C = BSM /\
  Forall2 shows bs lost_runs /\ Forall untagged lost_runs /\ flush_all by_version C st_empty bs = Ok st /\
  n_plain r (concat lost_runs) = 1 /\ n_tomb r (concat lost_runs) = 0 /\ st_records st = [].
Proof.
  exists (Cfg BSM TOMBSTONE 1 3 2), (map (fun ws => (ws ++ [append_rec (an_rec 9) false 0], View (length ws + 1) 0 (length ws) 0)) lost_runs), (an_rec 4).
  eexists. split; [unfold valid_cfg; cbn; lia|]. split; [reflexivity|]. split.
  { repeat constructor; try (vm_compute; lia); intros i I; cbn in I; do 2 (destruct i; [try reflexivity; lia|]); lia. }
  split; [repeat constructor|]. split; [vm_compute; reflexivity|]. vm_compute. repeat split.
Qed.
Print Assumptions C83_bsm_refuted.

(** ** Any number of threads *)

(** C71 and C83: in every execution, a record that no call erases is returned by a range
    query at least as often as it was inserted, before the query, in the slots [f], when
    no append to these slots is in progress while the buffer is flushed.  Missing: the
    Bentley-Saxe layout, and reads that fault (C42_no_crash_refuted). *)
Theorem C71_erases_partial {R : Type} {RO : RecOps R} {RL : RecLaws R} {KO : KeyOps R} {KL : KeyLaws R}
  (qlt : qorder R) {QO : QOrder qlt} (lbf : list (wrapped R) -> Z -> res nat) :
  forall C cap (f : nat -> bool) n (s : sys R) seen runs buf bs st d v lo hi out r,
  valid_cfg C -> c_layout C <> BSM -> lb_sound lbf -> 2 * c_hwm C <= cap ->
  sreach (c_lwm C) (c_hwm C) cap (fun s x => calm_on cap (fun i => f i = true) s x /\ spares r s x)
    (sys_init (c_hwm C) cap n) s ->
  In (AList seen runs buf) (y_ans s) -> Forall2 shows bs runs -> flush_all qlt C st_empty bs = Ok st ->
  shows (d, v) buf -> rq_on qlt lbf lo hi st d v = Ok out -> key_in lo hi r = true ->
  a_ins r (filter (fun x => f (fst x mod cap)) seen) <= occ r out.
Proof.
  exact (fun C cap f n s seen runs buf bs st d v lo hi out r V NB LB CAP =>
    spared_range qlt C V NB cap CAP lbf LB f n s seen runs buf bs st d v lo hi out r).
Qed.
Print Assumptions C71_erases_partial.

(** The same for static structures. *)
Theorem C71_static_partial {R : Type} {RO : RecOps R} {RL : RecLaws R} (qlt : qorder R) {QO : QOrder qlt} :
  forall C cap (f : nat -> bool) n (s : sys R) seen runs buf bs st d v sh r,
  valid_cfg C -> c_layout C <> BSM -> 2 * c_hwm C <= cap ->
  sreach (c_lwm C) (c_hwm C) cap (fun s x => calm_on cap (fun i => f i = true) s x /\ spares r s x)
    (sys_init (c_hwm C) cap n) s ->
  In (AList seen runs buf) (y_ans s) -> Forall2 shows bs runs -> flush_all qlt C st_empty bs = Ok st ->
  shows (d, v) buf -> static_on qlt st d v = Ok sh ->
  a_ins r (filter (fun x => f (fst x mod cap)) seen) <= n_plain r (s_data sh).
Proof.
  exact (fun C cap f n s seen runs buf bs st d v sh r V NB CAP =>
    spared_static qlt C V NB cap CAP f n s seen runs buf bs st d v sh r).
Qed.
Print Assumptions C71_static_partial.

(** The hypotheses are met by [overlap_del], which is not calm on the first slot and
    erases [rb]: [rc] is returned.  The reads are those of C69_erases_case. *)
Example C71_erases_run : exists s seen,
  sreach 1 2 4 (fun s x => calm_on 4 (fun i => but_first i = true) s x /\ spares rc s x) init s /\
  y_ans s = [AList seen [[W 0 rzero; W 13 rb]] [W 20 rc]] /\
  a_ins rc (filter (fun x => but_first (fst x mod 4)) seen) = 1 /\ a_del rb seen = 1.
Proof.
  do 2 eexists. split.
  - apply (schecked_reach 1 2 4 (fun s x => calm_onb 4 but_first s x &&
      match x with UCall _ (UInsert r' true) => negb (req rc r') | _ => true end)) with (l := overlap_del).
    + intros s x H. apply andb_true_iff in H as [H1 H2]. split; [apply calm_onb_ok; auto|].
      destruct x as [t [k|r ts| |]| | |]; try exact Logic.I. destruct ts; [|exact Logic.I]. apply negb_true_iff. exact H2.
    + vm_compute. reflexivity.
  - vm_compute. repeat split.
Qed.

(** The buffer, the epochs and the structure together, for any number of threads (C58).
    [AList seen runs buf] is what a query job has read: [seen] are the appends that had
    returned before the query was called, [runs] the flushes of its epoch, and [buf] the
    records of its buffer view.  Its answer is the range query [rq_on] on the structure
    that these flushes give, and on the buffer. *)
From Coq Require Import List Arith ZArith NArith Lia Bool Permutation.
From Verif Require Import Base RecordModel RecordProofs BufferModel MergeModel MergeProofs StructModel ExtModel
  QueryModel Spec QueryProofs FlushModel FlushSpec FlushProofs BufConcModel SysModel SysStill SysBatch SysSpec SysTrace SysQuery
  Prop_Sys.
Import ListNotations.

(** C58: whatever the interleaving, every flush of an epoch that some job has acquired
    has between one record and the high watermark. *)
Theorem C58_flush_sizes {R : Type} {RO : RecOps R} :
  forall lwm hwm cap ok n (s : sys R) t p e x,
  sreach lwm hwm cap ok (sys_init hwm cap n) s -> y_stop s = None ->
  nth_error (y_pcs s) t = Some p -> pinned p = Some e -> y_heap s e = Some x -> Forall (run_size hwm) (e_runs x).
Proof. exact pinned_runs. Qed.
Print Assumptions C58_flush_sizes.

(** So has every flush that a query or a static structure has read. *)
Theorem C58_answer_sizes {R : Type} {RO : RecOps R} :
  forall lwm hwm cap ok n (s : sys R) seen runs buf,
  sreach lwm hwm cap ok (sys_init hwm cap n) s -> In (AList seen runs buf) (y_ans s) -> Forall (run_size hwm) runs.
Proof. exact answer_runs. Qed.
Print Assumptions C58_answer_sizes.

(** Without erases, and in a still execution: the reconstructions succeed, and a range
    query returns exactly the records in its range of [l], a set of appends that has
    those that had returned before the call and some that returned since.  Missing: the
    executions that are not still (C21_lost_record_refuted). *)
Theorem C58_range_query_partial {R : Type} {RO : RecOps R} {RL : RecLaws R} {KO : KeyOps R} {KL : KeyLaws R}
  (qlt : qorder R) {QO : QOrder qlt} (lbf : list (wrapped R) -> Z -> res nat) :
  forall C cap n (s : sys R) seen runs buf bs, valid_cfg C -> lb_sound lbf -> 2 * c_hwm C <= cap ->
  sreach (c_lwm C) (c_hwm C) cap still (sys_init (c_hwm C) cap n) s ->
  no_erase (cs_done (y_buf s)) -> In (AList seen runs buf) (y_ans s) -> Forall2 shows bs runs ->
  exists st l, flush_all qlt C st_empty bs = Ok st /\
    incl seen l /\ incl l (cs_done (y_buf s)) /\ NoDup (map fst l) /\
    forall d v lo hi, shows (d, v) buf ->
      exists out, rq_on qlt lbf lo hi st d v = Ok out /\ Permutation out (filter (key_in lo hi) (a_recs l)).
Proof.
  exact (fun C cap n s seen runs buf bs V LB CAP => concurrent_range_query qlt C V lbf LB cap CAP n s seen runs buf bs).
Qed.
Print Assumptions C58_range_query_partial.

(** With erases, when every flush has more records than tombstones: the range query
    returns a record at least (inserts - erases) and at most (inserts) times.  Missing:
    as above, and the other flushes (C42_no_crash_refuted). *)
Theorem C58_range_bounds_partial {R : Type} {RO : RecOps R} {RL : RecLaws R} {KO : KeyOps R} {KL : KeyLaws R}
  (qlt : qorder R) {QO : QOrder qlt} (lbf : list (wrapped R) -> Z -> res nat) :
  forall C cap n (s : sys R) seen runs buf bs, valid_cfg C -> lb_sound lbf -> 2 * c_hwm C <= cap ->
  sreach (c_lwm C) (c_hwm C) cap still (sys_init (c_hwm C) cap n) s ->
  In (AList seen runs buf) (y_ans s) -> Forall mostly_plain runs -> Forall2 shows bs runs ->
  exists st l, flush_all qlt C st_empty bs = Ok st /\
    incl seen l /\ incl l (cs_done (y_buf s)) /\ NoDup (map fst l) /\
    forall d v lo hi, shows (d, v) buf ->
      exists out, rq_on qlt lbf lo hi st d v = Ok out /\
        forall r, if key_in lo hi r then a_ins r l <= occ r out + a_del r l /\ occ r out <= a_ins r l
                  else occ r out = 0.
Proof.
  exact (fun C cap n s seen runs buf bs V LB CAP => concurrent_range_bounds qlt C V lbf LB cap CAP n s seen runs buf bs).
Qed.
Print Assumptions C58_range_bounds_partial.

(** ** The hypotheses are met *)

(** Two records are flushed, a third is inserted, and a query follows; or the first is
    erased.  The query with the third record is called from one thread while another
    one has inserted. *)
Definition wh_cfg (l : layout) : cfg := Cfg l TOMBSTONE 1 2 2.
Definition wh_ins : list (sact kv) := two ++ rcn 2 ++ ins 0 rc ++ UCall 1 (UJob KQuery) :: st 1 12.
Definition wh_del : list (sact kv) :=
  two ++ rcn 2 ++ UCall 0 (UInsert ra true) :: st 0 9 ++ UCall 1 (UJob KQuery) :: st 1 12.
(** Rings of four slots with these records. *)
Definition wh_batch : batch kv := ([W 4 ra; W 12 rb; W 0 ra; W 0 ra], View 4 0 2 0).
Definition wh_buf (w : wrapped kv) : batch kv := ([W 0 ra; W 0 ra; w; W 0 ra], View 4 2 3 0).

Example wh_valid : forall l, valid_cfg (wh_cfg l) /\ 2 * c_hwm (wh_cfg l) <= 4.
Proof. intros. unfold valid_cfg; simpl; repeat split; lia || auto. Qed.
Example wh_ins_answer :
  match play_still wh_ins with
  | Some s => y_ans s = [AList [(2, (rc, false)); (1, (rb, false)); (0, (ra, false))] [[W 4 ra; W 12 rb]] [W 20 rc]] /\
              cs_done (y_buf s) = [(2, (rc, false)); (1, (rb, false)); (0, (ra, false))]
  | None => False
  end.
Proof. vm_compute. split; reflexivity. Qed.
Example wh_del_answer :
  match play_still wh_del with
  | Some s => y_ans s = [AList [(2, (ra, true)); (1, (rb, false)); (0, (ra, false))] [[W 4 ra; W 12 rb]] [W 21 ra]]
  | None => False
  end.
Proof. vm_compute. reflexivity. Qed.
Example wh_no_erase : no_erase [(2, (rc, false)); (1, (rb, false)); (0, (ra, false))].
Proof. intros y r ts [H|[H|[H|[]]]]; inversion H; auto. Qed.
Example wh_mostly : Forall mostly_plain [[W 4 ra; W 12 rb]].
Proof. repeat constructor. intros w [<-|[<-|[]]]; reflexivity. Qed.
Example wh_shows : Forall2 shows [wh_batch] [[W 4 ra; W 12 rb]] /\ forall w, shows (wh_buf w) [w].
Proof.
  split.
  - constructor; [|constructor]. repeat split; try (vm_compute; lia). intros i I. cbn in I.
    do 2 (destruct i; [reflexivity|]). lia.
  - intros w. repeat split; try (vm_compute; lia). intros i I. cbn in I. destruct i; [reflexivity|lia].
Qed.
Example wh_query : forall l, match flush_all by_version (wh_cfg l) st_empty [wh_batch] with
  | Ok s => rq_on by_version lb_isam 2 5 s (fst (wh_buf (W 20 rc))) (snd (wh_buf (W 20 rc))) = Ok [rb; rc] /\
            rq_on by_version lb_isam 0 5 s (fst (wh_buf (W 21 ra))) (snd (wh_buf (W 21 ra))) = Ok [rb]
  | Fail _ => False
  end.
Proof. intros []; vm_compute; split; reflexivity. Qed.
(** A pinned epoch with a flush. *)
Example wh_pinned :
  match play_still (two ++ rcn 2 ++ UCall 1 (UJob KQuery) :: st 1 9) with
  | Some s => map pinned (y_pcs s) = [None; Some 1; None] /\ y_heap s 1 = Some (Ep [[W 4 ra; W 12 rb]] 2) /\ y_stop s = None
  | None => False
  end.
Proof. vm_compute. repeat split. Qed.

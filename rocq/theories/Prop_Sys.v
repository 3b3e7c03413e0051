(** The whole data structure under concurrency, for any number of threads (C17,
    C20 - C23, C43, C49 - C51).  [sreach lwm hwm cap ok s s'] says that some
    interleaving of public calls, reconstructions and their steps leads from [s] to
    [s'], all of whose actions satisfy [ok].  [anyact] allows them all.  [calm]
    supposes that no append is in progress when a reconstruction reads the end of the
    buffer; [still] supposes it also when a job does. *)
From Coq Require Import List Arith ZArith NArith Lia Bool Permutation.
From Verif Require Import Base RecordModel RecordProofs BufferModel MergeModel BufConcModel BufConcProofs BufConcData SysModel SysInv
  SysSnapshot SysStill SysTrace.
Import ListNotations.

Definition ra := KV 1 10.
Definition rb := KV 2 20.
Definition rc := KV 3 30.

Definition st (t k : nat) : list (sact kv) := repeat (UStep t) k.
(** An insert below the low watermark, and one that schedules a reconstruction. *)
Definition ins (t : nat) (r : kv) : list (sact kv) := UCall t (UInsert r false) :: st t 9.
Definition trig (t a : nat) (r : kv) : list (sact kv) := UCall t (UInsert r false) :: st t 7 ++ [Alloc t a] ++ st t 13.
Definition rcn (t : nat) : list (sact kv) := UCall t URecon :: st t 30.
(** Two records, and a reconstruction to come. *)
Definition two : list (sact kv) := ins 0 ra ++ trig 0 1 rb.
(** Low watermark 1, high watermark 2, capacity 4, three threads. *)
Definition init := sys_init (R := kv) 2 4 3.
Definition play := schecked (R := kv) 1 2 4 (fun _ _ => true) init.
Definition play_calm := schecked (R := kv) 1 2 4 calmb init.
Definition play_still := schecked (R := kv) 1 2 4 stillb init.

(** C22: in every reachable state the epoch of a job is alive, so it is not deleted
    before the job has ended; and no deleted epoch or null pointer is ever accessed. *)
Theorem C22_epoch_alive {R : Type} {RO : RecOps R} :
  forall lwm hwm cap ok n (s : sys R) t p e, sreach lwm hwm cap ok (sys_init hwm cap n) s ->
  nth_error (y_pcs s) t = Some p -> pinned p = Some e -> y_heap s e <> None.
Proof. exact pins_alive. Qed.
Print Assumptions C22_epoch_alive.

Theorem C22_no_stale_access {R : Type} {RO : RecOps R} :
  forall lwm hwm cap ok n (s : sys R), sreach lwm hwm cap ok (sys_init hwm cap n) s ->
  y_stop s <> Some UseAfterFree /\ y_stop s <> Some NullPointer.
Proof. exact no_stale_access. Qed.
Print Assumptions C22_no_stale_access.

(** A query keeps the old epoch alive across the transition; it is deleted by the next
    transition, after the query. *)
Example C22_case :
  match play (two ++ UCall 1 (UJob KQuery) :: st 1 9 ++ rcn 2) with
  | Some s => map pinned (y_pcs s) = [None; Some 0; None] /\ y_cur s = Cell (Some 1) 0 /\ y_prev s = Cell (Some 0) 1 /\
              y_heap s 0 = Some (Ep [] 0) /\ y_flag s = false
  | None => False
  end /\
  match play (two ++ UCall 1 (UJob KQuery) :: st 1 9 ++ rcn 2 ++ st 1 11 ++ ins 0 rc ++ trig 0 2 ra ++ UCall 2 URecon :: st 2 18) with
  | Some s => y_pcs s = [SIdle; SIdle; DCur 4] /\ y_heap s 0 = None /\ y_cur s = Cell (Some 1) 0
  | None => False
  end.
Proof. vm_compute. repeat split. Qed.

(** C23: the reconstructions being scheduled or carried out and those submitted are
    together at most one, and exactly one while the flag is set. *)
Theorem C23_one_reconstruction {R : Type} {RO : RecOps R} :
  forall lwm hwm cap ok n (s : sys R), sreach lwm hwm cap ok (sys_init hwm cap n) s ->
  countb recon (y_pcs s) + length (y_jobs s) = (if y_flag s then 1 else 0).
Proof. exact one_reconstruction. Qed.
Print Assumptions C23_one_reconstruction.

(** Two inserts race for the flag; one schedules the reconstruction. *)
Example C23_case :
  match play (ins 0 ra ++ [UCall 0 (UInsert rb false); UCall 1 (UInsert rc false)] ++ st 0 2 ++ st 1 2 ++ [UStep 1; UStep 0]) with
  | Some s => y_pcs s = [IApp rb false; NNull rc false; SIdle] /\ y_flag s = true /\ countb recon (y_pcs s) = 1
  | None => False
  end /\
  match play two with
  | Some s => y_jobs s = [1] /\ countb recon (y_pcs s) = 0 /\ y_flag s = true
  | None => False
  end.
Proof. vm_compute. repeat split. Qed.

(** C21: the records that a query or a static structure has read, those of the flushes
    ([runs]) and those of the buffer ([buf]), contain, in a calm execution, every record
    whose insert had returned before the call.  Missing: that the rest are records
    appended since, and not stale slots (next theorem), and the executions that are not
    calm, where it is false. *)
Theorem C21_snapshot_complete_partial {R : Type} {RO : RecOps R} :
  forall lwm hwm cap n (s : sys R) seen runs buf, 0 < hwm -> 2 * hwm <= cap ->
  sreach lwm hwm cap calm (sys_init hwm cap n) s -> In (AList seen runs buf) (y_ans s) ->
  exists extra, Permutation (concat runs ++ buf) (map (placed cap) seen ++ extra).
Proof. exact snapshot. Qed.
Print Assumptions C21_snapshot_complete_partial.

(** In a still execution the answer is [l], each record once: [l] has the appends that
    returned before the call, and some that returned since.  Missing: the other
    executions. *)
Theorem C21_snapshot_exact_partial {R : Type} {RO : RecOps R} :
  forall lwm hwm cap, 0 < hwm -> 2 * hwm <= cap -> forall n (s : sys R) seen runs buf,
  sreach lwm hwm cap still (sys_init hwm cap n) s -> In (AList seen runs buf) (y_ans s) ->
  exists l, incl seen l /\ incl l (cs_done (y_buf s)) /\ NoDup (map fst l) /\ Permutation (concat runs ++ buf) (map (placed cap) l).
Proof. exact exact_snapshot. Qed.
Print Assumptions C21_snapshot_exact_partial.

(** One query starts before the transition and ends after it, another one starts after
    it and a further insert. *)
Definition queries : list (sact kv) :=
  two ++ UCall 1 (UJob KQuery) :: st 1 9 ++ rcn 2 ++ st 1 11 ++ ins 0 rc ++ UCall 0 (UJob KQuery) :: st 0 12.

Example C21_case :
  match play_still queries with
  | Some s => y_ans s =
      [AList [(2, (rc, false)); (1, (rb, false)); (0, (ra, false))] [[W 4 ra; W 12 rb]] [W 20 rc];
       AList [(1, (rb, false)); (0, (ra, false))] [] [W 4 ra; W 12 rb]]
  | None => False
  end.
Proof. vm_compute. reflexivity. Qed.

Example C21_case_static :
  match play_still (two ++ UCall 1 (UJob KStatic) :: st 1 5 ++ rcn 2 ++ st 1 8) with
  | Some s => y_ans s = [AList [(1, (rb, false)); (0, (ra, false))] [] [W 4 ra; W 12 rb]] /\ c_ep (y_prev s) = Some 0
  | None => False
  end.
Proof. vm_compute. split; reflexivity. Qed.

(** Not calm: an insert that returned 1 is missing from a query called afterwards,
    because the reconstruction copied its slot before it was written. *)
Theorem C21_lost_record_refuted :
  exists s seen runs buf, sreach 1 2 4 anyact init s /\ In (AList seen runs buf) (y_ans s) /\ In (0, (ra, false)) seen /\
  forall w, In w (concat runs ++ buf) -> wrec w <> ra.
Proof.
  eexists. eexists. eexists. eexists. split.
  - apply (schecked_any 1 2 4 (UCall 0 (UInsert ra false) :: st 0 6 ++ trig 1 1 rb ++ rcn 2 ++ st 0 3 ++ UCall 2 (UJob KQuery) :: st 2 12)).
    vm_compute. reflexivity.
  - split; [left; reflexivity|]. split; [left; reflexivity|].
    intros w [<-|[<-|[]]]; discriminate.
Qed.
Print Assumptions C21_lost_record_refuted.

(** C51: a record count, in any execution, is at least the number of inserts that had
    returned before the call, and at most the number of positions given to inserts.
    Missing: that no insert in progress is counted, which is false
    (C51_in_progress_refuted). *)
Theorem C51_count_bounds_partial {R : Type} {RO : RecOps R} :
  forall lwm hwm cap ok n (s : sys R) seen k, 0 < hwm -> 2 * hwm <= cap ->
  sreach lwm hwm cap ok (sys_init hwm cap n) s -> In (ACount seen k) (y_ans s) ->
  length seen <= k <= cb_tail (cs_buf (y_buf s)).
Proof. exact counted. Qed.
Print Assumptions C51_count_bounds_partial.

(** In a still execution it is the number of inserts that had returned at some moment
    of the call. *)
Theorem C51_count_exact_partial {R : Type} {RO : RecOps R} :
  forall lwm hwm cap, 0 < hwm -> 2 * hwm <= cap -> forall n (s : sys R) seen k,
  sreach lwm hwm cap still (sys_init hwm cap n) s -> In (ACount seen k) (y_ans s) ->
  exists l, incl seen l /\ incl l (cs_done (y_buf s)) /\ NoDup (map fst l) /\ k = length l.
Proof. exact exact_count. Qed.
Print Assumptions C51_count_exact_partial.

Example C51_case :
  match play_still (two ++ rcn 2 ++ ins 0 rc ++ UCall 0 (UJob KCount) :: st 0 12) with
  | Some s => y_ans s = [ACount [(2, (rc, false)); (1, (rb, false)); (0, (ra, false))] 3] /\ hidx (cb_head (cs_buf (y_buf s))) = 2
  | None => False
  end.
Proof. vm_compute. split; reflexivity. Qed.

(** A count taken while an insert is in progress includes it. *)
Theorem C51_in_progress_refuted :
  exists s seen k, sreach 1 2 4 calm init s /\ In (ACount seen k) (y_ans s) /\
  length (cs_done (y_buf s)) < k.
Proof.
  eexists. eexists. eexists. split.
  - apply (schecked_calm 1 2 4 (UCall 0 (UInsert ra false) :: st 0 6 ++ UCall 1 (UJob KCount) :: st 1 12)).
    vm_compute. reflexivity.
  - split; [left; reflexivity|]. vm_compute. lia.
Qed.
Print Assumptions C51_in_progress_refuted.

(** C20: in a calm execution an insert that returned 1 is in the shards of the current
    epoch if it is before the buffer head, and in its slot of the buffer otherwise.
    Missing: executions that are not calm, where C21_lost_record_refuted shows a loss;
    and the moments of a transition when no epoch is current. *)
Theorem C20_system_durable_partial {R : Type} {RO : RecOps R} :
  forall lwm hwm cap n (s : sys R) e y r ts, 0 < hwm -> 2 * hwm <= cap ->
  sreach lwm hwm cap calm (sys_init hwm cap n) s -> y_stop s = None ->
  c_ep (y_cur s) = Some e -> In (y, (r, ts)) (cs_done (y_buf s)) ->
  exists x, y_heap s e = Some x /\ e_head x = hidx (cb_head (cs_buf (y_buf s))) /\
    if y <? hidx (cb_head (cs_buf (y_buf s))) then nth_error (e_recs x) y = Some (append_rec r ts (y mod cap))
    else nth_error (cb_data (cs_buf (y_buf s))) (y mod cap) = Some (append_rec r ts (y mod cap)).
Proof. exact durable. Qed.
Print Assumptions C20_system_durable_partial.

Example C20_system_case :
  match play_calm (two ++ rcn 2 ++ ins 0 rc) with
  | Some s => y_heap s 1 = Some (Ep [[W 4 ra; W 12 rb]] 2) /\ nth_error (cb_data (cs_buf (y_buf s))) 2 = Some (W 20 rc) /\
              y_cur s = Cell (Some 1) 0 /\ length (cs_done (y_buf s)) = 3
  | None => False
  end.
Proof. vm_compute. repeat split. Qed.

(** C17: in a calm execution the acknowledged records of a held view stay in their
    slots.  Missing: the other executions. *)
Theorem C17_system_view_partial {R : Type} {RO : RecOps R} :
  forall lwm hwm cap n (s : sys R) h tl y r ts, 0 < hwm -> 2 * hwm <= cap ->
  sreach lwm hwm cap calm (sys_init hwm cap n) s ->
  In (Hold h tl) (cs_pcs (y_buf s)) -> h <= y < tl -> In (y, (r, ts)) (cs_done (y_buf s)) ->
  nth_error (cb_data (cs_buf (y_buf s))) (y mod cap) = Some (append_rec r ts (y mod cap)).
Proof. exact view_intact. Qed.
Print Assumptions C17_system_view_partial.

(** A query holds its view while the buffer is flushed and refilled. *)
Example C17_system_case :
  match play_calm (two ++ UCall 1 (UJob KQuery) :: st 1 9 ++ rcn 2 ++ ins 0 rc ++ trig 0 2 ra) with
  | Some s => In (Hold 0 2) (cs_pcs (y_buf s)) /\ cb_data (cs_buf (y_buf s)) = [W 4 ra; W 12 rb; W 20 rc; W 28 ra] /\
              hidx (cb_head (cs_buf (y_buf s))) = 2
  | None => False
  end.
Proof. vm_compute. auto. Qed.

(** C43: a thread leaves await_next_epoch only after reading that no epoch is pending;
    a thread that is waiting when the notification is sent is woken up.  Missing: that
    it always returns, which is false (C43_lost_wakeup_refuted). *)
Theorem C43_await_partial {R : Type} {RO : RecOps R} :
  forall lwm hwm cap (s : sys R) x s' t p q, sexec lwm hwm cap s x = Some s' ->
  nth_error (y_pcs s) t = Some p -> awaiting p = true ->
  nth_error (y_pcs s') t = Some q -> awaiting q = false -> c_ep (y_next s) = None.
Proof. exact await_returns. Qed.
Print Assumptions C43_await_partial.

Theorem C43_woken_partial {R : Type} {RO : RecOps R} :
  forall lwm hwm cap (s s' : sys R) t u, sexec lwm hwm cap s (UStep u) = Some s' ->
  nth_error (y_pcs s) u = Some DNotify -> nth_error (y_pcs s) t = Some WWait ->
  nth_error (y_pcs s') t = Some WLoad.
Proof. exact await_woken. Qed.
Print Assumptions C43_woken_partial.

(** The waiter waits in time, is woken and returns. *)
Example C43_case :
  match play (two ++ UCall 1 UAwait :: st 1 2 ++ rcn 2) with
  | Some s => y_pcs s = [SIdle; WLoad; SIdle] /\ y_next s = null
  | None => False
  end /\
  match play (two ++ UCall 1 UAwait :: st 1 2 ++ rcn 2 ++ st 1 1) with
  | Some s => y_pcs s = [SIdle; SIdle; SIdle]
  | None => False
  end.
Proof. vm_compute. repeat split. Qed.

(** The transition happens between the test and the wait: the waiter stays there, with
    no epoch pending, no reconstruction scheduled and no thread able to step. *)
Theorem C43_lost_wakeup_refuted :
  exists s, sreach 1 2 4 anyact init s /\ nth_error (y_pcs s) 1 = Some WWait /\
  y_next s = null /\ y_jobs s = [] /\ y_flag s = false /\ y_stop s = None /\
  forall t, sexec 1 2 4 s (UStep t) = None.
Proof.
  eexists. split.
  - apply (schecked_any 1 2 4 (two ++ UCall 1 UAwait :: st 1 1 ++ rcn 2 ++ st 1 1)). vm_compute. reflexivity.
  - repeat split. intros [|[|[|t]]]; try reflexivity. unfold sexec. cbn. destruct t; reflexivity.
Qed.
Print Assumptions C43_lost_wakeup_refuted.

(** C49: ending a job can fail an assertion: the job of the old epoch looked at
    m_previous_epoch before the transition, and releases the new epoch after it. *)
Theorem C49_end_of_job_refuted :
  exists s, sreach 1 2 4 still init s /\ y_stop s = Some AssertFailed /\
  nth_error (y_pcs s) 1 = Some (SEnd ECurr 0 ToIdle) /\ y_cur s = Cell (Some 1) 0 /\ y_prev s = Cell (Some 0) 1.
Proof.
  eexists. split.
  - apply (schecked_still 1 2 4 (two ++ UCall 1 (UJob KTouch) :: st 1 5 ++ rcn 2 ++ st 1 1)). vm_compute. reflexivity.
  - repeat split.
Qed.
Print Assumptions C49_end_of_job_refuted.

(** When the new epoch has a job of its own, the assertion holds, the wrong count is
    decremented, and the old epoch keeps a count that nobody will give back. *)
Theorem C49_wrong_epoch_refuted :
  exists s, sreach 1 2 4 still init s /\ y_stop s = None /\ orphan s 0 /\
  map pinned (y_pcs s) = [Some 1; None; None] /\ y_cur s = Cell (Some 1) 0.
Proof.
  eexists. split.
  - apply (schecked_still 1 2 4 (two ++ UCall 1 (UJob KTouch) :: st 1 5 ++ rcn 2 ++ UCall 0 (UJob KTouch) :: st 0 4 ++ st 1 2)).
    vm_compute. reflexivity.
  - split; [reflexivity|]. split; [split; [reflexivity|vm_compute; lia]|]. split; reflexivity.
Qed.
Print Assumptions C49_wrong_epoch_refuted.

(** From such a state on, whatever happens, the buffer head never moves again, so that
    at most [hwm] positions are ever given out beyond it: inserts are refused for
    good. *)
Theorem C49_stuck_forever {R : Type} {RO : RecOps R} :
  forall lwm hwm cap ok n (s : sys R) e s', sreach lwm hwm cap ok (sys_init hwm cap n) s -> y_stop s = None ->
  orphan s e -> sreach lwm hwm cap ok s s' ->
  hidx (cb_head (cs_buf (y_buf s'))) = hidx (cb_head (cs_buf (y_buf s))) /\
  cb_tail (cs_buf (y_buf s')) <= hidx (cb_head (cs_buf (y_buf s))) + hwm /\
  (y_stop s' = None -> orphan s' e).
Proof. exact orphan_forever. Qed.
Print Assumptions C49_stuck_forever.

(** C50: inserts can fail an assertion: one of them found the buffer above the low
    watermark, and took the flag after another reconstruction had emptied it; the new
    reconstruction cannot advance the head. *)
Theorem C50_insert_aborts_refuted :
  exists s, sreach 1 2 4 still init s /\ y_stop s = Some AssertFailed /\
  nth_error (y_pcs s) 2 = Some (DAdvW 2) /\ cs_adv (y_buf s) = VCrash /\ cb_count (cs_buf (y_buf s)) = 0.
Proof.
  eexists. split.
  - apply (schecked_still 1 2 4 (ins 0 ra ++ UCall 1 (UInsert rc false) :: st 1 2 ++ trig 0 1 rb ++ rcn 2 ++
      st 1 5 ++ [Alloc 1 2] ++ st 1 6 ++ UCall 2 URecon :: st 2 21)). vm_compute. reflexivity.
  - repeat split.
Qed.
Print Assumptions C50_insert_aborts_refuted.

(** One thread that inserts is enough, without any other call: an insert finds the
    buffer above the low watermark, the reconstruction that an earlier one has scheduled
    empties it, and the insert schedules another one before it appends. *)
Definition inserts_of (t0 : nat) (s : sys kv) (x : sact kv) : Prop :=
  match x with UCall t (UInsert _ _) => t = t0 | UCall _ URecon | UStep _ | Alloc _ _ => True | _ => False end.
Definition inserts_ofb (t0 : nat) (x : sact kv) : bool :=
  match x with UCall t (UInsert _ _) => t =? t0 | UCall _ URecon | UStep _ | Alloc _ _ => true | _ => false end.
Theorem C50_one_thread_refuted :
  exists s, sreach 1 2 4 (inserts_of 0) init s /\ y_stop s = Some AssertFailed /\
  nth_error (y_pcs s) 2 = Some (DAdvW 2) /\ cs_adv (y_buf s) = VCrash /\ cb_count (cs_buf (y_buf s)) = 0.
Proof.
  eexists. split.
  - apply (schecked_reach 1 2 4 (fun _ x => inserts_ofb 0 x)) with
      (l := two ++ UCall 0 (UInsert rc false) :: st 0 2 ++ rcn 2 ++ st 0 5 ++ [Alloc 0 2] ++ st 0 6 ++ UCall 2 URecon :: st 2 21).
    + intros s [t []| | |] H; cbn in *; auto; try discriminate. apply Nat.eqb_eq. auto.
    + vm_compute. reflexivity.
  - repeat split.
Qed.
Print Assumptions C50_one_thread_refuted.

(** C49, C50: these are the only two: in any execution the program stops only at the
    assertion of end_job on the current epoch or at those of advance_head.  Missing:
    that they hold too. *)
Theorem C50_assertions_partial {R : Type} {RO : RecOps R} :
  forall lwm hwm cap ok n (s : sys R), sreach lwm hwm cap ok (sys_init hwm cap n) s -> y_stop s = Some AssertFailed ->
  exists t p, nth_error (y_pcs s) t = Some p /\ ((exists e f, p = SEnd ECurr e f) \/ (exists n, p = DAdvW n)).
Proof. exact stop_causes. Qed.
Print Assumptions C50_assertions_partial.

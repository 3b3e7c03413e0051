(** C24: the FIFO scheduler.  Tasks are numbered in the order of their submission. *)
From Coq Require Import List Arith Bool.
From Verif Require Import SchedModel SchedProofs SchedLive.
Import ListNotations.

(** Tasks are handed to the thread pool in submission order without gaps, and started in
    the order in which they were handed over, in any execution, also during shutdown. *)
Theorem C24_order : forall k s, qreach (sched_init k) s ->
  (exists n, n <= q_cnt s /\ q_disp s = seq 0 n) /\ exists l, q_disp s = q_start s ++ l.
Proof. exact fifo. Qed.
Print Assumptions C24_order.

(** No task is handed over twice or started twice. *)
Theorem C24_once : forall k s, qreach (sched_init k) s -> NoDup (q_disp s) /\ NoDup (q_start s).
Proof. exact once. Qed.
Print Assumptions C24_once.

(** The pop in schedule_next never finds the queue empty (its assertion holds). *)
Theorem C24_pop_nonempty : forall k s, qreach (sched_init k) s -> q_pc s = RPush -> q_tasks s <> [].
Proof. exact pop_nonempty. Qed.
Print Assumptions C24_pop_nonempty.

(** As long as the scheduler is not shut down, every task submitted gets started, if the
    threads are scheduled fairly and tasks terminate. *)
Theorem C24_eventually_started_partial : forall k s x i t, good k s x -> t < q_cnt (s i) ->
  exists j, i <= j /\ In t (q_start (s j)).
Proof. exact every_task_starts. Qed.
Print Assumptions C24_eventually_started_partial.

(** Such runs exist, with any number of threads, and tasks being submitted for ever. *)
Theorem C24_fair_runs_exist : forall k, 0 < k -> good k (turns k) (fun i => turn k (turns k i) i).
Proof. exact turns_good. Qed.
Print Assumptions C24_fair_runs_exist.

(** Tasks handed to the pool before shutdown is called are started before its stop returns. *)
Theorem C24_shutdown_runs_dispatched : forall k s0 s t, 0 < k -> qreach (sched_init k) s0 -> q_end s0 = SNone ->
  qreach s0 s -> stopped (q_end s) = true -> In t (q_disp s0) -> In t (q_start s).
Proof. exact shutdown_runs_dispatched. Qed.
Print Assumptions C24_shutdown_runs_dispatched.

(** Once the pool has been stopped no task runs and none is ever started. *)
Theorem C24_shutdown_quiet : forall k s, qreach (sched_init k) s -> stopped (q_end s) = true ->
  (forall w, In w (q_work s) -> w = WGone) /\
  forall s', qreach s s' -> q_start s' = q_start s /\ forall w, In w (q_work s') -> w = WGone.
Proof. exact shutdown_quiet. Qed.
Print Assumptions C24_shutdown_quiet.

(** ** Shutdown *)

(** Task 0 is submitted, and the scheduler shut down before the dispatcher looks. *)
Definition dropped : list qact :=
  [QSubmit; QEnd; QEnd; QWorker 0; QWorker 0; QEnd; QSched; QEnd; QSched; QSched; QSched; QEnd; QWake; QWake; QEnd].

(** The destructor returns with a task submitted that is never handed to the pool. *)
Theorem C24_shutdown_drops_queued_refuted : exists s,
  qreach (sched_init 1) s /\ q_end s = SEnd /\ q_cnt s = 1 /\ q_disp s = [] /\ forall s', qreach s s' -> ~ In 0 (q_start s').
Proof. exact (never_started 1 dropped ltac:(vm_compute; reflexivity)). Qed.
Print Assumptions C24_shutdown_drops_queued_refuted.

(** The dispatcher sees an idle thread, the pool is stopped, and the task is handed over. *)
Definition late : list qact :=
  [QSubmit; QWorker 0; QSched; QWake; QSched; QSched; QEnd; QEnd; QWorker 0; QSched; QEnd].

(** A task is handed to the pool and never started. *)
Theorem C24_shutdown_drops_dispatched_refuted : exists s,
  qreach (sched_init 1) s /\ stopped (q_end s) = true /\ q_disp s = [0] /\ forall s', qreach s s' -> ~ In 0 (q_start s').
Proof. exact (handed_not_started 1 late ltac:(vm_compute; reflexivity)). Qed.
Print Assumptions C24_shutdown_drops_dispatched_refuted.

(** The notification of shutdown comes before the dispatcher waits, and the wakeup thread
    has left. *)
Definition hang : list qact :=
  [QEnd; QEnd; QWorker 0; QWorker 0; QEnd; QWake; QWake; QEnd; QSched].

(** The destructor waits for the dispatcher, which waits for a notification that only
    another submission or a spurious wakeup could bring. *)
Theorem C24_shutdown_hangs_refuted : exists s,
  qreach (sched_init 1) s /\ q_end s = SJoin1 /\ q_pc s = RWait /\
  forall x s', qexec s x = Some s' -> x = QSubmit \/ x = QSpurious.
Proof. exact (hangs 1 hang ltac:(vm_compute; reflexivity)). Qed.
Print Assumptions C24_shutdown_hangs_refuted.

(** ** The hypotheses are met *)

(** Two threads run three tasks. *)
Definition three : list qact :=
  [QSubmit; QSubmit; QWorker 0; QWorker 1; QSched; QSubmit; QSched; QSched; QSched; QSched; QSched;
   QWorker 1; QSched; QSched; QWorker 0; QWorker 1; QWorker 1].
Example C24_order_case : match qsched (sched_init 2) three with
  | Some s => q_disp s = [0; 1; 2] /\ q_start s = [0; 1; 2] /\ q_work s = [WBusy 1; WBusy 2]
  | None => False
  end.
Proof. vm_compute. auto. Qed.

(** With shutdown: both tasks handed over are run, the third is not. *)
Definition three_stop : list qact :=
  [QSubmit; QSubmit; QWorker 0; QSched; QSubmit; QSched; QSched; QSched; QSched; QSched; QWorker 0; QSched; QSched;
   QEnd; QEnd; QWorker 0; QWorker 0; QWorker 0; QWorker 0; QWorker 0; QEnd].
Example C24_shutdown_case : match qsched (sched_init 1) three_stop with
  | Some s => q_disp s = [0; 1] /\ q_start s = [0; 1] /\ q_cnt s = 3 /\ stopped (q_end s) = true
  | None => False
  end.
Proof. vm_compute. auto. Qed.

(** In the fair run with three threads, two tasks have been started after 60 steps. *)
Example C24_fair_case : q_cnt (turns 3 60) = 4 /\ q_start (turns 3 60) = seq 0 (length (q_start (turns 3 60))) /\ 2 <= length (q_start (turns 3 60)).
Proof. vm_compute. auto. Qed.

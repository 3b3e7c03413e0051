(** The FIFO scheduler (include/framework/scheduling/FIFOScheduler.h), with its clients,
    its dispatcher thread, its wakeup thread, the thread pool and the shutdown.

    Simplifications: a task is its timestamp; schedule_job is one step, since it holds
    m_cv_lock throughout and the queue and counter are only used under that lock; the
    counter does not overflow.  LockedPriorityQueue (external) is a bag whose pop
    removes a least element with respect to Task's operator<.  ctpl::thread_pool
    (external) has a FIFO queue; each worker runs tasks as long as there are any and
    counts as idle while it waits for one; stop(true) lets the workers exit when the
    queue is empty, waits for them, and then clears the queue.  A condition variable
    has spurious wakeups. *)
From Coq Require Import List Arith Bool.
Import ListNotations.

(** run(), FIFOScheduler.h:112-121. *)
Inductive rpc :=
| RTop        (* 114-115: lock and wait *)
| RWait       (* 115: waiting *)
| RWoken      (* 115: woken, has to lock *)
| RLoop       (* 117: the condition; the lock is held *)
| RPush       (* 105-109: schedule_next; the lock is held *)
| RChk        (* 120: the lock is free, load m_shutdown *)
| RExit.

(** periodic_wakeup(), 97-102. *)
Inductive wpc := KNotify | KChk | KExit.

(** A thread of the pool. *)
Inductive worker :=
| WIdle               (* waits for a task *)
| WBusy (ts : nat)    (* runs one *)
| WLook               (* looks for the next one *)
| WGone.

(** shutdown(), 67-71, and the destructor, 47-54. *)
Inductive dpc :=
| SNone
| SStop       (* 69: m_thrd_pool.stop(true) *)
| SJoin       (* waiting for the workers *)
| SNotify     (* 70 *)
| SJoin1      (* 52 *)
| SJoin2      (* 53 *)
| SEnd.

Record sched := Sched {
  q_tasks : list nat;        (* m_task_queue *)
  q_cnt : nat;               (* m_counter *)
  q_pc : rpc;
  q_wake : wpc;
  q_pool : list nat;         (* the queue of m_thrd_pool *)
  q_done : bool;             (* the pool has been told to stop *)
  q_work : list worker;
  q_shut : bool;             (* m_shutdown *)
  q_end : dpc;
  (* histories, kept to state the properties *)
  q_disp : list nat;         (* handed to the pool, oldest first *)
  q_start : list nat         (* started by a worker, oldest first *)
}.

(** The constructor, 38-45, for [k] threads; m_counter is value-initialised (C++20). *)
Definition sched_init (k : nat) : sched :=
  Sched [] 0 RTop KNotify [] false (repeat WLook k) false SNone [] [].

(** The pop of the queue. *)
Fixpoint least (a : nat) (l : list nat) : nat :=
  match l with
  | [] => a
  | b :: l' => least (if b <? a then b else a) l'
  end.
Fixpoint drop (a : nat) (l : list nat) : list nat :=
  match l with
  | [] => []
  | b :: l' => if b =? a then l' else b :: drop a l'
  end.

(** n_idle(). *)
Definition idle (w : worker) : bool := match w with WIdle => true | _ => false end.
Definition n_idle (l : list worker) : nat := length (filter idle l).

Definition notify (p : rpc) : rpc := match p with RWait => RWoken | _ => p end.

Definition locked (p : rpc) : bool := match p with RLoop | RPush => true | _ => false end.

Inductive qact :=
| QSubmit           (* schedule_job, 56-65 *)
| QSched            (* the dispatcher makes a step *)
| QWake             (* the wakeup thread makes a step *)
| QWorker (w : nat)
| QEnd              (* shutdown, or the destructor, makes a step *)
| QSpurious.

Definition set_pc (s : sched) (p : rpc) : sched :=
  Sched (q_tasks s) (q_cnt s) p (q_wake s) (q_pool s) (q_done s) (q_work s) (q_shut s) (q_end s) (q_disp s) (q_start s).

Fixpoint put {A} (n : nat) (x : A) (l : list A) : list A :=
  match l, n with
  | [], _ => []
  | _ :: l', 0 => x :: l'
  | y :: l', S n' => y :: put n' x l'
  end.

Definition set_work (s : sched) (w : nat) (x : worker) (pool start : list nat) : sched :=
  Sched (q_tasks s) (q_cnt s) (q_pc s) (q_wake s) pool (q_done s) (put w x (q_work s)) (q_shut s) (q_end s)
        (q_disp s) start.

Definition set_end (s : sched) (e : dpc) : sched :=
  Sched (q_tasks s) (q_cnt s) (q_pc s) (q_wake s) (q_pool s) (q_done s) (q_work s) (q_shut s) e (q_disp s) (q_start s).

(** One step of run(). *)
Definition sched_step (s : sched) : option sched :=
  match q_pc s with
  | RTop => Some (set_pc s RWait)
  | RWait | RExit => None
  | RWoken => Some (set_pc s RLoop)
  | RLoop =>
      Some (set_pc s (match q_tasks s with
                      | [] => RChk
                      | _ => if 0 <? n_idle (q_work s) then RPush else RChk
                      end))
  | RPush =>
      match q_tasks s with
      | [] => None
      | a :: l =>
          let m := least a l in
          Some (Sched (drop m (q_tasks s)) (q_cnt s) RLoop (q_wake s) (q_pool s ++ [m]) (q_done s) (q_work s)
                      (q_shut s) (q_end s) (q_disp s ++ [m]) (q_start s))
      end
  | RChk => Some (set_pc s (if q_shut s then RExit else RTop))
  end.

(** One step of a worker. *)
Definition worker_step (s : sched) (w : nat) : option sched :=
  match nth_error (q_work s) w with
  | Some (WBusy _) => Some (set_work s w WLook (q_pool s) (q_start s))
  | Some WLook =>
      match q_pool s with
      | [] => Some (set_work s w WIdle [] (q_start s))
      | t :: l => Some (set_work s w (WBusy t) l (q_start s ++ [t]))
      end
  | Some WIdle =>
      match q_pool s with
      | [] => if q_done s then Some (set_work s w WGone [] (q_start s)) else None
      | t :: l => Some (set_work s w (WBusy t) l (q_start s ++ [t]))
      end
  | _ => None
  end.

Definition gone (w : worker) : bool := match w with WGone => true | _ => false end.

(** After stop(true) has returned. *)
Definition stopped (e : dpc) : bool := match e with SNotify | SJoin1 | SJoin2 | SEnd => true | _ => false end.

(** One step of the thread that shuts the scheduler down and destroys it. *)
Definition end_step (s : sched) : option sched :=
  match q_end s with
  | SNone =>
      Some (Sched (q_tasks s) (q_cnt s) (q_pc s) (q_wake s) (q_pool s) (q_done s) (q_work s) true SStop (q_disp s) (q_start s))
  | SStop =>
      Some (Sched (q_tasks s) (q_cnt s) (q_pc s) (q_wake s) (q_pool s) true (q_work s) (q_shut s) SJoin (q_disp s) (q_start s))
  | SJoin =>
      if forallb gone (q_work s)
      then Some (Sched (q_tasks s) (q_cnt s) (q_pc s) (q_wake s) [] (q_done s) (q_work s) (q_shut s) SNotify (q_disp s) (q_start s))
      else None
  | SNotify =>
      Some (Sched (q_tasks s) (q_cnt s) (notify (q_pc s)) (q_wake s) (q_pool s) (q_done s) (q_work s) (q_shut s) SJoin1 (q_disp s) (q_start s))
  | SJoin1 => match q_pc s with RExit => Some (set_end s SJoin2) | _ => None end
  | SJoin2 => match q_wake s with KExit => Some (set_end s SEnd) | _ => None end
  | SEnd => None
  end.

Definition wake_step (s : sched) : option sched :=
  let go p k := Some (Sched (q_tasks s) (q_cnt s) p k (q_pool s) (q_done s) (q_work s) (q_shut s) (q_end s) (q_disp s) (q_start s)) in
  match q_wake s with
  | KNotify => go (notify (q_pc s)) KChk
  | KChk => go (q_pc s) (if q_shut s then KExit else KNotify)
  | KExit => None
  end.

Definition qexec (s : sched) (x : qact) : option sched :=
  match x with
  | QSubmit =>
      if locked (q_pc s) then None
      else Some (Sched (q_tasks s ++ [q_cnt s]) (S (q_cnt s)) (notify (q_pc s)) (q_wake s) (q_pool s) (q_done s) (q_work s)
                       (q_shut s) (q_end s) (q_disp s) (q_start s))
  | QSched => sched_step s
  | QWake => wake_step s
  | QWorker w => worker_step s w
  | QEnd => end_step s
  | QSpurious => match q_pc s with RWait => Some (set_pc s RWoken) | _ => None end
  end.

Inductive qreach (s : sched) : sched -> Prop :=
| qr_refl : qreach s s
| qr_step : forall s1 x s2, qreach s s1 -> qexec s1 x = Some s2 -> qreach s s2.

Fixpoint qsched (s : sched) (l : list qact) : option sched :=
  match l with
  | [] => Some s
  | x :: l' => match qexec s x with Some s' => qsched s' l' | None => None end
  end.

(** ** Infinite executions *)

(** An execution: the states and the action taken in each, if any. *)
Definition execution (s : nat -> sched) (x : nat -> option qact) : Prop :=
  forall i, match x i with
            | Some a => qexec (s i) a = Some (s (S i))
            | None => s (S i) = s i
            end.

(** Worker [w] can make a step. *)
Definition able (s : sched) (w : nat) : Prop := worker_step s w <> None.

(** Fairness: the wakeup thread never stops; the dispatcher gets to make its next step
    whenever it does not wait for a notification; a worker gets to make its next step
    or can no longer; so every task terminates. *)
Definition fair (s : nat -> sched) (x : nat -> option qact) : Prop :=
  (forall i, q_wake (s i) <> KExit -> exists j, i <= j /\ x j = Some QWake) /\
  (forall i, q_pc (s i) <> RWait -> q_pc (s i) <> RExit -> exists j, i <= j /\ x j = Some QSched) /\
  (forall i w, able (s i) w -> exists j, i <= j /\ (x j = Some (QWorker w) \/ ~ able (s j) w)).

(** A run: an execution from the start, fair, in which nobody shuts the scheduler down. *)
Record good (k : nat) (s : nat -> sched) (x : nat -> option qact) : Prop := {
  g_pos : 0 < k;
  g_init : s 0 = sched_init k;
  g_exec : execution s x;
  g_fair : fair s x;
  g_open : forall i, x i <> Some QEnd
}.

(** A particular run: the threads and a client take turns. *)
Definition turn (k : nat) (s : sched) (i : nat) : option qact :=
  let a := match i mod (3 + k) with
           | 0 => QWake
           | 1 => QSched
           | 2 => QSubmit
           | S (S (S w)) => QWorker w
           end in
  match qexec s a with Some _ => Some a | None => None end.
Fixpoint turns (k : nat) (i : nat) : sched :=
  match i with
  | 0 => sched_init k
  | S i' => let s := turns k i' in
            match turn k s i' with
            | Some a => match qexec s a with Some s' => s' | None => s end
            | None => s
            end
  end.

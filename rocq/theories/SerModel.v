(** The scheduler that runs jobs at once (include/framework/scheduling/SerialScheduler.h,
    Task.h:45-86, statistics.h:54-72).

    Simplifications: a job is a name, a type and the jobs that it schedules while it runs
    (jobs do nothing else that the scheduler can see); durations are left out, a call of
    log_time_data counts the job under its type. *)
From Coq Require Import List Arith Bool.
From Verif Require Import Base.
Import ListNotations.

Inductive job := Job (name type : nat) (body : list job).

Inductive event :=
| EBegin (ts name : nat)      (* Task.h:67-72: the task with this timestamp starts its job *)
| EEnd (ts name : nat).       (* Task.h:74-76: it has returned *)

(** SerialScheduler.h:51, statistics.h:97-100. *)
Record ser := Ser {
  r_counter : nat;
  r_trace : list event;       (* what has happened, oldest first *)
  r_cnt1 : nat;
  r_cnt2 : nat
}.
Definition ser_init : ser := Ser 0 [] 0 0.

Definition emit (e : event) (s : ser) : ser := Ser (r_counter s) (r_trace s ++ [e]) (r_cnt1 s) (r_cnt2 s).

(** statistics.h:54-72. *)
Definition log_time (type : nat) (s : ser) : res ser :=
  match type with
  | 1 => Ok (Ser (r_counter s) (r_trace s) (S (r_cnt1 s)) (r_cnt2 s))
  | 2 => Ok (Ser (r_counter s) (r_trace s) (r_cnt1 s) (S (r_cnt2 s)))
  | _ => Fail FAssert
  end.

(** SerialScheduler.h:31-38 and Task.h:66-85. *)
Fixpoint schedule_job (j : job) (s : ser) : res ser :=
  match j with
  | Job name type body =>
      let ts := r_counter s in
      let s1 := emit (EBegin ts name) (Ser (S (r_counter s)) (r_trace s) (r_cnt1 s) (r_cnt2 s)) in
      do s2 <- (fix run (l : list job) (s : ser) : res ser :=
                  match l with
                  | [] => Ok s
                  | j' :: l' => do s' <- schedule_job j' s; run l' s'
                  end) body s1;
      log_time type (emit (EEnd ts name) s2)
  end.

(** Several calls from outside. *)
Fixpoint schedule_all (l : list job) (s : ser) : res ser :=
  match l with
  | [] => Ok s
  | j :: l' => do s' <- schedule_job j s; schedule_all l' s'
  end.

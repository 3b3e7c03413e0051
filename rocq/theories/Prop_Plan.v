(** The sizes of planned reconstructions (C72), and the serial scheduler that runs them
    (C73). *)
From Coq Require Import List Arith ZArith NArith Lia Bool.
From Verif Require Import Base RecordModel RecordProofs BufferModel MergeModel StructModel ExtModel FlushModel VecModel VecSpec VecProofs
  SerModel SerSpec SerProofs.
Import ListNotations.

(** C72: after any calls of a vector of reconstructions, none of which adds a task of
    some size as a whole, the total is the sum of the sizes of its tasks, unless that
    does not fit 64 bits.  Missing: tasks added as a whole (C72_total_refuted). *)
Theorem C72_total_partial : forall cs v, Forall counted_call cs -> vrun cs rv_empty = Ok v ->
  (sizes (rv_tasks v) < w64)%N -> rv_total v = sizes (rv_tasks v).
Proof. exact total_exact. Qed.
Print Assumptions C72_total_partial.

(** remove_smallest_reconstruction on a vector with tasks takes the first of the
    smallest and leaves the others in their order. *)
Theorem C72_smallest : forall v, rv_tasks v <> [] ->
  exists t a b v', rv_remove_smallest v = Ok (t, v') /\ rv_tasks v = a ++ t :: b /\ rv_tasks v' = a ++ b /\
    (forall x, In x a -> t_reccnt t < t_reccnt x) /\ (forall x, In x b -> t_reccnt t <= t_reccnt x).
Proof. exact smallest_ok. Qed.
Print Assumptions C72_smallest.

Definition vcalls : list vcall := [VAdd 2 3 40; VAdd 1 2 10; VAdd 0 1 10; VAdd 5 6 20; VRemove 3; VSmallest].
Example C72_case : Forall counted_call vcalls /\ vrun vcalls rv_empty = Ok (RV [Task [2] 3 40; Task [0] 1 10] 50) /\
  (sizes ([Task [2] 3 40; Task [0] 1 10])%nat < w64)%N.
Proof. split; [repeat constructor|]. split; vm_compute; reflexivity. Qed.

(** The planner: the vector has the tasks of the plan; under tiering and leveling its
    total is the sum of their sizes, under BSM it is 0. *)
Theorem C72_plan_partial {R : Type} : forall C (s : structure R) n v, plan_vec C s n = Ok v ->
  (exists state, get_tasks C s n = Ok (state, rv_tasks v)) /\
  (c_layout C <> BSM -> rv_total v = (sizes (rv_tasks v) mod w64)%N) /\
  (c_layout C = BSM -> rv_total v = 0%N).
Proof. exact plan_total. Qed.
Print Assumptions C72_plan_partial.

(** The plan of a flush, after two flushes of two records. *)
Definition pl_cfg (l : layout) : cfg := Cfg l TOMBSTONE 1 2 2.
Definition pl_batch : batch kv := ([W 4 (KV 1 10); W 12 (KV 2 20); W 0 rzero; W 0 rzero], View 4 0 2 0).
Definition pl_vec (l : layout) : res rvec :=
  do s <- flush_all by_version (pl_cfg l) st_empty [pl_batch; pl_batch]; plan_vec (pl_cfg l) s 2.
Example C72_plan_case : pl_vec TIERING = Ok (RV [Task [0] 1 4] 4) /\ pl_vec LEVELING = Ok (RV [Task [0] 1 4] 4) /\
  pl_vec BSM = Ok (RV [Task [1; 0] 2 4] 0).
Proof. vm_compute. repeat split. Qed.

(** The total of a BSM plan is not its size; removing its task makes the total wrap. *)
Theorem C72_total_refuted :
  exists C (s : structure kv) n v, plan_vec C s n = Ok v /\ (sizes (rv_tasks v) < w64)%N /\ rv_total v <> sizes (rv_tasks v) /\
  exists t v', rv_remove 0 v = Ok (t, v') /\ rv_tasks v' = [] /\ rv_total v' = (w64 - 4)%N.
Proof.
  exists (pl_cfg BSM). destruct (flush_all by_version (pl_cfg BSM) st_empty [pl_batch; pl_batch]) as [s|f] eqn:E; [|discriminate].
  exists s, 2. assert (P : pl_vec BSM = plan_vec (pl_cfg BSM) s 2) by (unfold pl_vec; rewrite E; reflexivity).
  rewrite <- P. eexists. split; [vm_compute; reflexivity|]. split; [vm_compute; reflexivity|]. split; [vm_compute; discriminate|].
  eexists. eexists. split; [vm_compute; reflexivity|]. split; vm_compute; reflexivity.
Qed.
Print Assumptions C72_total_refuted.

(** A vector without tasks is read out of bounds. *)
Theorem C72_empty_refuted : exists v, rv_remove_smallest v = Fail FOob.
Proof. exists rv_empty. reflexivity. Qed.
Print Assumptions C72_empty_refuted.

(** C73: the serial scheduler runs all jobs, in the order of the calls and with the
    timestamps 0, 1, 2, ...; a job that schedules another one goes on when that has
    ended; at the end none is running, and the two counters are the numbers of jobs of
    their types. *)
Theorem C73_serial_partial : forall l, Forall typed_ok l -> exists s, schedule_all l ser_init = Ok s /\
  started (r_trace s) = combine (seq 0 (length (flat_map names l))) (flat_map names l) /\
  nesting (r_trace s) [] = Some [] /\
  r_cnt1 s = list_sum (map (typed 1) l) /\ r_cnt2 s = list_sum (map (typed 2) l).
Proof. exact serial_runs. Qed.
Print Assumptions C73_serial_partial.

(** A call returns after its job, and the jobs which that has scheduled, have run. *)
Theorem C73_blocks_partial : forall l j, Forall typed_ok l -> typed_ok j ->
  exists s s', schedule_all l ser_init = Ok s /\ schedule_job j s = Ok s' /\
  exists m, r_trace s' = r_trace s ++ m /\ nesting m [] = Some [] /\ map snd (started m) = names j.
Proof. exact serial_blocks. Qed.
Print Assumptions C73_blocks_partial.

Definition ser_jobs : list job := [Job 7 1 []; Job 8 2 [Job 9 1 []; Job 6 2 []]].
Example C73_case : Forall typed_ok ser_jobs /\ schedule_all ser_jobs ser_init =
  Ok (Ser 4 [EBegin 0 7; EEnd 0 7; EBegin 1 8; EBegin 2 9; EEnd 2 9; EBegin 3 6; EEnd 3 6; EEnd 1 8] 2 2).
Proof. split; [repeat (constructor; auto)|vm_compute; reflexivity]. Qed.

(** A job with the default type 0 fails an assertion after it has run. *)
Theorem C73_default_type_refuted : exists j, schedule_job j ser_init = Fail FAssert /\ names j = [5].
Proof. exists (Job 5 0 []). split; reflexivity. Qed.
Print Assumptions C73_default_type_refuted.

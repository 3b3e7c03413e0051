(** When nothing goes wrong (C76).  [safe] allows all executions except those that go
    through one of three windows of the code; [sreach lwm hwm cap safe s s'] says that
    some execution leads from [s] to [s'] without doing so. *)
From Coq Require Import List Arith ZArith NArith Lia Bool.
From Verif Require Import Base RecordModel RecordProofs BufferModel BufConcModel SysModel SysStill SysTrace SoloSpec SafeSpec SafeProofs
  RestProofs Prop_Sys.
Import ListNotations.

Theorem C76_three {R : Type} {RO : RecOps R} :
  forall (s : sys R) x, safe s x <-> leave_ok s x /\ drop_ok s x /\ full_ok s x.
Proof. exact safe_three. Qed.
Print Assumptions C76_three.

(** Then no assertion fails, and no deleted object or null pointer is accessed.  Here
    and below, what is missing: executions through the windows, for which this is false
    (at the end of the file). *)
Theorem C76_no_stop_partial {R : Type} {RO : RecOps R} :
  forall lwm hwm cap n (s : sys R), 0 < hwm -> sreach lwm hwm cap safe (sys_init hwm cap n) s -> y_stop s = None.
Proof. exact safe_runs. Qed.
Print Assumptions C76_no_stop_partial.

(** The reference count of an epoch is the number of jobs on it, and these are all on
    the current epoch, the previous one, or the one that a transition is just taking
    from the one cell to the other. *)
Theorem C76_current_partial {R : Type} {RO : RecOps R} :
  forall lwm hwm cap n (s : sys R) e, 0 < hwm -> sreach lwm hwm cap safe (sys_init hwm cap n) s ->
  c_ep (y_cur s) = Some e -> c_ref (y_cur s) = jobs_on s e.
Proof. exact cur_counts. Qed.
Print Assumptions C76_current_partial.

Theorem C76_previous_partial {R : Type} {RO : RecOps R} :
  forall lwm hwm cap n (s : sys R) e, 0 < hwm -> sreach lwm hwm cap safe (sys_init hwm cap n) s ->
  c_ep (y_prev s) = Some e -> c_ref (y_prev s) = jobs_on s e.
Proof. exact prev_counts. Qed.
Print Assumptions C76_previous_partial.

Theorem C76_jobs_partial {R : Type} {RO : RecOps R} :
  forall lwm hwm cap n (s : sys R) p e, 0 < hwm -> sreach lwm hwm cap safe (sys_init hwm cap n) s ->
  In p (y_pcs s) -> pinned p = Some e ->
  c_ep (y_cur s) = Some e \/ c_ep (y_prev s) = Some e \/ exists m k, In (DPrev m (Cell (Some e) k)) (y_pcs s).
Proof. exact jobs_where. Qed.
Print Assumptions C76_jobs_partial.

(** The reference counts of the two heads of the buffer are the numbers of their views,
    except while a flush is between its two stores. *)
Theorem C76_heads_partial {R : Type} {RO : RecOps R} :
  forall lwm hwm cap n (s : sys R), 0 < hwm -> sreach lwm hwm cap safe (sys_init hwm cap n) s -> head_there s ->
  href (cb_head (cs_buf (y_buf s))) = views_of s (hidx (cb_head (cs_buf (y_buf s)))) /\
  href (cb_old (cs_buf (y_buf s))) = views_of s (hidx (cb_old (cs_buf (y_buf s)))).
Proof. exact head_counts. Qed.
Print Assumptions C76_heads_partial.

(** There is no deadlock: from every state some execution ends all calls, except those
    that wait for the next epoch, and all reconstructions, unless no thread is left to
    carry out the last one. *)
Theorem C76_drains_partial {R : Type} {RO : RecOps R} :
  forall lwm hwm cap n (s : sys R), 0 < hwm -> sreach lwm hwm cap safe (sys_init hwm cap n) s ->
  exists s', sreach lwm hwm cap safe s s' /\ (forall p, In p (y_pcs s') -> at_rest p) /\
    (y_jobs s' = [] /\ y_flag s' = false \/ forall p, In p (y_pcs s') -> p = WWait).
Proof. exact drains. Qed.
Print Assumptions C76_drains_partial.

(** A safe execution: two records; a query on the first epoch reads the buffer, a
    reconstruction has made this epoch the previous one and is advancing the head, and
    a third record is being inserted. *)
Definition safe_case : list (sact kv) :=
  two ++ UCall 1 (UJob KQuery) :: st 1 9 ++ UCall 2 URecon :: st 2 21 ++ UCall 0 (UInsert rc false) :: st 0 3.
Example C76_case :
  match schecked 1 2 4 (fun s x => leaveb s x && dropb s x && fullb s x) init safe_case with
  | Some s =>
      y_stop s = None /\ map pinned (y_pcs s) = [None; Some 0; None] /\ c_ep (y_prev s) = Some 0 /\ c_ref (y_prev s) = 1 /\
      map inserting (y_pcs s) = [true; false; false] /\ map reading (y_pcs s) = [false; true; false] /\
      map rebuilding (y_pcs s) = [false; false; true] /\ head_there s
  | None => False
  end.
Proof. vm_compute. repeat split. Qed.
Example C76_case_safe : exists s, sreach 1 2 4 safe init s /\ map pinned (y_pcs s) = [None; Some 0; None].
Proof. eexists. split; [apply schecked_safe with (l := safe_case); vm_compute; reflexivity|reflexivity]. Qed.

(** Each of the three is needed.  A job that ends while a new epoch becomes current
    fails an assertion. *)
Theorem C76_leave_refuted :
  exists s, sreach 1 2 4 (fun s x => drop_ok s x /\ full_ok s x /\ still s x) init s /\ y_stop s = Some AssertFailed /\
  nth_error (y_pcs s) 1 = Some (SEnd ECurr 0 ToIdle).
Proof.
  eexists. split.
  - apply (schecked_two 1 2 4 _ _ _ _ dropb_ok fullb_ok) with (l := two ++ UCall 1 (UJob KTouch) :: st 1 5 ++ rcn 2 ++ st 1 1).
    vm_compute. reflexivity.
  - split; reflexivity.
Qed.
Print Assumptions C76_leave_refuted.

(** A view released while the head becomes the old one leaves the old head with a
    count that no view accounts for, and the new one without that of a view; this is the
    state of C74_spin_refuted. *)
Theorem C76_drop_refuted :
  exists s, sreach 1 2 4 (fun s x => leave_ok s x /\ full_ok s x /\ still s x) init s /\ y_stop s = None /\ head_there s /\
  y_jobs s = [] /\ y_flag s = false /\
  href (cb_old (cs_buf (y_buf s))) = 1 /\ views_of s (hidx (cb_old (cs_buf (y_buf s)))) = 0 /\
  href (cb_head (cs_buf (y_buf s))) = 0 /\ views_of s (hidx (cb_head (cs_buf (y_buf s)))) = 1.
Proof.
  eexists. split.
  - apply (schecked_two 1 2 4 _ _ _ _ leaveb_ok fullb_ok) with
      (l := two ++ UCall 1 (UJob KCount) :: st 1 13 ++ rcn 2 ++ UCall 0 (UJob KCount) :: st 0 9 ++ st 1 5 ++ st 0 4).
    vm_compute. reflexivity.
  - repeat split.
Qed.
Print Assumptions C76_drop_refuted.

(** A reconstruction that finds the buffer empty cannot advance the head. *)
Theorem C76_empty_refuted :
  exists s, sreach 1 2 4 (fun s x => leave_ok s x /\ drop_ok s x /\ still s x) init s /\ y_stop s = Some AssertFailed /\
  nth_error (y_pcs s) 2 = Some (DAdvW 2).
Proof.
  eexists. split.
  - apply (schecked_two 1 2 4 _ _ _ _ leaveb_ok dropb_ok) with
      (l := ins 0 ra ++ UCall 1 (UInsert rc false) :: st 1 2 ++ trig 0 1 rb ++ rcn 2 ++
            st 1 5 ++ [Alloc 1 2] ++ st 1 6 ++ UCall 2 URecon :: st 2 21). vm_compute. reflexivity.
  - split; reflexivity.
Qed.
Print Assumptions C76_empty_refuted.

(** The life of epochs in any interleaving of any number of threads, and the destructor
    of the index (C59). *)
From Coq Require Import List Arith ZArith NArith Lia Bool.
From Verif Require Import Base RecordModel RecordProofs BufferModel BufConcModel SysModel SysSpec SysLive SysTrace Prop_Sys.
Import ListNotations.

(** C59: no epoch is leaked: each allocated one is next, current or previous, or a thread
    is about to store or delete it. *)
Theorem C59_no_leak {R : Type} {RO : RecOps R} :
  forall lwm hwm cap ok n (s : sys R) e, sreach lwm hwm cap ok (sys_init hwm cap n) s -> y_heap s e <> None -> held s e.
Proof. exact live_held. Qed.
Print Assumptions C59_no_leak.

(** There are never more than three. *)
Theorem C59_at_most_three {R : Type} {RO : RecOps R} :
  forall lwm hwm cap ok n (s : sys R) l, sreach lwm hwm cap ok (sys_init hwm cap n) s -> y_stop s = None -> NoDup l ->
  (forall e, In e l -> y_heap s e <> None) -> length l <= 3.
Proof. exact live_few. Qed.
Print Assumptions C59_at_most_three.

(** The destructor, called while no other call is in progress, goes on when there is no
    next epoch and the running jobs have ended.  Then no reconstruction is waiting, and
    it deletes every epoch, none of them twice. *)
Theorem C59_destructor {R : Type} {RO : RecOps R} :
  forall lwm hwm cap ok n (s : sys R), sreach lwm hwm cap ok (sys_init hwm cap n) s -> y_stop s = None ->
  (forall p, In p (y_pcs s) -> p = SIdle) -> c_ep (y_next s) = None ->
  y_jobs s = [] /\ exists m, destroy s = inl m /\ forall e, m e = None.
Proof. exact destroy_ok. Qed.
Print Assumptions C59_destructor.

(** Three epochs while the second reconstruction runs; two afterwards, when the
    destructor can go on. *)
Example lf_three :
  match play (two ++ rcn 2 ++ ins 0 rc ++ trig 0 2 ra) with
  | Some s => y_heap s 0 <> None /\ y_heap s 1 <> None /\ y_heap s 2 <> None /\ y_stop s = None /\
              y_prev s = Cell (Some 0) 0 /\ y_cur s = Cell (Some 1) 0 /\ y_next s = Cell (Some 2) 0
  | None => False
  end.
Proof. vm_compute. repeat split; discriminate. Qed.
Example lf_idle :
  match play (two ++ rcn 2) with
  | Some s => y_pcs s = [SIdle; SIdle; SIdle] /\ y_next s = null /\ y_stop s = None /\
              y_heap s 0 <> None /\ y_heap s 1 <> None
  | None => False
  end.
Proof. vm_compute. repeat split; discriminate. Qed.

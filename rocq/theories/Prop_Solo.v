(** Which calls end (C74).  [solo lwm hwm cap t k s s'] says that thread [t] makes [k]
    steps from [s] to [s'] while all other threads stand still, wherever they are;
    [over t s'] says that its call has returned or that an assertion has failed. *)
From Coq Require Import List Arith ZArith NArith Lia Bool.
From Verif Require Import Base RecordModel RecordProofs BufferModel BufConcModel BufConcData SysModel SysTrace SoloSpec SoloProofs Prop_Sys.
Import ListNotations.

(** Every thread inside a call can make a step, unless it waits in await_next_epoch(). *)
Theorem C74_step {R : Type} {RO : RecOps R} :
  forall lwm hwm cap ok n (s : sys R) t p, 0 < hwm -> sreach lwm hwm cap ok (sys_init hwm cap n) s -> y_stop s = None ->
  nth_error (y_pcs s) t = Some p -> p <> SIdle -> p <> WWait -> exists x s', own t x /\ sexec lwm hwm cap s x = Some s'.
Proof. exact solo_runs. Qed.
Print Assumptions C74_step.

(** Inserts and erases: in every reachable state, whatever the other threads are doing,
    an insert makes at most 26 more steps ... *)
Theorem C74_insert_steps {R : Type} {RO : RecOps R} :
  forall lwm hwm cap ok n (s : sys R) t p k s', 0 < hwm -> sreach lwm hwm cap ok (sys_init hwm cap n) s ->
  nth_error (y_pcs s) t = Some p -> inserting p = true -> solo lwm hwm cap t k s s' -> k <= 26.
Proof. exact insert_steps. Qed.
Print Assumptions C74_insert_steps.

(** ... and then it is over. *)
Theorem C74_insert {R : Type} {RO : RecOps R} :
  forall lwm hwm cap ok n (s : sys R) t p, 0 < hwm -> sreach lwm hwm cap ok (sys_init hwm cap n) s -> y_stop s = None ->
  nth_error (y_pcs s) t = Some p -> inserting p = true ->
  exists k s', k <= 26 /\ solo lwm hwm cap t k s s' /\ over t s'.
Proof. exact insert_ends. Qed.
Print Assumptions C74_insert.

(** Queries, static structures and sizes: the same, if the current epoch is in one of
    its two cells, the buffer head too, and all references to it are counted there.
    What is missing: a call spins while a transition has taken an epoch or a head from
    one cell and not stored it in the other one, and it may spin for ever once a
    reference has been lost; see below. *)
Theorem C74_read_steps_partial {R : Type} {RO : RecOps R} :
  forall lwm hwm cap ok n (s : sys R) t p k s', 0 < hwm -> sreach lwm hwm cap ok (sys_init hwm cap n) s ->
  nth_error (y_pcs s) t = Some p -> reading p = true -> can_read s -> solo lwm hwm cap t k s s' -> k <= 24 + 2 * hwm.
Proof. exact read_steps. Qed.
Print Assumptions C74_read_steps_partial.

Theorem C74_read_partial {R : Type} {RO : RecOps R} :
  forall lwm hwm cap ok n (s : sys R) t p, 0 < hwm -> sreach lwm hwm cap ok (sys_init hwm cap n) s -> y_stop s = None ->
  nth_error (y_pcs s) t = Some p -> reading p = true -> can_read s ->
  exists k s', k <= 24 + 2 * hwm /\ solo lwm hwm cap t k s s' /\ over t s'.
Proof. exact read_ends. Qed.
Print Assumptions C74_read_partial.

(** Reconstructions: the same, if the previous epoch and the previous head are not
    counted as used any more.  What is missing: a reconstruction waits for the jobs
    on the previous epoch, and for ever once one of them has released another one
    (C49_stuck_forever). *)
Theorem C74_rebuild_steps_partial {R : Type} {RO : RecOps R} :
  forall lwm hwm cap ok n (s : sys R) t p k s', 0 < hwm -> sreach lwm hwm cap ok (sys_init hwm cap n) s ->
  nth_error (y_pcs s) t = Some p -> rebuilding p = true -> can_rebuild s p -> solo lwm hwm cap t k s s' -> k <= 34 + 2 * hwm.
Proof. exact rebuild_steps. Qed.
Print Assumptions C74_rebuild_steps_partial.

Theorem C74_rebuild_partial {R : Type} {RO : RecOps R} :
  forall lwm hwm cap ok n (s : sys R) t p, 0 < hwm -> sreach lwm hwm cap ok (sys_init hwm cap n) s -> y_stop s = None ->
  nth_error (y_pcs s) t = Some p -> rebuilding p = true -> can_rebuild s p ->
  exists k s', k <= 34 + 2 * hwm /\ solo lwm hwm cap t k s s' /\ over t s'.
Proof. exact rebuild_ends. Qed.
Print Assumptions C74_rebuild_partial.

(** A query, an insert and a reconstruction in progress at once; each of them can run to
    its end. *)
Example C74_case :
  match play (two ++ UCall 1 (UJob KQuery) :: st 1 6 ++ UCall 2 URecon :: st 2 9 ++ UCall 0 (UInsert rc false) :: st 0 5) with
  | Some s =>
      map inserting (y_pcs s) = [true; false; false] /\ map reading (y_pcs s) = [false; true; false] /\
      map rebuilding (y_pcs s) = [false; false; true] /\
      c_ep (y_cur s) = Some 0 /\ cs_adv (y_buf s) = VIdle /\
      countb (BufConcModel.holds (hidx (cb_head (cs_buf (y_buf s))))) (cs_pcs (y_buf s)) = 1 /\
      cb_head (cs_buf (y_buf s)) = BH 0 1 /\ c_ref (y_prev s) = 0 /\ href (cb_old (cs_buf (y_buf s))) = 0 /\
      match walk 1 2 4 0 2 s, walk 1 2 4 1 14 s, walk 1 2 4 2 21 s with
      | Some s0, Some s1, Some s2 => nth_error (y_pcs s0) 0 = Some SIdle /\ nth_error (y_pcs s1) 1 = Some SIdle /\
                                     nth_error (y_pcs s2) 2 = Some SIdle
      | _, _, _ => False
      end
  | None => False
  end.
Proof. vm_compute. repeat split. Qed.

(** While a transition stands between taking the current epoch and storing it as the
    previous one, a query makes any number of steps without getting anywhere. *)
Theorem C74_transition_refuted :
  exists s, sreach 1 2 4 still init s /\ y_stop s = None /\ nth_error (y_pcs s) 1 = Some (SGet GLoad (ForJob KQuery (cs_done (y_buf s)))) /\
  (exists n c, nth_error (y_pcs s) 2 = Some (DPrev n c)) /\
  forall k, exists s', solo 1 2 4 1 k s s' /\ ~ over 1 s'.
Proof.
  eexists. split.
  - apply (schecked_still 1 2 4 (two ++ UCall 2 URecon :: st 2 17 ++ [UCall 1 (UJob KQuery)])). vm_compute. reflexivity.
  - split; [reflexivity|]. split; [reflexivity|]. split; [vm_compute; eauto|]. apply (spins 1 2 4 1 1). vm_compute. reflexivity.
Qed.
Print Assumptions C74_transition_refuted.

(** A view destroyed during a flush can give back a reference to the new head instead of
    the old one.  Then get_record_count() never returns, although no other call is in
    progress. *)
Theorem C74_spin_refuted :
  exists s, sreach 1 2 4 still init s /\ y_stop s = None /\ nth_error (y_pcs s) 0 = Some (JRelW 1) /\
  nth_error (y_pcs s) 1 = Some SIdle /\ nth_error (y_pcs s) 2 = Some SIdle /\ y_jobs s = [] /\ y_flag s = false /\
  forall k, exists s', solo 1 2 4 0 k s s' /\ ~ over 0 s'.
Proof.
  eexists. split.
  - apply (schecked_still 1 2 4 (two ++ UCall 1 (UJob KCount) :: st 1 13 ++ rcn 2 ++ UCall 0 (UJob KCount) :: st 0 9 ++ st 1 5 ++ st 0 4)).
    vm_compute. reflexivity.
  - split; [reflexivity|]. split; [reflexivity|]. split; [reflexivity|]. split; [reflexivity|]. split; [reflexivity|]. split; [reflexivity|].
    apply (spins 1 2 4 0 1). vm_compute. reflexivity.
Qed.
Print Assumptions C74_spin_refuted.

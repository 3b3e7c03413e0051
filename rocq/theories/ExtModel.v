(** The dynamic extension under the serial scheduler
    (include/framework/DynamicExtension.h, scheduling/Epoch.h,
    scheduling/SerialScheduler.h).

    Simplifications: jobs run to completion inside schedule_job
    (SerialScheduler.h:31-38), so nothing interleaves; a loop that retries until
    another thread acts is the fault FLoop; epochs are identified by their number;
    shards are values (in the source they are shared between epochs, which matters
    only for tagged deletes seen through an *older* epoch); promises, statistics
    and thread affinity are left out. *)
From Coq Require Import List Arith ZArith NArith Lia Bool.
From Verif Require Import Base RecordModel BufferModel MergeModel StructModel.
Import ListNotations.

Section Ext.
Context {R : Type} {RO : RecOps R}.
Variable B : builders R.
Variable C : cfg.

(** Epoch.h:115-128. *)
Record epoch := Epoch { ep_no : nat; ep_struct : structure R; ep_head : nat }.

(** DynamicExtension.h:54-57, struct epoch_ptr: a pointer and a reference count. *)
Record eptr := EP { ep_ptr : option epoch; ep_ref : nat }.
Definition ep_null : eptr := EP None 0.

(** DynamicExtension.h:381-395, the data members. *)
Record ext := Ext {
  e_buf : buffer R;
  e_cnt : nat;                (* m_epoch_cnt *)
  e_flag : bool;              (* m_reconstruction_scheduled *)
  e_next : eptr;
  e_cur : eptr;
  e_prev : eptr
}.

(** DynamicExtension.h:81-97. *)
Definition ext_new : res ext :=
  do b <- buf_new (c_lwm C) (c_hwm C);
  if match c_layout C with BSM => negb (c_sf C =? 2) | _ => false end
  then Fail FAssert
  else Ok (Ext b 0 false ep_null (EP (Some (Epoch 0 st_empty 0)) 0) ep_null).

(** DynamicExtension.h:431-461. *)
Definition get_active_epoch (e : ext) : res (ext * epoch) :=
  match ep_ptr (e_cur e) with
  | None =>
      match ep_ptr (e_prev e) with
      | None => Fail FLoop
      | Some p =>
          Ok (Ext (e_buf e) (e_cnt e) (e_flag e) (e_next e) (e_cur e)
                  (EP (Some p) (S (ep_ref (e_prev e)))), p)
      end
  | Some p =>
      Ok (Ext (e_buf e) (e_cnt e) (e_flag e) (e_next e)
              (EP (Some p) (S (ep_ref (e_cur e)))) (e_prev e), p)
  end.

(** Pointer comparison of epochs. *)
Definition ep_is (p : option epoch) (ep : epoch) : bool :=
  match p with Some p' => ep_no p' =? ep_no ep | None => false end.

(** DynamicExtension.h:755-793. *)
Definition end_job (e : ext) (ep : epoch) : res ext :=
  if ep_is (ep_ptr (e_prev e)) ep then
    match ep_ref (e_prev e) with
    | O => Fail FAssert
    | S n => Ok (Ext (e_buf e) (e_cnt e) (e_flag e) (e_next e) (e_cur e)
                     (EP (ep_ptr (e_prev e)) n))
    end
  else
    match ep_ptr (e_cur e) with
    | None => Fail FLoop
    | Some _ =>
        match ep_ref (e_cur e) with
        | O => Fail FAssert
        | S n => Ok (Ext (e_buf e) (e_cnt e) (e_flag e) (e_next e)
                         (EP (ep_ptr (e_cur e)) n) (e_prev e))
        end
    end.

(** DynamicExtension.h:516-555, on m_previous_epoch. *)
Definition retire_epoch (e : ext) : res ext :=
  match ep_ptr (e_prev e) with
  | None => Ok e
  | Some _ =>
      if ep_ref (e_prev e) =? 0
      then Ok (Ext (e_buf e) (e_cnt e) (e_flag e) (e_next e) (e_cur e) ep_null)
      else Fail FAssert
  end.

(** DynamicExtension.h:463-492 with Epoch.h:109-112.  A refused advance_head is
    retried for ever (line 481). *)
Definition advance_epoch (e : ext) (head : nat) : res ext :=
  do e1 <- retire_epoch e;
  match ep_ptr (e_next e1) with
  | None => Fail FNull
  | Some nx =>
      do (b, ok) <- buf_advance_head (e_buf e1) head;
      if ok
      then Ok (Ext b (e_cnt e1) (e_flag e1) ep_null
                   (EP (Some (Epoch (ep_no nx) (ep_struct nx) head)) (ep_ref (e_next e1)))
                   (e_cur e1))
      else Fail FLoop
  end.

(** DynamicExtension.h:498-514 with Epoch.h:71-84. *)
Definition create_new_epoch (e : ext) : res ext :=
  match ep_ptr (e_next e) with
  | Some _ => Fail FAssert
  | None =>
      do (e1, ep) <- get_active_epoch e;
      let n := S (e_cnt e1) in
      let e2 := Ext (e_buf e1) n (e_flag e1)
                    (EP (Some (Epoch n (st_copy (ep_struct ep)) (ep_head ep))) 0)
                    (e_cur e1) (e_prev e1) in
      end_job e2 ep
  end.

(** What a reconstruction job does to the structure of the new epoch
    (DynamicExtension.h:688 and 563-590): plan with the high watermark, execute,
    flush the view [v]. *)
Definition reconstruct_struct (st : structure R) (d : list (wrapped R)) (v : view)
  : res (structure R) :=
  do (_, ts) <- get_tasks C st (c_hwm C);
  do st1 <- exec_tasks B C ts st;
  flush_buffer B C st1 d v.

(** DynamicExtension.h:682-696 and 557-607.  The view is moved into the shard
    constructor, so its reference is released before advance_epoch. *)
Definition schedule_reconstruction (e : ext) : res ext :=
  do e1 <- create_new_epoch e;
  match ep_ptr (e_next e1) with
  | None => Fail FNull
  | Some nx =>
      do (b1, v) <- buf_get_view (e_buf e1) (ep_head nx);
      do st' <- reconstruct_struct (ep_struct nx) (b_data b1) v;
      do b2 <- buf_release b1 (v_head v);
      let e2 := Ext b2 (e_cnt e1) (e_flag e1)
                    (EP (Some (Epoch (ep_no nx) st' (ep_head nx))) (ep_ref (e_next e1)))
                    (e_cur e1) (e_prev e1) in
      do e3 <- advance_epoch e2 (v_tail v);
      Ok (Ext (e_buf e3) (e_cnt e3) false (e_next e3) (e_cur e3) (e_prev e3))
  end.

(** DynamicExtension.h:711-722. *)
Definition internal_append (e : ext) (r : R) (ts : bool) : res (ext * nat) :=
  do e1 <-
    (if buf_at_lwm (e_buf e) && negb (e_flag e)
     then schedule_reconstruction
            (Ext (e_buf e) (e_cnt e) true (e_next e) (e_cur e) (e_prev e))
     else Ok e);
  let '(b, n) := buf_append (e_buf e1) r ts in
  Ok (Ext b (e_cnt e1) (e_flag e1) (e_next e1) (e_cur e1) (e_prev e1), n).

(** DynamicExtension.h:133. *)
Definition insert (e : ext) (r : R) : res (ext * nat) := internal_append e r false.

(** DynamicExtension.h:168-188, the erase of the tagging policy.  [tagger] is
    [tagged_delete rec] on the structure of the active epoch. *)
Definition tag_erase (tagger : structure R -> res (option (structure R))) (e : ext) (r : R) : res (ext * nat) :=
  do (b1, v) <- buf_get_view (e_buf e) (hidx (b_head (e_buf e)));
  let e1 := Ext b1 (e_cnt e) (e_flag e) (e_next e) (e_cur e) (e_prev e) in
  do (e2, ep) <- get_active_epoch e1;
  do tagged <- tagger (ep_struct ep);
  match tagged with
  | Some st' =>
      let upd p := match p with
                   | Some q => if ep_no q =? ep_no ep
                               then Some (Epoch (ep_no q) st' (ep_head q)) else Some q
                   | None => None end in
      let e3 := Ext (e_buf e2) (e_cnt e2) (e_flag e2) (e_next e2)
                    (EP (upd (ep_ptr (e_cur e2))) (ep_ref (e_cur e2)))
                    (EP (upd (ep_ptr (e_prev e2))) (ep_ref (e_prev e2))) in
      do e4 <- end_job e3 ep;
      do b2 <- buf_release (e_buf e4) (v_head v);
      Ok (Ext b2 (e_cnt e4) (e_flag e4) (e_next e4) (e_cur e4) (e_prev e4), 1)
  | None =>
      do e4 <- end_job e2 ep;
      let '(d, found) := v_delete_record (b_data (e_buf e4)) v r in
      let b := e_buf e4 in
      let b' := Buf (b_lwm b) (b_hwm b) (b_cap b) (b_tail b) (b_head b) (b_old b) d
                    (b_tscnt b) (b_filter b) in
      do b2 <- buf_release b' (v_head v);
      Ok (Ext b2 (e_cnt e4) (e_flag e4) (e_next e4) (e_cur e4) (e_prev e4),
          if found then 1 else 0)
  end.

(** DynamicExtension.h:159-194. *)
Definition erase (e : ext) (r : R) : res (ext * nat) :=
  match c_del C with
  | TOMBSTONE => internal_append e r true
  | TAGGING => tag_erase (fun st => Ok (tagged_delete r st)) e r
  end.

(** Read-only jobs (counts, queries, static structure): pin the active epoch,
    take its buffer view, run [f], release both
    (e.g. DynamicExtension.h:217-224, 306-346, 609-680). *)
Definition with_epoch {A} (e : ext) (f : structure R -> list (wrapped R) -> view -> res A)
  : res (ext * A) :=
  do (e1, ep) <- get_active_epoch e;
  do (b1, v) <- buf_get_view (e_buf e1) (ep_head ep);
  do a <- f (ep_struct ep) (b_data b1) v;
  do b2 <- buf_release b1 (v_head v);
  do e2 <- end_job (Ext b2 (e_cnt e1) (e_flag e1) (e_next e1) (e_cur e1) (e_prev e1)) ep;
  Ok (e2, a).

(** DynamicExtension.h:217-224. *)
Definition get_record_count (e : ext) : res (ext * nat) :=
  with_epoch e (fun st _ v => Ok (v_count v + st_reccnt st)).

(** DynamicExtension.h:233-240 with BufferView.h:113. *)
Definition get_tombstone_count (e : ext) : res (ext * nat) :=
  with_epoch e (fun st _ v => Ok (v_tscnt v + st_tscnt st)).

(** DynamicExtension.h:250-256. *)
Definition get_height (e : ext) : res (ext * nat) :=
  with_epoch e (fun st _ _ => Ok (st_height st)).

(** DynamicExtension.h:367-372. *)
Definition validate_ts_prop (e : ext) : res (ext * bool) :=
  with_epoch e (fun st _ _ => Ok (validate_tombstone_proportion C st)).

(** DynamicExtension.h:316-323: one combined shard per level that holds records,
    deepest level first. *)
Fixpoint combined_shards (ls : list (level R)) : res (list (shard R)) :=
  match ls with
  | [] => Ok []
  | l :: ls' =>
      if 0 <? lv_reccnt l then
        do o <- lv_combined B l;
        match o with
        | None => Fail FNull
        | Some s => do ss <- combined_shards ls'; Ok (s :: ss)
        end
      else combined_shards ls'
  end.

(** DynamicExtension.h:310-339: on the structure and the buffer view of an epoch. *)
Definition static_on (st : structure R) (d : list (wrapped R)) (v : view) : res (shard R) :=
  do ss <- combined_shards (rev (st_levels st));
  do bs <- (if 0 <? v_count v then do s <- from_view B d v; Ok [s] else Ok []);
  from_shards B (ss ++ bs).

(** DynamicExtension.h:306-346. *)
Definition create_static_structure (e : ext) : res (ext * shard R) := with_epoch e static_on.

(** ** Histories *)

Inductive op := Ins (r : R) | Del (r : R).

Definition step (e : ext) (o : op) : res (ext * nat) :=
  match o with Ins r => insert e r | Del r => erase e r end.

(** A single-threaded history: the final state and the results of the calls. *)
Fixpoint run (e : ext) (ops : list op) : res (ext * list nat) :=
  match ops with
  | [] => Ok (e, [])
  | o :: ops' =>
      do (e1, n) <- step e o;
      do (e2, ns) <- run e1 ops';
      Ok (e2, n :: ns)
  end.

Definition run_new (ops : list op) : res (ext * list nat) :=
  do e <- ext_new; run e ops.

End Ext.
Arguments epoch R : clear implicits.
Arguments eptr R : clear implicits.
Arguments ext R : clear implicits.
Arguments op R : clear implicits.

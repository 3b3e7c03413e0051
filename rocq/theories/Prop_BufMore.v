(** All the public calls of a buffer (C64, C65, C66). *)
From Coq Require Import List Arith ZArith NArith Lia Bool.
From Verif Require Import Base RecordModel RecordProofs BufferModel BufMoreModel BufMoreSpec BufMoreProofs.
Import ListNotations.

(** C64: for any watermarks, capacity and filter and after any calls, the buffer holds
    exactly the entries the calls say: the appended records since the head, in order, the
    first entry for each deleted record tagged.  The count is their number, and the
    tombstone count is not below the number of tombstones among them.  (Truncations come
    before the first advance; C66 is about the others.) *)
Theorem C64_contents {R : Type} {RO : RecOps R} {RL : RecLaws R} :
  forall fp lwm hwm cap (b0 : buffer R) cs b rs,
  buf_create lwm hwm cap = Ok b0 -> crun fp b0 cs = Ok (b, rs) -> trunc_first cs ->
  let k := replay (Known 0 hwm [] 0) cs rs in
  exists b' v ws,
    buf_view b = Ok (b', v) /\ v_head v = k_head k /\ v_tail v = k_head k + length (k_log k) /\
    v_records (b_data b') v = Ok ws /\ map (fun w => (wrec w, is_ts w, is_del w)) ws = k_log k /\
    buf_count64 b = N.of_nat (length (k_log k)) /\ v_tscnt v = k_ts k /\
    count_ts (k_log k) <= k_ts k.
Proof. exact buffer_contents. Qed.
Print Assumptions C64_contents.

(** C64: check_tombstone finds a tombstone exactly when there is one among the entries,
    whatever the filter answers wrongly, and changes nothing; append accepts a record
    exactly when there are fewer entries than the high watermark set last. *)
Theorem C64_answers {R : Type} {RO : RecOps R} {RL : RecLaws R} :
  forall fp lwm hwm cap (b0 : buffer R) cs b rs r,
  buf_create lwm hwm cap = Ok b0 -> crun fp b0 cs = Ok (b, rs) -> trunc_first cs ->
  let k := replay (Known 0 hwm [] 0) cs rs in
  ccall fp b (CChk r) = Ok (b, bit (has_ts r (k_log k))) /\
  (forall ts, exists b', ccall fp b (CApp r ts) = Ok (b', bit (length (k_log k) <? k_hwm k))).
Proof. exact buffer_checks. Qed.
Print Assumptions C64_answers.

(** Capacity 5: a truncation, a raised watermark, a wrap around the ring, a tombstone that
    an advance removes, two copies of one record of which the first is tagged. *)
Definition cx_calls : list (bcall kv) :=
  [CApp (KV 8 8) true; CTrunc; CApp (KV 1 1) false; CApp (KV 1 1) true; CApp (KV 2 2) false;
   CApp (KV 9 9) false; CChk (KV 1 1); CHwm 4; CApp (KV 3 3) false; CAdv 3;
   CChk (KV 1 1); CApp (KV 4 4) false; CApp (KV 3 3) false; CApp (KV 5 5) true;
   CDel (KV 3 3); CDel (KV 7 7); CChk (KV 5 5); CChk (KV 4 4); CLwm 2].

Example C64_case :
  match buf_create 1 3 5 with
  | Ok b0 =>
      match crun (fun _ => true) b0 cx_calls with
      | Ok (b, rs) =>
          rs = [1; 1; 1; 1; 1; 0; 1; 1; 1; 1; 0; 1; 1; 1; 1; 0; 1; 0; 1] /\
          let k := replay (Known 0 3 [] 0) cx_calls rs in
          k_head k = 3 /\ k_hwm k = 4 /\ k_ts k = 2 /\
          k_log k = [(KV 3 3, false, true); (KV 4 4, false, false);
                     (KV 3 3, false, false); (KV 5 5, true, false)]
      | Fail _ => False
      end
  | Fail _ => False
  end /\ trunc_first cx_calls.
Proof.
  split.
  - vm_compute. repeat split; reflexivity.
  - intros pre post n H I. destruct pre as [|c1 pre]; [destruct I|].
    destruct pre as [|c2 pre].
    + injection H as H1 H2. subst c1. destruct I as [I|[]]. discriminate.
    + injection H as H1 H2 H3. subst.
      assert (F : ~ In CTrunc (skipn 2 cx_calls)).
      { cbn. intuition discriminate. }
      apply F. cbn [skipn cx_calls]. rewrite H3. apply in_or_app. right. left. reflexivity.
Qed.

(** C65: delete_record on a buffer that is not empty returns true exactly when there is an
    entry for the record (and tags the first one: C64_contents).  Missing: the empty
    buffer, where the answer can be wrong (below). *)
Theorem C65_delete_partial {R : Type} {RO : RecOps R} {RL : RecLaws R} :
  forall fp lwm hwm cap (b0 : buffer R) cs b rs r,
  buf_create lwm hwm cap = Ok b0 -> crun fp b0 cs = Ok (b, rs) -> trunc_first cs ->
  let k := replay (Known 0 hwm [] 0) cs rs in
  exists b' x, ccall fp b (CDel r) = Ok (b', x) /\
    (k_log k <> [] -> x = bit (has r (k_log k))).
Proof. exact buffer_deletes. Qed.
Print Assumptions C65_delete_partial.

(** In [C64_case] record 3 is found among three entries and record 7 is not. *)
Example C65_case :
  match buf_create 1 3 5 with
  | Ok b0 =>
      match crun (fun _ => true) b0 (firstn 14 cx_calls) with
      | Ok (b, rs) =>
          match ccall (fun _ => false) b (CDel (KV 3 3)), ccall (fun _ => false) b (CDel (KV 7 7)) with
          | Ok (_, x), Ok (_, y) => (x, y) = (1, 0)
          | _, _ => False
          end
      | Fail _ => False
      end
  | Fail _ => False
  end.
Proof. vm_compute. reflexivity. Qed.

(** C65 is false of the code: an empty buffer is searched in full, so deleting a record
    that has already been handed over reports success, and tags the record in the view of
    a reader that still holds the old head. *)
Theorem C65_delete_empty_refuted :
  exists (b0 b b' : buffer kv) cs rs v ws ws',
    buf_create 1 2 0 = Ok b0 /\ crun (fun _ => false) b0 cs = Ok (b, rs) /\ trunc_first cs /\
    k_log (replay (Known 0 2 [] 0) cs rs) = [] /\ buf_count64 b = 0%N /\
    v = View 4 0 2 0 /\ href (b_old b) = 1 /\
    ccall (fun _ => false) b (CDel (KV 1 1)) = Ok (b', 1) /\
    v_records (b_data b) v = Ok ws /\ v_records (b_data b') v = Ok ws' /\
    map (fun w => (wrec w, is_del w)) ws = [(KV 1 1, false); (KV 2 2, false)] /\
    map (fun w => (wrec w, is_del w)) ws' = [(KV 1 1, true); (KV 2 2, false)].
Proof.
  eexists _, _, _, [CApp (KV 1 1) false; CApp (KV 2 2) false; CAcq 0; CAdv 2], _, _, _, _.
  split; [vm_compute; reflexivity|]. split; [vm_compute; reflexivity|].
  split.
  { intros pre post n H. assert (F : ~ In CTrunc [CApp (KV 1 1) false; CApp (KV 2 2) false; CAcq 0; CAdv 2]).
    { cbn. intuition discriminate. }
    exfalso. apply F. rewrite H. apply in_or_app. right. left. reflexivity. }
  split; [vm_compute; reflexivity|]. split; [vm_compute; reflexivity|].
  split; [reflexivity|]. split; [vm_compute; reflexivity|]. split; [vm_compute; reflexivity|].
  split; [vm_compute; reflexivity|]. split; [vm_compute; reflexivity|].
  split; vm_compute; reflexivity.
Qed.
Print Assumptions C65_delete_empty_refuted.

(** C66: truncating a buffer whose head has never been advanced empties it, and it takes
    new records.  Missing: buffers whose head has been advanced (below). *)
Theorem C66_truncate_partial {R : Type} {RO : RecOps R} {RL : RecLaws R} :
  forall fp lwm hwm cap (b0 : buffer R) cs b rs r ts,
  buf_create lwm hwm cap = Ok b0 -> crun fp b0 cs = Ok (b, rs) -> (forall n, ~ In (CAdv n) cs) ->
  let k := replay (Known 0 hwm [] 0) cs rs in
  exists b1 b2,
    ccall fp b CTrunc = Ok (b1, 1) /\ buf_count64 b1 = 0%N /\ b_tscnt b1 = 0 /\
    ccall fp b1 (CChk r) = Ok (b1, 0) /\
    ccall fp b1 (CApp r ts) = Ok (b2, bit (0 <? k_hwm k)).
Proof. exact buffer_truncates. Qed.
Print Assumptions C66_truncate_partial.

(** A full buffer with a tombstone, truncated. *)
Example C66_case :
  match buf_create 1 2 0 with
  | Ok b0 =>
      match crun (fun _ => false) b0 [CApp (KV 1 1) false; CApp (KV 1 1) true; CApp (KV 2 2) false;
              CTrunc; CApp (KV 2 2) false; CChk (KV 1 1)] with
      | Ok (b, rs) => rs = [1; 1; 0; 1; 1; 0] /\ buf_count64 b = 1%N
      | Fail _ => False
      end
  | Fail _ => False
  end.
Proof. vm_compute. split; reflexivity. Qed.

(** C66 is false of the code: truncating moves the tail back to 0 but leaves the head, so
    after an advance to [h] the buffer reports 2^64 - h records and refuses every append. *)
Theorem C66_truncate_refuted {R : Type} {RO : RecOps R} :
  forall b : buffer R, 0 < hidx (b_head b) ->
  (N.of_nat (hidx (b_head b)) + N.of_nat (b_hwm b) <= 2 ^ 64)%N ->
  buf_count64 (buf_truncate b) = (2 ^ 64 - N.of_nat (hidx (b_head b)))%N /\
  forall r ts, buf_append64 (buf_truncate b) r ts = (buf_truncate b, 0).
Proof. exact truncate_bad. Qed.
Print Assumptions C66_truncate_refuted.

Example C66_refuted_case :
  match buf_create 1 2 0 with
  | Ok b0 =>
      match crun (fun _ => false) b0 [CApp (KV 1 1) false; CApp (KV 2 2) false; CAdv 2; CTrunc;
              CApp (KV 3 3) false] with
      | Ok (b, rs) => rs = [1; 1; 1; 1; 0] /\ buf_count64 b = (2 ^ 64 - 2)%N /\ hidx (b_head b) = 2
      | Fail _ => False
      end
  | Fail _ => False
  end.
Proof. vm_compute. repeat split; reflexivity. Qed.

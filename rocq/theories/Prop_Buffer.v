(** The buffer in sequential use (C18, C40, C41). *)
From Coq Require Import List Arith ZArith NArith Lia Bool.
From Verif Require Import Base RecordModel RecordProofs BufferModel BufSpec BufSeqProofs TailModel TailProofs.
Import ListNotations.

(** C18: after any calls, for any watermarks and capacity, a new view lists the
    records appended since the head in order; get(i) and the bulk copy agree. *)
Theorem C18_view_fifo {R : Type} {RO : RecOps R} :
  forall lwm hwm cap (b0 : buffer R) ops b rs,
  buf_create lwm hwm cap = Ok b0 -> brun b0 ops = Ok (b, rs) ->
  let log := appended ops rs in
  let h := head_after 0 ops rs in
  exists b' v ws,
    buf_view b = Ok (b', v) /\ v_head v = h /\ v_tail v = length log /\
    v_records (b_data b') v = Ok ws /\ v_copy (b_data b') v = Ok ws /\
    map (fun w => (wrec w, is_ts w)) ws = skipn h log /\
    forall i w, nth_error ws i = Some w -> v_get (b_data b') v i = Ok w.
Proof. exact view_fifo. Qed.
Print Assumptions C18_view_fifo.

Definition bx_ops : list (bop kv) :=
  [BApp (KV 1 1) false; BApp (KV 2 2) false; BApp (KV 3 3) false; BApp (KV 9 9) false;
   BAcq 0; BAdv 3; BApp (KV 4 4) true; BApp (KV 5 5) false; BApp (KV 6 6) false; BAdv 4].

(** Capacity 5, high watermark 3: the fourth append is refused, the positions 3, 4, 5
    wrap around the ring, the second advance is refused. *)
Example C18_case :
  match buf_create 1 3 5 with
  | Ok b0 =>
      match brun b0 bx_ops with
      | Ok (b, rs) =>
          rs = [1; 1; 1; 0; 1; 1; 1; 1; 1; 0] /\
          skipn (head_after 0 bx_ops rs) (appended bx_ops rs)
            = [(KV 4 4, true); (KV 5 5, false); (KV 6 6, false)] /\
          match buf_view b with
          | Ok (b', v) => (v_head v, v_tail v, v_cap v) = (3, 6, 5)
          | Fail _ => False
          end
      | Fail _ => False
      end
  | Fail _ => False
  end.
Proof. vm_compute. repeat split; reflexivity. Qed.

(** The bulk copy is not safe for a late view of the old head: such a view can cover
    the whole ring, and unless it starts at slot 0 the copy reads past the end. *)
Theorem C18_old_view_copy_refuted :
  exists (b0 b b' : buffer kv) ops rs v,
    buf_create 1 2 0 = Ok b0 /\ brun b0 ops = Ok (b, rs) /\
    buf_get_view b (hidx (b_old b)) = Ok (b', v) /\ v_copy (b_data b') v = Fail FOob.
Proof.
  eexists _, _, _, [BApp (KV 0 0) false; BApp (KV 1 1) false; BAdv 1; BApp (KV 2 2) false; BAdv 3;
                    BApp (KV 3 3) false; BApp (KV 4 4) false], _, _.
  split; [vm_compute; reflexivity|]. split; [vm_compute; reflexivity|].
  split; vm_compute; reflexivity.
Qed.
Print Assumptions C18_old_view_copy_refuted.

(** C40: below 2^31 earlier appends, append reports success iff the buffer is not full,
    stores the record in the slot of its position and touches no other slot, and a refused
    append changes nothing.  Missing: larger tails, where the claim is false (below). *)
Theorem C40_append_partial {R : Type} {RO : RecOps R} :
  forall (b : buffer R) r ts,
  length (b_data b) = b_cap b -> b_cap b <> 0 -> (N.of_nat (b_tail b) < 2 ^ 31)%N ->
  append_stores b r ts.
Proof. exact append32_small. Qed.
Print Assumptions C40_append_partial.

(** C40: with a power of two as capacity, at every position except those that are
    2^32 - 1 modulo 2^32. *)
Theorem C40_append_pow2_partial {R : Type} {RO : RecOps R} :
  forall (b : buffer R) r ts k, length (b_data b) = b_cap b ->
  (k <= 32)%N -> N.of_nat (b_cap b) = (2 ^ k)%N ->
  (N.of_nat (b_tail b) mod 2 ^ 32 <> 2 ^ 32 - 1)%N ->
  append_stores b r ts.
Proof. exact append32_pow2. Qed.
Print Assumptions C40_append_pow2_partial.

(** A buffer that has wrapped around: capacity 5, tail 7, head 5. *)
Example C40_append_case :
  let b := Buf 1 3 5 7 (BH 5 0) (BH 2 0) (repeat (W 0%N (KV 0 0)) 5) 0 [] in
  length (b_data b) = b_cap b /\ b_cap b <> 0 /\ (N.of_nat (b_tail b) < 2 ^ 31)%N /\
  snd (buf_append32 b (KV 1 2) true) = 1 /\
  nth_error (b_data (fst (buf_append32 b (KV 1 2) true))) 2 = Some (W 21%N (KV 1 2)).
Proof. vm_compute. repeat split; try reflexivity; discriminate. Qed.

(** The slot of a position below 2^31 (capacity not a power of two), and of one far above it. *)
Example C40_case :
  append_slot 20000 2147483647 = Some (2147483647 mod 20000)%N /\
  append_slot 16384 4294967299 = Some 3%N.
Proof. vm_compute. split; reflexivity. Qed.

(** C40 is false of the code: after 2^31 appends a capacity that is not a power of
    two puts the record in another slot than the one views read. *)
Theorem C40_wrong_slot_refuted :
  exists cap p s, (cap = 20000 /\ p = 2 ^ 31)%N /\ append_slot cap p = Some s /\ s <> (p mod cap)%N.
Proof.
  eexists _, _, _. split; [split; reflexivity|]. split; [vm_compute; reflexivity|]. vm_compute. discriminate.
Qed.
Print Assumptions C40_wrong_slot_refuted.

(** C40 is false of the code: at position 2^32 - 1 append returns 0 for any capacity
    although the buffer is not full, but the position is used up, so views list a slot that
    was not written. *)
Theorem C40_lost_refuted {R : Type} {RO : RecOps R} :
  forall (b : buffer R) r ts, b_tail b - hidx (b_head b) < b_hwm b ->
  (N.of_nat (b_tail b) mod 2 ^ 32 = 2 ^ 32 - 1)%N ->
  snd (buf_append32 b r ts) = 0 /\ b_tail (fst (buf_append32 b r ts)) = S (b_tail b) /\
  b_data (fst (buf_append32 b r ts)) = b_data b.
Proof. exact append32_lost. Qed.
Print Assumptions C40_lost_refuted.

Example C40_lost_case : append_slot 16384 (2 ^ 32 - 1) = None.
Proof. reflexivity. Qed.

(** C41, sequential use: append returns 0 exactly when [hwm] records are buffered, and
    then changes nothing.  Missing: concurrent appends (Prop_Conc). *)
Theorem C41_sequential_partial {R : Type} {RO : RecOps R} :
  forall lwm hwm cap (b0 : buffer R) ops b rs r ts,
  buf_create lwm hwm cap = Ok b0 -> brun b0 ops = Ok (b, rs) ->
  (snd (buf_append b r ts) = 0 <-> length (appended ops rs) - head_after 0 ops rs = hwm) /\
  (snd (buf_append b r ts) = 0 -> fst (buf_append b r ts) = b).
Proof. exact append_refused. Qed.
Print Assumptions C41_sequential_partial.

(** In [C18_case] the fourth append is refused with three records buffered. *)
Example C41_sequential_case :
  match buf_create 1 3 5 with
  | Ok b0 =>
      match brun b0 (firstn 3 bx_ops) with
      | Ok (b, rs) =>
          length (appended (firstn 3 bx_ops) rs) - head_after 0 (firstn 3 bx_ops) rs = 3 /\
          buf_append b (KV 9 9) false = (b, 0)
      | Fail _ => False
      end
  | Fail _ => False
  end.
Proof. vm_compute. split; reflexivity. Qed.

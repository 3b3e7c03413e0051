(** The mutable buffer and its views, sequential behaviour
    (include/framework/structure/MutableBuffer.h, BufferView.h).

    Simplifications: tail and head positions are unbounded naturals (the 64-bit
    counters do not wrap, and the truncation of the tail to int32_t in append is
    modelled separately in TailModel.v); the Bloom filter is the list of inserted
    records plus an arbitrary set of false positives. *)
From Coq Require Import List Arith ZArith NArith Lia Bool.
From Verif Require Import Base RecordModel.
Import ListNotations.

Section Buffer.
Context {R : Type} {RO : RecOps R}.

(** MutableBuffer.h:37-40, struct buffer_head. *)
Record bhead := BH { hidx : nat; href : nat }.

(** MutableBuffer.h:282-296, the data members. *)
Record buffer := Buf {
  b_lwm : nat;
  b_hwm : nat;
  b_cap : nat;
  b_tail : nat;
  b_head : bhead;
  b_old : bhead;
  b_data : list (wrapped R);
  b_tscnt : nat;
  b_filter : list R
}.

(** BufferView.h:137-147: the data pointer of a view is shared with the buffer,
    so views carry positions only and are read against the buffer's array. *)
Record view := View {
  v_cap : nat;
  v_head : nat;
  v_tail : nat;
  v_tscnt : nat
}.

(** MutableBuffer.h:43-54; capacity 0 selects the default. *)
Definition buf_create (lwm hwm capacity : nat) : res buffer :=
  let cap := if capacity =? 0 then 2 * hwm else capacity in
  if (hwm <? cap) && (lwm <=? hwm) then
    Ok (Buf lwm hwm cap 0 (BH 0 0) (BH hwm 0) (repeat (W 0 rzero) cap) 0 [])
  else Fail FAssert.
Definition buf_new (lwm hwm : nat) : res buffer := buf_create lwm hwm 0.

(** MutableBuffer.h:100, 104 and 106. *)
Definition buf_count (b : buffer) : nat := b_tail b - hidx (b_head b).
Definition buf_is_full (b : buffer) : bool := b_hwm b <=? buf_count b.
Definition buf_at_lwm (b : buffer) : bool := b_lwm b <=? buf_count b.

(** The wrapped record that append stores at slot [pos] (MutableBuffer.h:67-86):
    header 0, tombstone flag, timestamp = slot number, visible flag. *)
Definition append_rec (r : R) (ts : bool) (pos : nat) : wrapped R :=
  let h0 := 0%N in
  let h1 := if ts then h_set_tombstone true h0 else h0 in
  let h2 := h_set_timestamp (N.of_nat pos) h1 in
  let h3 := h_set_visible h2 in
  W h3 r.

(** MutableBuffer.h:61-89 with :232-250 (uncontended try_advance_tail). *)
Definition buf_append (b : buffer) (r : R) (ts : bool) : buffer * nat :=
  if b_hwm b <=? b_tail b - hidx (b_head b) then (b, 0)
  else
    let pos := b_tail b mod b_cap b in
    (Buf (b_lwm b) (b_hwm b) (b_cap b) (S (b_tail b)) (b_head b) (b_old b)
         (set_nth pos (append_rec r ts pos) (b_data b))
         (if ts then S (b_tscnt b) else b_tscnt b)
         (if ts then r :: b_filter b else b_filter b), 1).

(** MutableBuffer.h:91-98. *)
Definition buf_truncate (b : buffer) : buffer :=
  Buf (b_lwm b) (b_hwm b) (b_cap b) 0 (b_head b) (b_old b) (b_data b) 0 [].

(** MutableBuffer.h:177-196: take a reference on the head numbered [target];
    loops forever when neither head has that number. *)
Definition buf_get_head (b : buffer) (target : nat) : res (buffer * nat) :=
  if hidx (b_old b) =? target then
    Ok (Buf (b_lwm b) (b_hwm b) (b_cap b) (b_tail b) (b_head b)
            (BH target (S (href (b_old b)))) (b_data b) (b_tscnt b) (b_filter b), target)
  else if hidx (b_head b) =? target then
    Ok (Buf (b_lwm b) (b_hwm b) (b_cap b) (b_tail b)
            (BH target (S (href (b_head b)))) (b_old b) (b_data b) (b_tscnt b) (b_filter b), target)
  else Fail FLoop.

(** MutableBuffer.h:124-130. *)
Definition buf_get_view (b : buffer) (target : nat) : res (buffer * view) :=
  do (b', h) <- buf_get_head b target;
  Ok (b', View (b_cap b') h (b_tail b') (b_tscnt b')).

(** MutableBuffer.h:132-138: a view of the current head. *)
Definition buf_view (b : buffer) : res (buffer * view) := buf_get_view b (hidx (b_head b)).

(** MutableBuffer.h:254-279: drop a reference; loops when the count is zero. *)
Definition buf_release (b : buffer) (head : nat) : res buffer :=
  if hidx (b_old b) =? head then
    match href (b_old b) with
    | O => Fail FLoop
    | S n => Ok (Buf (b_lwm b) (b_hwm b) (b_cap b) (b_tail b) (b_head b)
                     (BH (hidx (b_old b)) n) (b_data b) (b_tscnt b) (b_filter b))
    end
  else
    match href (b_head b) with
    | O => Fail FLoop
    | S n => Ok (Buf (b_lwm b) (b_hwm b) (b_cap b) (b_tail b)
                     (BH (hidx (b_head b)) n) (b_old b) (b_data b) (b_tscnt b) (b_filter b))
    end.

(** MutableBuffer.h:145-171. *)
Definition buf_advance_head (b : buffer) (new_head : nat) : res (buffer * bool) :=
  if negb (hidx (b_head b) <? new_head) then Fail FAssert
  else if negb (new_head <=? b_tail b) then Fail FAssert
  else if 0 <? href (b_old b) then Ok (b, false)
  else Ok (Buf (b_lwm b) (b_hwm b) (b_cap b) (b_tail b) (BH new_head 0) (b_head b)
               (b_data b) (b_tscnt b) (b_filter b), true).

(** MutableBuffer.h:223-229. *)
Definition buf_available (b : buffer) : nat :=
  if href (b_old b) =? 0 then b_cap b - (b_tail b - hidx (b_head b))
  else b_cap b - (b_tail b - hidx (b_old b)).

(** BufferView.h:51-56, m_start and m_stop. *)
Definition v_start (v : view) : nat := v_head v mod v_cap v.
Definition v_stop (v : view) : nat := v_tail v mod v_cap v.

(** BufferView.h:104. *)
Definition v_count (v : view) : nat := v_tail v - v_head v.

(** BufferView.h:151-155. *)
Definition v_to_idx (v : view) (i : nat) : res nat :=
  let idx := if v_cap v <=? v_start v + i then i - (v_cap v - v_start v)
             else v_start v + i in
  if idx <? v_cap v then Ok idx else Fail FAssert.

(** BufferView.h:115-117. *)
Definition v_get (d : list (wrapped R)) (v : view) (i : nat) : res (wrapped R) :=
  do idx <- v_to_idx v i; nth_res idx d.

(** All records of a view, as the query loops read them:
    [for (i = 0; i < get_record_count(); i++) get(i)]. *)
Definition v_records (d : list (wrapped R)) (v : view) : res (list (wrapped R)) :=
  map_res (v_get d v) (seq 0 (v_count v)).

(** memcpy of [n] records starting at slot [i]: a fault if it leaves the array. *)
Definition mem_read (d : list (wrapped R)) (i n : nat) : res (list (wrapped R)) :=
  if i + n <=? length d then Ok (firstn n (skipn i d)) else Fail FOob.

(** BufferView.h:119-133. *)
Definition v_copy (d : list (wrapped R)) (v : view) : res (list (wrapped R)) :=
  if v_stop v <? v_start v then
    let split_idx := v_cap v - v_start v in
    do a <- mem_read d (v_start v) split_idx;
    do b <- mem_read d 0 (v_stop v);
    Ok (a ++ b)
  else mem_read d (v_start v) (v_count v).

(** Scan of the slots [i .. i+n) for the first record equal to [r]. *)
Fixpoint scan_slots (d : list (wrapped R)) (r : R) (i n : nat) : option nat :=
  match n with
  | O => None
  | S n' =>
      match nth_error d i with
      | Some w => if req (wrec w) r then Some i else scan_slots d r (S i) n'
      | None => None
      end
  end.

(** BufferView.h:77-102: returns the updated array and the result. *)
Definition v_delete_record (d : list (wrapped R)) (v : view) (r : R) : list (wrapped R) * bool :=
  let mark i := match nth_error d i with
                | Some w => set_nth i (set_delete w) d
                | None => d end in
  if v_start v <? v_stop v then
    match scan_slots d r (v_start v) (v_stop v - v_start v) with
    | Some i => (mark i, true)
    | None => (d, false)
    end
  else
    match scan_slots d r (v_start v) (v_cap v - v_start v) with
    | Some i => (mark i, true)
    | None =>
        match scan_slots d r 0 (v_stop v) with
        | Some i => (mark i, true)
        | None => (d, false)
        end
    end.

(** BufferView.h:64-75; [fp] is the set of false positives of the filter. *)
Definition v_check_tombstone (fp : R -> bool) (flt : list R) (d : list (wrapped R))
    (v : view) (r : R) : res bool :=
  if negb (existsb (req r) flt || fp r) then Ok false
  else
    do l <- v_records d v;
    Ok (existsb (fun w => req (wrec w) r && is_ts w) l).

End Buffer.
Arguments buffer R : clear implicits.

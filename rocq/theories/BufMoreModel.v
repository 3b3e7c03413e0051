(** The buffer as an object of its own: all its public calls, including those the index
    itself never makes (include/framework/structure/MutableBuffer.h, BufferView.h).

    Simplifications: as in BufferModel.v, except that differences of two positions are
    taken modulo 2^64 as in the code, so that a tail before the head is represented. *)
From Coq Require Import List Arith ZArith NArith Lia Bool.
From Verif Require Import Base RecordModel BufferModel.
Import ListNotations.

Section BufMore.
Context {R : Type} {RO : RecOps R}.

(** Difference of two size_t positions. *)
Definition sub64 (a b : nat) : N :=
  if b <=? a then N.of_nat (a - b) else (2 ^ 64 - N.of_nat (b - a))%N.

(** MutableBuffer.h:100-106. *)
Definition buf_count64 (b : buffer R) : N := sub64 (b_tail b) (hidx (b_head b)).
Definition buf_is_full64 (b : buffer R) : bool := (N.of_nat (b_hwm b) <=? buf_count64 b)%N.
Definition buf_at_lwm64 (b : buffer R) : bool := (N.of_nat (b_lwm b) <=? buf_count64 b)%N.

(** MutableBuffer.h:223-229, with the subtractions of size_t. *)
Definition buf_available64 (b : buffer R) : N :=
  let from := if href (b_old b) =? 0 then hidx (b_head b) else hidx (b_old b) in
  ((N.of_nat (b_cap b) + 2 ^ 64 - sub64 (b_tail b) from) mod 2 ^ 64)%N.

(** MutableBuffer.h:61-89 with :232-250 (uncontended try_advance_tail). *)
Definition buf_append64 (b : buffer R) (r : R) (ts : bool) : buffer R * nat :=
  if buf_is_full64 b then (b, 0)
  else
    let pos := b_tail b mod b_cap b in
    (Buf (b_lwm b) (b_hwm b) (b_cap b) (S (b_tail b)) (b_head b) (b_old b)
         (set_nth pos (append_rec r ts pos) (b_data b))
         (if ts then S (b_tscnt b) else b_tscnt b)
         (if ts then r :: b_filter b else b_filter b), 1).

(** [b] with another array. *)
Definition with_data (b : buffer R) (d : list (wrapped R)) : buffer R :=
  Buf (b_lwm b) (b_hwm b) (b_cap b) (b_tail b) (b_head b) (b_old b) d (b_tscnt b) (b_filter b).

(** MutableBuffer.h:110-112: the view lives until the call returns. *)
Definition buf_delete_record (b : buffer R) (r : R) : res (buffer R * bool) :=
  do (b1, v) <- buf_view b;
  let '(d, found) := v_delete_record (b_data b1) v r in
  do b2 <- buf_release (with_data b1 d) (v_head v);
  Ok (b2, found).

(** BufferView.h:64-75, with the count modulo 2^64: when the tail is before the head the
    loop leaves the ring and fails the assertion of to_idx (a match met before that is
    not modelled). *)
Definition v_check64 (fp : R -> bool) (flt : list R) (d : list (wrapped R))
    (v : view) (r : R) : res bool :=
  if negb (existsb (req r) flt || fp r) then Ok false
  else if v_tail v <? v_head v then Fail FAssert
  else v_check_tombstone fp flt d v r.

(** MutableBuffer.h:114-116. *)
Definition buf_check_tombstone (fp : R -> bool) (b : buffer R) (r : R) : res (buffer R * bool) :=
  do (b1, v) <- buf_view b;
  do x <- v_check64 fp (b_filter b1) (b_data b1) v r;
  do b2 <- buf_release b1 (v_head v);
  Ok (b2, x).

(** MutableBuffer.h:198-201. *)
Definition buf_set_lwm (b : buffer R) (n : nat) : res (buffer R) :=
  if n <? b_hwm b then
    Ok (Buf n (b_hwm b) (b_cap b) (b_tail b) (b_head b) (b_old b) (b_data b) (b_tscnt b) (b_filter b))
  else Fail FAssert.

(** MutableBuffer.h:205-209. *)
Definition buf_set_hwm (b : buffer R) (n : nat) : res (buffer R) :=
  if (b_lwm b <? n) && (n <? b_cap b) then
    Ok (Buf (b_lwm b) n (b_cap b) (b_tail b) (b_head b) (b_old b) (b_data b) (b_tscnt b) (b_filter b))
  else Fail FAssert.

End BufMore.

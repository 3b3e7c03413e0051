(** The integer conversions of MutableBuffer::append
    (include/framework/structure/MutableBuffer.h:61-89, 232-250). *)
From Coq Require Import List Arith ZArith NArith Lia Bool.
From Verif Require Import Base RecordModel BufferModel.
Import ListNotations.

(** Line 62-63: the int64_t returned by try_advance_tail stored in an int32_t
    (two's complement). *)
Definition to_i32 (p : N) : Z :=
  let u := (Z.of_N p mod 2 ^ 32)%Z in
  if (u <? 2 ^ 31)%Z then u else (u - 2 ^ 32)%Z.

(** An int32_t operand next to a size_t becomes a size_t. *)
Definition to_size_t (t : Z) : N := Z.to_N (t mod 2 ^ 64).

(** Line 63-76: the slot used for the reserved position [p], or [None] when the
    converted position equals -1 and append returns 0. *)
Definition append_slot (cap p : N) : option N :=
  let t := to_i32 p in
  if (t =? -1)%Z then None else Some (to_size_t t mod cap)%N.

Section Append32.
Context {R : Type} {RO : RecOps R}.

(** MutableBuffer.h:61-89 with the conversions: the tail is advanced before the
    comparison with -1. *)
Definition buf_append32 (b : buffer R) (r : R) (ts : bool) : buffer R * nat :=
  if b_hwm b <=? b_tail b - hidx (b_head b) then (b, 0)
  else
    match append_slot (N.of_nat (b_cap b)) (N.of_nat (b_tail b)) with
    | None =>
        (Buf (b_lwm b) (b_hwm b) (b_cap b) (S (b_tail b)) (b_head b) (b_old b)
             (b_data b) (b_tscnt b) (b_filter b), 0)
    | Some slot =>
        let pos := N.to_nat slot in
        (Buf (b_lwm b) (b_hwm b) (b_cap b) (S (b_tail b)) (b_head b) (b_old b)
             (set_nth pos (append_rec r ts pos) (b_data b))
             (if ts then S (b_tscnt b) else b_tscnt b)
             (if ts then r :: b_filter b else b_filter b), 1)
    end.

(** What one append should do: report success iff the buffer is not full, and then
    store the visible record in the slot of its position and nowhere else. *)
Definition append_stores (b : buffer R) (r : R) (ts : bool) : Prop :=
  let b' := fst (buf_append32 b r ts) in
  let ok := snd (buf_append32 b r ts) in
  (ok = 0 /\ b_hwm b <= b_tail b - hidx (b_head b) /\ b' = b) \/
  (ok = 1 /\ b_tail b - hidx (b_head b) < b_hwm b /\ b_tail b' = S (b_tail b) /\
   (exists w, nth_error (b_data b') (b_tail b mod b_cap b) = Some w /\
      wrec w = r /\ is_ts w = ts /\ is_vis w = true /\ is_del w = false) /\
   (forall i, i <> b_tail b mod b_cap b -> nth_error (b_data b') i = nth_error (b_data b) i)).

End Append32.

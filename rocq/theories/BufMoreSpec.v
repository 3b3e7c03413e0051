(** All the calls on one buffer, and what they say about its contents. *)
From Coq Require Import List Arith ZArith NArith Lia Bool.
From Verif Require Import Base RecordModel BufferModel BufMoreModel.
Import ListNotations.

Section BufMoreSpec.
Context {R : Type} {RO : RecOps R}.

(** Append a record or tombstone, advance the head, take and release a view of the head
    with the given number, delete (tag) a record, look for a tombstone, truncate, set the
    watermarks. *)
Inductive bcall :=
| CApp (r : R) (ts : bool)
| CAdv (n : nat)
| CAcq (h : nat)
| CRel (h : nat)
| CDel (r : R)
| CChk (r : R)
| CTrunc
| CLwm (n : nat)
| CHwm (n : nat).

(** The result of a call: 1 for success or true, 0 otherwise. *)
Definition bit (x : bool) : nat := if x then 1 else 0.

Definition ccall (fp : R -> bool) (b : buffer R) (c : bcall) : res (buffer R * nat) :=
  match c with
  | CApp r ts => Ok (buf_append64 b r ts)
  | CAdv n => do (b', x) <- buf_advance_head b n; Ok (b', bit x)
  | CAcq h => do (b', _) <- buf_get_view b h; Ok (b', 1)
  | CRel h => do b' <- buf_release b h; Ok (b', 1)
  | CDel r => do (b', x) <- buf_delete_record b r; Ok (b', bit x)
  | CChk r => do (b', x) <- buf_check_tombstone fp b r; Ok (b', bit x)
  | CTrunc => Ok (buf_truncate b, 1)
  | CLwm n => do b' <- buf_set_lwm b n; Ok (b', 1)
  | CHwm n => do b' <- buf_set_hwm b n; Ok (b', 1)
  end.

Fixpoint crun (fp : R -> bool) (b : buffer R) (cs : list bcall) : res (buffer R * list nat) :=
  match cs with
  | [] => Ok (b, [])
  | c :: cs' =>
      do (b1, x) <- ccall fp b c;
      do (b2, xs) <- crun fp b1 cs';
      Ok (b2, x :: xs)
  end.

(** What a client knows of the buffer: the head, the high watermark, the entries since the
    head (record, is it a tombstone, is it tagged) and the number of tombstones ever
    appended since the last truncation. *)
Definition entry : Type := R * bool * bool.
Record known := Known {
  k_head : nat;
  k_hwm : nat;
  k_log : list entry;
  k_ts : nat
}.

(** Tag the first entry for [r]. *)
Fixpoint tag_first (r : R) (l : list entry) : list entry :=
  match l with
  | [] => []
  | (x, ts, tg) :: l' => if req x r then (x, ts, true) :: l' else (x, ts, tg) :: tag_first r l'
  end.

(** Is there an entry, or a tombstone, for [r]? *)
Definition has (r : R) (l : list entry) : bool := existsb (fun e => req (fst (fst e)) r) l.
Definition has_ts (r : R) (l : list entry) : bool :=
  existsb (fun e => req (fst (fst e)) r && snd (fst e)) l.
Definition count_ts (l : list entry) : nat := length (filter (fun e => snd (fst e)) l).

(** One call that returned [x]. *)
Definition learn (k : known) (c : bcall) (x : nat) : known :=
  match c, x with
  | CApp r ts, 1 => Known (k_head k) (k_hwm k) (k_log k ++ [(r, ts, false)]) (bit ts + k_ts k)
  | CAdv n, 1 => Known n (k_hwm k) (skipn (n - k_head k) (k_log k)) (k_ts k)
  | CDel r, _ => Known (k_head k) (k_hwm k) (tag_first r (k_log k)) (k_ts k)
  | CTrunc, _ => Known (k_head k) (k_hwm k) [] 0
  | CHwm n, _ => Known (k_head k) n (k_log k) (k_ts k)
  | _, _ => k
  end.

Fixpoint replay (k : known) (cs : list bcall) (rs : list nat) : known :=
  match cs, rs with
  | c :: cs', x :: rs' => replay (learn k c x) cs' rs'
  | _, _ => k
  end.

(** No truncation after an advance. *)
Definition trunc_first (cs : list bcall) : Prop :=
  forall pre post n, cs = pre ++ CTrunc :: post -> ~ In (CAdv n) pre.

End BufMoreSpec.
Arguments bcall R : clear implicits.
Arguments known R : clear implicits.
Arguments entry R : clear implicits.

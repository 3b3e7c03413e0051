(** The mutable buffer under concurrency, one atomic access per step
    (include/framework/structure/MutableBuffer.h).

    Simplifications: memory is sequentially consistent (all shared counters are
    std::atomic with the default ordering; the plain writes of a slot are single
    steps); counters are unbounded (TailModel.v has the int32_t conversion);
    m_tscnt, the Bloom filter and m_active_head_advance are left out, nothing here
    reads them.  advance_head is called by one thread at a time: only
    DynamicExtension::reconstruction calls it, see C23. *)
From Coq Require Import List Arith ZArith NArith Lia Bool.
From Verif Require Import Base RecordModel BufferModel.
Import ListNotations.

Section Conc.
Context {R : Type} {RO : RecOps R}.

(** m_hwm and m_cap do not change (set_high_watermark is not called). *)
Variables hwm cap : nat.

(** The shared members, MutableBuffer.h:285-290. *)
Record cbuf := CB {
  cb_tail : nat;
  cb_head : bhead;
  cb_old : bhead;
  cb_data : list (wrapped R)
}.

(** What an appending or viewing thread does next.  The numbers are lines of
    MutableBuffer.h. *)
Inductive pc :=
| Idle
(* append *)
| ALoad (r : R) (ts : bool)                 (* 233: load m_tail *)
| AHead (r : R) (ts : bool) (old : nat)     (* 236: load m_head, compare *)
| ACas (r : R) (ts : bool) (old : nat)      (* 240: compare_exchange *)
| ARetry (r : R) (ts : bool) (old : nat)    (* 242: load m_tail, compare *)
| ARefused                                  (* 64: return 0 *)
| AWrite (r : R) (ts : bool) (p : nat)      (* 77: m_data[pos] = wrec *)
| AStamp (r : R) (ts : bool) (p : nat)      (* 78: set_timestamp *)
| AVis (r : R) (ts : bool) (p : nat)        (* 86: set_visible, return 1 *)
(* get_buffer_view, get_head *)
| GNow                                      (* 133: load m_head *)
| GOld (t : nat)                            (* 182: compare m_old_head *)
| GOldLd (t : nat)                          (* 183: load m_old_head *)
| GOldCas (t : nat) (cur : bhead)           (* 186: compare_exchange *)
| GCur (t : nat)                            (* 187: compare m_head *)
| GCurLd (t : nat)                          (* 188: load m_head *)
| GCurCas (t : nat) (cur : bhead)           (* 191: compare_exchange *)
| GTail (t : nat)                           (* 128: load m_tail *)
| Hold (h tl : nat)                         (* a view of positions h .. tl-1 *)
(* release_head_reference *)
| ROld (h : nat)                            (* 259: compare m_old_head *)
| ROldLd (h : nat)                          (* 260: load m_old_head *)
| ROldCas (h : nat) (cur : bhead)           (* 264: compare_exchange *)
| RCurLd (h : nat)                          (* 268: load m_head *)
| RCurCas (h : nat) (cur : bhead).          (* 273: compare_exchange *)

(** What the thread that advances the head does next. *)
Inductive vpc :=
| VIdle
| VHead (n : nat)                  (* 146: assert(new_head > m_head) *)
| VTail (n : nat)                  (* 147: assert(new_head <= m_tail) *)
| VRef (n : nat)                   (* 150: m_old_head.refcnt > 0 *)
| VLoad (n : nat)                  (* 163: load m_head *)
| VCas (n : nat) (cur : bhead)     (* 164: compare_exchange *)
| VOld (n : nat) (cur : bhead)     (* 167: store m_old_head *)
| VCrash.                          (* an assertion failed *)

Definition head_eqb (a b : bhead) : bool := (hidx a =? hidx b) && (href a =? href b).

Definition with_tail (b : cbuf) (t : nat) : cbuf := CB t (cb_head b) (cb_old b) (cb_data b).
Definition with_head (b : cbuf) (h : bhead) : cbuf := CB (cb_tail b) h (cb_old b) (cb_data b).
Definition with_old (b : cbuf) (h : bhead) : cbuf := CB (cb_tail b) (cb_head b) h (cb_data b).
Definition with_slot (b : cbuf) (i : nat) (f : wrapped R -> wrapped R) : cbuf :=
  CB (cb_tail b) (cb_head b) (cb_old b)
     (match nth_error (cb_data b) i with
      | Some w => set_nth i (f w) (cb_data b)
      | None => cb_data b
      end).

(** The header written by line 77, and the two updates of the slot after it. *)
Definition fresh (r : R) (ts : bool) : wrapped R :=
  W (if ts then h_set_tombstone true 0 else 0%N) r.
Definition stamp (i : nat) (w : wrapped R) : wrapped R :=
  W (h_set_timestamp (N.of_nat i) (hdr w)) (wrec w).
Definition show (w : wrapped R) : wrapped R := W (h_set_visible (hdr w)) (wrec w).

(** One step of an appending or viewing thread. *)
Definition exec (b : cbuf) (c : pc) : option (cbuf * pc) :=
  match c with
  | Idle | Hold _ _ => None
  | ALoad r ts => Some (b, AHead r ts (cb_tail b))
  | AHead r ts old =>
      (* size_t: old - head is huge when old < head *)
      let h := hidx (cb_head b) in
      Some (b, if (old <? h) || (hwm <=? old - h) then ARefused else ACas r ts old)
  | ACas r ts old =>
      if cb_tail b =? old then Some (with_tail b (S old), AWrite r ts old)
      else Some (b, ARetry r ts (cb_tail b))
  | ARetry r ts old => Some (b, if hwm <=? cb_tail b then ARefused else ACas r ts old)
  | ARefused => Some (b, Idle)
  | AWrite r ts p => Some (with_slot b (p mod cap) (fun _ => fresh r ts), AStamp r ts p)
  | AStamp r ts p => Some (with_slot b (p mod cap) (stamp (p mod cap)), AVis r ts p)
  | AVis r ts p => Some (with_slot b (p mod cap) show, Idle)
  | GNow => Some (b, GOld (hidx (cb_head b)))
  | GOld t => Some (b, if hidx (cb_old b) =? t then GOldLd t else GCur t)
  | GOldLd t => Some (b, GOldCas t (BH t (href (cb_old b))))
  | GOldCas t cur =>
      if head_eqb (cb_old b) cur then Some (with_old b (BH t (S (href cur))), GTail t)
      else Some (b, GOld t)
  | GCur t => Some (b, if hidx (cb_head b) =? t then GCurLd t else GOld t)
  | GCurLd t => Some (b, GCurCas t (BH t (href (cb_head b))))
  | GCurCas t cur =>
      if head_eqb (cb_head b) cur then Some (with_head b (BH t (S (href cur))), GTail t)
      else Some (b, GOld t)
  | GTail t => Some (b, Hold t (cb_tail b))
  | ROld h => Some (b, if hidx (cb_old b) =? h then ROldLd h else RCurLd h)
  | ROldLd h =>
      Some (b, if href (cb_old b) =? 0 then ROld h else ROldCas h (cb_old b))
  | ROldCas h cur =>
      if head_eqb (cb_old b) cur then Some (with_old b (BH (hidx cur) (href cur - 1)), Idle)
      else Some (b, ROld h)
  | RCurLd h =>
      Some (b, if href (cb_head b) =? 0 then ROld h else RCurCas h (cb_head b))
  | RCurCas h cur =>
      if head_eqb (cb_head b) cur then Some (with_head b (BH (hidx cur) (href cur - 1)), Idle)
      else Some (b, ROld h)
  end.

(** One step of advance_head (145-171); a refused advance returns to [VIdle] from
    [VRef], a successful one from [VOld]. *)
Definition vexec (b : cbuf) (c : vpc) : option (cbuf * vpc) :=
  match c with
  | VIdle | VCrash => None
  | VHead n => Some (b, if hidx (cb_head b) <? n then VTail n else VCrash)
  | VTail n => Some (b, if n <=? cb_tail b then VRef n else VCrash)
  | VRef n => Some (b, if 0 <? href (cb_old b) then VIdle else VLoad n)
  | VLoad n => Some (b, VCas n (cb_head b))
  | VCas n cur =>
      if head_eqb (cb_head b) cur then Some (with_head b (BH n 0), VOld n cur)
      else Some (b, VLoad n)
  | VOld n cur => Some (with_old b cur, VIdle)
  end.

(** Any number of threads, the advancing thread, and (for stating properties only)
    the list of appends that returned 1, with their positions. *)
Record cstate := CS {
  cs_buf : cbuf;
  cs_pcs : list pc;
  cs_adv : vpc;
  cs_done : list (nat * (R * bool))
}.

Definition cs_init (threads : nat) : cstate :=
  CS (CB 0 (BH 0 0) (BH hwm 0) (repeat (W 0 rzero) cap)) (repeat Idle threads) VIdle [].

(** Calls a client thread can make; [View t] is get_buffer_view(t), [ViewNow]
    get_buffer_view(), [Release] the destructor of a view. *)
Inductive call := Append (r : R) (ts : bool) | View_ (t : nat) | ViewNow | Release.

Definition begin (c : call) (p : pc) : option pc :=
  match c, p with
  | Append r ts, Idle => Some (ALoad r ts)
  | View_ t, Idle => Some (GOld t)
  | ViewNow, Idle => Some GNow
  | Release, Hold h _ => Some (ROld h)
  | _, _ => None
  end.

Inductive act :=
| Call (t : nat) (c : call)     (* thread t starts a call *)
| Step (t : nat)                (* thread t makes one step *)
| Advance (n : nat)             (* advance_head(n) is called *)
| AdvStep.                      (* advance_head makes one step *)

Definition cexec (s : cstate) (a : act) : option cstate :=
  match a with
  | Call t c =>
      match nth_error (cs_pcs s) t with
      | Some p =>
          match begin c p with
          | Some p' => Some (CS (cs_buf s) (set_nth t p' (cs_pcs s)) (cs_adv s) (cs_done s))
          | None => None
          end
      | None => None
      end
  | Step t =>
      match nth_error (cs_pcs s) t with
      | Some p =>
          match exec (cs_buf s) p with
          | Some (b', p') =>
              Some (CS b' (set_nth t p' (cs_pcs s)) (cs_adv s)
                       (match p with AVis r ts q => (q, (r, ts)) :: cs_done s | _ => cs_done s end))
          | None => None
          end
      | None => None
      end
  | Advance n =>
      match cs_adv s with
      | VIdle => Some (CS (cs_buf s) (cs_pcs s) (VHead n) (cs_done s))
      | _ => None
      end
  | AdvStep =>
      match vexec (cs_buf s) (cs_adv s) with
      | Some (b', v') => Some (CS b' (cs_pcs s) v' (cs_done s))
      | None => None
      end
  end.

(** A whole schedule. *)
Fixpoint csched (s : cstate) (l : list act) : option cstate :=
  match l with
  | [] => Some s
  | a :: l' => match cexec s a with Some s' => csched s' l' | None => None end
  end.

(** States reachable with actions that satisfy [ok]. *)
Inductive creach (ok : cstate -> act -> Prop) : cstate -> cstate -> Prop :=
| cr_refl : forall s, creach ok s s
| cr_step : forall s s1 a s2, creach ok s s1 -> ok s1 a -> cexec s1 a = Some s2 -> creach ok s s2.

(** ** Vocabulary of the properties *)

(** Number of buffered records. *)
Definition cb_count (b : cbuf) : nat := cb_tail b - hidx (cb_head b).

(** Positions reserved by threads that have not returned. *)
Definition pc_pos (p : pc) : list nat :=
  match p with AWrite _ _ q | AStamp _ _ q | AVis _ _ q => [q] | _ => [] end.
Definition in_flight (s : cstate) : list nat := flat_map pc_pos (cs_pcs s).

(** Threads with a reference on the head numbered [h] (from the successful
    compare_exchange to the one that gives it back). *)
Definition holds (h : nat) (p : pc) : bool :=
  match p with
  | GTail t => t =? h
  | Hold t _ | ROld t | ROldLd t | ROldCas t _ | RCurLd t | RCurCas t _ => t =? h
  | _ => false
  end.
(** Threads that are trying to get one. *)
Definition seeks (p : pc) : option nat :=
  match p with
  | GOld t | GOldLd t | GOldCas t _ | GCur t | GCurLd t | GCurCas t _ => Some t
  | _ => None
  end.

(** ** The discipline of the callers *)

(** The head number that the active epoch shows to its jobs: the new epoch is
    installed only after advance_head has returned
    (DynamicExtension.h:481-485). *)
Definition base (s : cstate) : nat :=
  match cs_adv s with
  | VOld n cur => hidx cur
  | _ => hidx (cb_head (cs_buf s))
  end.

(** How jobs and reconstructions use the buffer: a view is taken of the active
    epoch's head, or of the previous epoch's head between two transitions; a
    transition starts after the previous epoch is retired, so nobody is still
    about to take a view of its head (DynamicExtension.h:463-485, 580, 615). *)
Definition epochs_ok (s : cstate) (a : act) : Prop :=
  match a with
  | Call _ (View_ t) =>
      t = base s \/
      (cs_adv s = VIdle /\ t = hidx (cb_old (cs_buf s)) /\ t < hidx (cb_head (cs_buf s)))
  | Call _ ViewNow => False
  | Advance n => forall p t, In p (cs_pcs s) -> seeks p = Some t -> t = hidx (cb_head (cs_buf s))
  | _ => True
  end.

(** ... and the flushed positions have been reserved by appends that have all
    returned.  The code does not ensure this. *)
Definition quiet (s : cstate) (a : act) : Prop :=
  match a with
  | Advance n => n <= cb_tail (cs_buf s) /\ forall p, In p (in_flight s) -> n <= p
  | _ => True
  end.

Definition disciplined (s : cstate) (a : act) : Prop := epochs_ok s a /\ quiet s a.

(** The same for the appends into the slots [SL] only. *)
Definition quiet_on (SL : nat -> Prop) (s : cstate) (a : act) : Prop :=
  match a with
  | Advance n => n <= cb_tail (cs_buf s) /\ forall p, In p (in_flight s) -> SL (p mod cap) -> n <= p
  | _ => True
  end.
Definition disciplined_on (SL : nat -> Prop) (s : cstate) (a : act) : Prop := epochs_ok s a /\ quiet_on SL s a.

End Conc.
Arguments cbuf R : clear implicits.
Arguments cstate R : clear implicits.
Arguments pc R : clear implicits.
Arguments act R : clear implicits.
Arguments call R : clear implicits.

(** The dynamic extension under concurrency, one atomic access per step: epochs, jobs,
    reconstructions and waiters over the buffer of BufConcModel.v
    (include/framework/DynamicExtension.h, include/framework/scheduling/Epoch.h).

    Simplifications: memory is sequentially consistent (all shared variables are
    std::atomic with the default ordering); the structure of an epoch is the list of
    the flushes that made it, as in FlushModel.v (the merges between its levels work on
    an epoch that no job can see); a job may run on any
    idle thread at any time after it was submitted (the scheduler is modelled in
    SchedModel.v); the destructor is left out.  The allocator may return any
    address that is not in use, so addresses of deleted epochs are reused. *)
From Coq Require Import List Arith ZArith NArith Lia Bool.
From Verif Require Import Base RecordModel BufferModel BufConcModel.
Import ListNotations.

Section Sys.
Context {R : Type} {RO : RecOps R}.

Variables lwm hwm cap : nat.

(** An epoch: Epoch.h:115-128; m_structure is the result of the flushes [e_runs]. *)
Record epoch := Ep { e_runs : list (list (wrapped R)); e_head : nat }.

(** All records flushed into it. *)
Definition e_recs (x : epoch) : list (wrapped R) := concat (e_runs x).

(** epoch_ptr, DynamicExtension.h:54-57. *)
Record cell := Cell { c_ep : option nat; c_ref : nat }.
Definition null : cell := Cell None 0.

Definition ep_eqb (a b : option nat) : bool :=
  match a, b with
  | Some x, Some y => x =? y
  | None, None => true
  | _, _ => false
  end.
Definition cell_eqb (a b : cell) : bool := ep_eqb (c_ep a) (c_ep b) && (c_ref a =? c_ref b).

(** Appends that have returned 1, with their positions. *)
Notation acked := (list (nat * (R * bool))).

(** Jobs that read an epoch: a query (609-680), get_record_count (217-224),
    create_static_structure (306-346), and the calls that only read the structure:
    get_height and the others up to 291, validate_tombstone_proportion (367-372). *)
Inductive kind := KQuery | KCount | KStatic | KTouch.

(** Who called get_active_epoch; [seen] is the list of appends that had returned when
    the call was made, kept to state the properties. *)
Inductive who :=
| ForJob (k : kind) (seen : acked)
| ForNew (r : R) (ts : bool).         (* create_new_epoch, for the insert of r *)

(** What follows end_job. *)
Inductive fin :=
| ToRelease                            (* a query: its view is destroyed last *)
| ToIdle
| ToNew (r : R) (ts : bool).

(** The steps of get_active_epoch, DynamicExtension.h:431-461. *)
Inductive gpc :=
| GLoad                     (* 441: compare m_current_epoch *)
| GPrev                     (* 442: load m_previous_epoch *)
| GPrevCas (old : cell)     (* 445 *)
| GCurr                     (* 449: load m_current_epoch *)
| GCurrCas (old : cell).    (* 452 *)

(** The steps of end_job, DynamicExtension.h:755-793. *)
Inductive epc :=
| ELoad                     (* 759: compare m_previous_epoch *)
| EPrev                     (* 760: load m_previous_epoch, assert *)
| EPrevCas (old : cell)     (* 772 *)
| ECurr                     (* 776: load m_current_epoch, assert *)
| ECurrCas (old : cell).    (* 788 *)

(** What a thread does next. *)
Inductive spc :=
| SIdle
| SGet (g : gpc) (w : who)
| SEnd (j : epc) (e : nat) (f : fin)
(* a job on the pinned epoch e *)
| JFirst (e : nat) (seen : acked)                       (* 316-323: copy the shards *)
| JView (k : kind) (e : nat) (seen : acked) (pre : list (list (wrapped R)))  (* 615: epoch->get_buffer() *)
| JHold (k : kind) (e : nat) (seen : acked) (pre : list (list (wrapped R)))  (* inside get_buffer_view *)
| JRead (k : kind) (e : nat) (seen : acked) (pre : list (list (wrapped R))) (h tl : nat) (acc : list (wrapped R))
| JShards (k : kind) (e : nat) (seen : acked) (h tl : nat) (acc : list (wrapped R)) (* 642-645: read the shards *)
| JRel (e : nat)                                        (* destroy the view, then end_job *)
| JRelW (e : nat)
| QRel                                                  (* after end_job: destroy the view *)
| QRelW
(* internal_append, 711-722 *)
| ILow (r : R) (ts : bool)                              (* 712: load m_tail, or m_head *)
| ILowH (r : R) (ts : bool) (tl : nat)                  (* 712: load m_head, compare *)
| ILowT (r : R) (ts : bool) (h : nat)                   (* 712: load m_tail, compare *)
| IFlag (r : R) (ts : bool)                             (* 715: compare_exchange *)
| IApp (r : R) (ts : bool)                              (* 721: append *)
| IAppW                                                 (* inside append *)
(* create_new_epoch 498-514, schedule_reconstruction 682-696 *)
| NNull (r : R) (ts : bool)                             (* 505: assert *)
| NClone (e : nat) (r : R) (ts : bool)                  (* 509: clone e *)
| NStore (e a : nat) (r : R) (ts : bool)                (* 509: store m_next_epoch *)
| NLoad (r : R) (ts : bool)                             (* 513: load m_next_epoch *)
| NTask (a : nat) (r : R) (ts : bool)                   (* 688-695: read the structure, submit *)
(* reconstruction 557-607 *)
| RView (a : nat)                                       (* 580: epoch->get_buffer() *)
| RHold (a : nat)
| RRead (a h tl : nat) (acc : list (wrapped R))         (* 589: copy the view into a shard *)
| RFlush (a tl : nat) (acc : list (wrapped R))          (* 589: add it to the structure *)
| RRel (a tl : nat)                                     (* the view is destroyed *)
| RRelW (a tl : nat)
(* advance_epoch 463-492 and retire_epoch 516-555 *)
| DLoad (n : nat)                                       (* 465 *)
| DRet (n p : nat)                                      (* 534, 546: load m_previous_epoch, compare; the
                                                           assertion of 543 is for the serial scheduler *)
| DRetCas (n p : nat) (old : cell)                      (* 547 *)
| DDel (n p : nat)                                      (* 554: delete *)
| DCur (n : nat)                                        (* 470 *)
| DCurCas (n : nat) (c : cell)                          (* 471 *)
| DPrev (n : nat) (c : cell)                            (* 473: store m_previous_epoch *)
| DAdv (n : nat)                                        (* 481: advance_buffer_head *)
| DAdvW (n : nat)                                       (* inside advance_head *)
| DPub                                                  (* 485: load m_next_epoch *)
| DPubSt (x : cell)                                     (* 485: store m_current_epoch *)
| DNext                                                 (* 486: store m_next_epoch *)
| DNotify                                               (* 489-491 *)
| DFlag                                                 (* 603: the flag is cleared *)
(* await_next_epoch 352-357 *)
| WLoad                                                 (* 353: load m_next_epoch *)
| WLock                                                 (* 354-355: start to wait *)
| WWait.                                                (* waiting *)

(** How the program stopped. *)
Inductive stop := UseAfterFree | NullPointer | AssertFailed.

(** Answers given, kept to state the properties: the flushes and the buffer read by a
    query or a static structure, or a record count. *)
Inductive answer :=
| AList (seen : acked) (runs : list (list (wrapped R))) (buf : list (wrapped R))
| ACount (seen : acked) (n : nat).

Record sys := Sys {
  y_buf : cstate R;                 (* the buffer; its threads are the same as ours *)
  y_heap : nat -> option epoch;     (* live epochs *)
  y_next : cell;                    (* m_next_epoch *)
  y_cur : cell;                     (* m_current_epoch *)
  y_prev : cell;                    (* m_previous_epoch *)
  y_flag : bool;                    (* m_reconstruction_scheduled *)
  y_jobs : list nat;                (* submitted reconstructions, by args->epoch *)
  y_pcs : list spc;
  y_ans : list answer;
  y_stop : option stop
}.

(** The constructor, DynamicExtension.h:81-97; the first epoch has address 0. *)
Definition sys_init (threads : nat) : sys :=
  Sys (cs_init hwm cap threads)
      (fun a => if a =? 0 then Some (Ep [] 0) else None)
      null (Cell (Some 0) 0) null false [] (repeat SIdle threads) [] None.

Definition upd (m : nat -> option epoch) (a : nat) (x : option epoch) : nat -> option epoch :=
  fun b => if b =? a then x else m b.

(** Field updates. *)
Definition go (s : sys) (t : nat) (p : spc) : sys :=
  Sys (y_buf s) (y_heap s) (y_next s) (y_cur s) (y_prev s) (y_flag s) (y_jobs s)
      (set_nth t p (y_pcs s)) (y_ans s) (y_stop s).
Definition w_buf (s : sys) (b : cstate R) : sys :=
  Sys b (y_heap s) (y_next s) (y_cur s) (y_prev s) (y_flag s) (y_jobs s) (y_pcs s) (y_ans s) (y_stop s).
Definition w_heap (s : sys) (m : nat -> option epoch) : sys :=
  Sys (y_buf s) m (y_next s) (y_cur s) (y_prev s) (y_flag s) (y_jobs s) (y_pcs s) (y_ans s) (y_stop s).
Definition w_next (s : sys) (c : cell) : sys :=
  Sys (y_buf s) (y_heap s) c (y_cur s) (y_prev s) (y_flag s) (y_jobs s) (y_pcs s) (y_ans s) (y_stop s).
Definition w_cur (s : sys) (c : cell) : sys :=
  Sys (y_buf s) (y_heap s) (y_next s) c (y_prev s) (y_flag s) (y_jobs s) (y_pcs s) (y_ans s) (y_stop s).
Definition w_prev (s : sys) (c : cell) : sys :=
  Sys (y_buf s) (y_heap s) (y_next s) (y_cur s) c (y_flag s) (y_jobs s) (y_pcs s) (y_ans s) (y_stop s).
Definition w_flag (s : sys) (f : bool) : sys :=
  Sys (y_buf s) (y_heap s) (y_next s) (y_cur s) (y_prev s) f (y_jobs s) (y_pcs s) (y_ans s) (y_stop s).
Definition w_jobs (s : sys) (j : list nat) : sys :=
  Sys (y_buf s) (y_heap s) (y_next s) (y_cur s) (y_prev s) (y_flag s) j (y_pcs s) (y_ans s) (y_stop s).
Definition w_ans (s : sys) (x : answer) : sys :=
  Sys (y_buf s) (y_heap s) (y_next s) (y_cur s) (y_prev s) (y_flag s) (y_jobs s) (y_pcs s)
      (x :: y_ans s) (y_stop s).
Definition halt (s : sys) (f : stop) : sys :=
  Sys (y_buf s) (y_heap s) (y_next s) (y_cur s) (y_prev s) (y_flag s) (y_jobs s) (y_pcs s) (y_ans s) (Some f).
Definition w_pcs (s : sys) (l : list spc) : sys :=
  Sys (y_buf s) (y_heap s) (y_next s) (y_cur s) (y_prev s) (y_flag s) (y_jobs s) l (y_ans s) (y_stop s).

(** Reading a member of the epoch at address [a]. *)
Definition deref (s : sys) (a : nat) (k : epoch -> sys) : sys :=
  match y_heap s a with
  | Some e => k e
  | None => halt s UseAfterFree
  end.

(** Where get_active_epoch returns [e] to; get_height and the like do not look at the
    buffer. *)
Definition got (e : nat) (w : who) : spc :=
  match w with
  | ForJob KStatic seen => JFirst e seen
  | ForJob KTouch seen => JShards KTouch e seen 0 0 []
  | ForJob k seen => JView k e seen []
  | ForNew r ts => NClone e r ts
  end.

(** One step of get_active_epoch. *)
Definition get_step (s : sys) (t : nat) (g : gpc) (w : who) : sys :=
  match g with
  | GLoad => go s t (SGet (match c_ep (y_cur s) with None => GPrev | Some _ => GCurr end) w)
  | GPrev => go s t (SGet (match c_ep (y_prev s) with None => GLoad | Some _ => GPrevCas (y_prev s) end) w)
  | GPrevCas old =>
      if cell_eqb (y_prev s) old
      then match c_ep old with
           | Some e => go (w_prev s (Cell (Some e) (S (c_ref old)))) t (got e w)
           | None => go s t (SGet GLoad w)
           end
      else go s t (SGet GLoad w)
  | GCurr => go s t (SGet (match c_ep (y_cur s) with None => GLoad | Some _ => GCurrCas (y_cur s) end) w)
  | GCurrCas old =>
      if cell_eqb (y_cur s) old
      then match c_ep old with
           | Some e => go (w_cur s (Cell (Some e) (S (c_ref old)))) t (got e w)
           | None => go s t (SGet GLoad w)
           end
      else go s t (SGet GLoad w)
  end.

Definition after (f : fin) : spc :=
  match f with
  | ToRelease => QRel
  | ToIdle => SIdle
  | ToNew r ts => NLoad r ts
  end.

(** One step of end_job. *)
Definition end_step (s : sys) (t : nat) (j : epc) (e : nat) (f : fin) : sys :=
  match j with
  | ELoad => go s t (SEnd (if ep_eqb (c_ep (y_prev s)) (Some e) then EPrev else ECurr) e f)
  | EPrev =>
      match c_ep (y_prev s) with
      | None => go s t (SEnd ELoad e f)
      | Some _ => if c_ref (y_prev s) =? 0 then halt s AssertFailed
                  else go s t (SEnd (EPrevCas (y_prev s)) e f)
      end
  | EPrevCas old =>
      if cell_eqb (y_prev s) old
      then go (w_prev s (Cell (c_ep old) (c_ref old - 1))) t (after f)
      else go s t (SEnd ELoad e f)
  | ECurr =>
      match c_ep (y_cur s) with
      | None => go s t (SEnd ELoad e f)
      | Some _ => if c_ref (y_cur s) =? 0 then halt s AssertFailed
                  else go s t (SEnd (ECurrCas (y_cur s)) e f)
      end
  | ECurrCas old =>
      if cell_eqb (y_cur s) old
      then go (w_cur s (Cell (c_ep old) (c_ref old - 1))) t (after f)
      else go s t (SEnd ELoad e f)
  end.

(** Start a buffer operation on thread [t]; a thread makes one at a time. *)
Definition bcall (s : sys) (t : nat) (c : call R) (p : spc) : option sys :=
  match cexec hwm cap (y_buf s) (Call t c) with
  | Some b => Some (go (w_buf s b) t p)
  | None => None
  end.

(** Make one step of it; [k] says where the thread goes when the buffer operation has
    returned. *)
Definition bstep (s : sys) (t : nat) (k : pc R -> option spc) : option sys :=
  match cexec hwm cap (y_buf s) (Step t) with
  | Some b =>
      match nth_error (cs_pcs b) t with
      | Some p => match k p with
                  | Some q => Some (go (w_buf s b) t q)
                  | None => Some (w_buf s b)
                  end
      | None => None
      end
  | None => None
  end.

Definition on_idle (q : spc) (p : pc R) : option spc := match p with Idle => Some q | _ => None end.
Definition on_hold (q : nat -> nat -> spc) (p : pc R) : option spc :=
  match p with Hold h tl => Some (q h tl) | _ => None end.

(** Position [x] of the ring. *)
Definition peek (s : sys) (x : nat) : wrapped R :=
  nth (x mod cap) (cb_data (cs_buf (y_buf s))) (W 0 rzero).

Definition wake (p : spc) : spc := match p with WWait => WLoad | _ => p end.

(** One step of thread [t], whose next step is [p].  [NClone] is the exception: its
    step is [Alloc]. *)
Definition run (s : sys) (t : nat) (p : spc) : option sys :=
  match p with
  | SIdle | NClone _ _ _ | WWait => None
  | SGet g w => Some (get_step s t g w)
  | SEnd j e f => Some (end_step s t j e f)
  (* jobs *)
  | JFirst e seen => Some (deref s e (fun x => go s t (JView KStatic e seen (e_runs x))))
  | JView k e seen pre =>
      match y_heap s e with
      | Some x => bcall s t (View_ (e_head x)) (JHold k e seen pre)
      | None => Some (halt s UseAfterFree)
      end
  | JHold k e seen pre => bstep s t (on_hold (fun h tl => JRead k e seen pre h tl []))
  | JRead k e seen pre h tl acc =>
      match k with
      | KCount | KTouch => Some (go s t (JShards k e seen h tl acc))
      | _ =>
          if h + length acc <? tl
          then Some (go s t (JRead k e seen pre h tl (acc ++ [peek s (h + length acc)])))
          else match k with
               | KStatic => Some (go (w_ans s (AList seen pre acc)) t (JRel e))
               | _ => Some (go s t (JShards k e seen h tl acc))
               end
      end
  | JShards k e seen h tl acc =>
      Some (deref s e (fun x =>
        match k with
        | KCount => go (w_ans s (ACount seen ((tl - h) + length (e_recs x)))) t (JRel e)
        | KTouch => go s t (SEnd ELoad e ToIdle)
        | _ => go (w_ans s (AList seen (e_runs x) acc)) t (SEnd ELoad e ToRelease)
        end))
  | JRel e => bcall s t Release (JRelW e)
  | JRelW e => bstep s t (on_idle (SEnd ELoad e ToIdle))
  | QRel => bcall s t Release QRelW
  | QRelW => bstep s t (on_idle SIdle)
  (* inserts; size_t: tl - head is huge when tl < head *)
  | ILow r ts => Some (go s t (ILowH r ts (cb_tail (cs_buf (y_buf s)))))
  | ILowH r ts tl =>
      let h := hidx (cb_head (cs_buf (y_buf s))) in
      Some (go s t (if (tl <? h) || (lwm <=? tl - h) then IFlag r ts else IApp r ts))
  | ILowT r ts h =>
      let tl := cb_tail (cs_buf (y_buf s)) in
      Some (go s t (if (tl <? h) || (lwm <=? tl - h) then IFlag r ts else IApp r ts))
  | IFlag r ts =>
      if y_flag s then Some (go s t (IApp r ts)) else Some (go (w_flag s true) t (NNull r ts))
  | IApp r ts => bcall s t (Append r ts) IAppW
  | IAppW => bstep s t (on_idle SIdle)
  (* new epochs *)
  | NNull r ts =>
      match c_ep (y_next s) with
      | None => Some (go s t (SGet GLoad (ForNew r ts)))
      | Some _ => Some (halt s AssertFailed)
      end
  | NStore e a r ts => Some (go (w_next s (Cell (Some a) 0)) t (SEnd ELoad e (ToNew r ts)))
  | NLoad r ts =>
      match c_ep (y_next s) with
      | Some a => Some (go s t (NTask a r ts))
      | None => Some (halt s NullPointer)
      end
  | NTask a r ts => Some (deref s a (fun _ => go (w_jobs s (y_jobs s ++ [a])) t (IApp r ts)))
  (* reconstructions *)
  | RView a =>
      match y_heap s a with
      | Some x => bcall s t (View_ (e_head x)) (RHold a)
      | None => Some (halt s UseAfterFree)
      end
  | RHold a => bstep s t (on_hold (fun h tl => RRead a h tl []))
  | RRead a h tl acc =>
      if h + length acc <? tl
      then Some (go s t (RRead a h tl (acc ++ [peek s (h + length acc)])))
      else Some (go s t (RFlush a tl acc))
  | RFlush a tl acc =>
      Some (deref s a (fun x =>
        go (w_heap s (upd (y_heap s) a (Some (Ep (e_runs x ++ [acc]) (e_head x))))) t (RRel a tl)))
  | RRel a tl => bcall s t Release (RRelW a tl)
  | RRelW a tl => bstep s t (on_idle (DLoad tl))
  (* transitions *)
  | DLoad n =>
      Some (go s t (match c_ep (y_prev s) with Some p => DRet n p | None => DCur n end))
  | DRet n p =>
      Some (if ep_eqb (c_ep (y_prev s)) (Some p) && (c_ref (y_prev s) =? 0)
            then go s t (DRetCas n p (y_prev s)) else s)
  | DRetCas n p old =>
      Some (if cell_eqb (y_prev s) old then go (w_prev s null) t (DDel n p) else go s t (DRet n p))
  | DDel n p => Some (deref s p (fun _ => go (w_heap s (upd (y_heap s) p None)) t (DCur n)))
  | DCur n => Some (go s t (DCurCas n (y_cur s)))
  | DCurCas n c =>
      Some (if cell_eqb (y_cur s) c then go (w_cur s null) t (DPrev n c) else go s t (DCur n))
  | DPrev n c => Some (go (w_prev s c) t (DAdv n))
  | DAdv n =>
      match c_ep (y_next s) with
      | None => Some (halt s NullPointer)
      | Some a =>
          match y_heap s a with
          | None => Some (halt s UseAfterFree)
          | Some x =>
              match cexec hwm cap (y_buf s) (Advance n) with
              | Some b => Some (go (w_heap (w_buf s b) (upd (y_heap s) a (Some (Ep (e_runs x) n)))) t (DAdvW n))
              | None => None
              end
          end
      end
  | DAdvW n =>
      match cexec hwm cap (y_buf s) AdvStep with
      | Some b =>
          Some (match cs_adv b with
                | VIdle =>
                    (* returned; true if it got as far as line 167 *)
                    go (w_buf s b) t (match cs_adv (y_buf s) with VOld _ _ => DPub | _ => DAdv n end)
                | VCrash => halt (w_buf s b) AssertFailed
                | _ => w_buf s b
                end)
      | None => None
      end
  | DPub => Some (go s t (DPubSt (y_next s)))
  | DPubSt x => Some (go (w_cur s x) t DNext)
  | DNext => Some (go (w_next s null) t DNotify)
  | DNotify => Some (w_pcs s (map wake (set_nth t DFlag (y_pcs s))))
  | DFlag => Some (go (w_flag s false) t SIdle)
  (* waiting *)
  | WLoad => Some (go s t (match c_ep (y_next s) with None => SIdle | Some _ => WLock end))
  | WLock => Some (go s t WWait)
  end.

(** Calls of the public functions, and the start of a submitted reconstruction. *)
Inductive ucall := UJob (k : kind) | UInsert (r : R) (ts : bool) | UAwait | URecon.

Inductive sact :=
| UCall (t : nat) (c : ucall)
| UStep (t : nat)
| Alloc (t a : nat)        (* thread t clones an epoch, at the address a *)
| Alt (t : nat).           (* the other step that thread t can make: a spurious wakeup, or the
                              load of m_head before that of m_tail in m_tail.load() -
                              m_head.load().head_idx, whose order C++ leaves open *)

Definition sexec (s : sys) (x : sact) : option sys :=
  match y_stop s with
  | Some _ => None
  | None =>
      match x with
      | UCall t c =>
          match nth_error (y_pcs s) t with
          | Some SIdle =>
              match c with
              | UJob k => Some (go s t (SGet GLoad (ForJob k (cs_done (y_buf s)))))
              | UInsert r ts => Some (go s t (ILow r ts))
              | UAwait => Some (go s t WLoad)
              | URecon =>
                  match y_jobs s with
                  | a :: js => Some (go (w_jobs s js) t (RView a))
                  | [] => None
                  end
              end
          | _ => None
          end
      | UStep t => match nth_error (y_pcs s) t with Some p => run s t p | None => None end
      | Alloc t a =>
          match nth_error (y_pcs s) t with
          | Some (NClone e r ts) =>
              match y_heap s a with
              | Some _ => None
              | None =>
                  Some (deref s e (fun x =>
                    go (w_heap s (upd (y_heap s) a (Some (Ep (e_runs x) (e_head x))))) t (NStore e a r ts)))
              end
          | _ => None
          end
      | Alt t =>
          match nth_error (y_pcs s) t with
          | Some WWait => Some (go s t WLoad)
          | Some (ILow r ts) => Some (go s t (ILowT r ts (hidx (cb_head (cs_buf (y_buf s))))))
          | _ => None
          end
      end
  end.

Fixpoint ssched (s : sys) (l : list sact) : option sys :=
  match l with
  | [] => Some s
  | x :: l' => match sexec s x with Some s' => ssched s' l' | None => None end
  end.

(** States reachable by actions that satisfy [ok]. *)
Inductive sreach (ok : sys -> sact -> Prop) : sys -> sys -> Prop :=
| sr_refl : forall s, sreach ok s s
| sr_step : forall s s1 x s2, sreach ok s s1 -> ok s1 x -> sexec s1 x = Some s2 -> sreach ok s s2.

Definition anyact (s : sys) (x : sact) : Prop := True.

(** delete of an epoch that may be null; a second delete of the same epoch stops the
    program.  An epoch has a structure of its own, which goes with it (Epoch.h:40-48). *)
Definition del (m : nat -> option epoch) (x : cell) : (nat -> option epoch) + stop :=
  match c_ep x with
  | None => inl m
  | Some a => match m a with Some _ => inl (upd m a None) | None => inr UseAfterFree end
  end.

(** The destructor after await_next_epoch and the shutdown of the scheduler,
    DynamicExtension.h:114-116: the epochs that are left. *)
Definition destroy (s : sys) : (nat -> option epoch) + stop :=
  match del (y_heap s) (y_next s) with
  | inl m => match del m (y_cur s) with
             | inl m' => del m' (y_prev s)
             | inr f => inr f
             end
  | inr f => inr f
  end.

(** ** Vocabulary of the properties *)

(** The epoch a thread has acquired and not yet given back. *)
Definition pinned (p : spc) : option nat :=
  match p with
  | JFirst e _ | JView _ e _ _ | JHold _ e _ _ | JRead _ e _ _ _ _ _ | JShards _ e _ _ _ _
  | JRel e | JRelW e | NClone e _ _ | NStore e _ _ _ | SEnd _ e _ => Some e
  | _ => None
  end.

(** A reconstruction is being scheduled, or runs. *)
Definition recon (p : spc) : bool :=
  match p with
  | NNull _ _ | SGet _ (ForNew _ _) | NClone _ _ _ | NStore _ _ _ _ | SEnd _ _ (ToNew _ _)
  | NLoad _ _ | NTask _ _ _
  | RView _ | RHold _ | RRead _ _ _ _ | RFlush _ _ _ | RRel _ _ | RRelW _ _
  | DLoad _ | DRet _ _ | DRetCas _ _ _ | DDel _ _ | DCur _ | DCurCas _ _ | DPrev _ _ | DAdv _ | DAdvW _
  | DPub | DPubSt _ | DNext | DNotify | DFlag => true
  | _ => false
  end.

(** No append is in progress when a reconstruction reads the end of the buffer.  The
    code does not ensure this. *)
Definition calm (s : sys) (x : sact) : Prop :=
  match x with
  | UStep t =>
      match nth_error (y_pcs s) t, nth_error (cs_pcs (y_buf s)) t with
      | Some (RHold _), Some (GTail _) => in_flight (y_buf s) = []
      | _, _ => True
      end
  | _ => True
  end.

(** No append into the slots [SL] is in progress then. *)
Definition calm_on (SL : nat -> Prop) (s : sys) (x : sact) : Prop :=
  match x with
  | UStep t =>
      match nth_error (y_pcs s) t, nth_error (cs_pcs (y_buf s)) t with
      | Some (RHold _), Some (GTail _) => forall y, In y (in_flight (y_buf s)) -> ~ SL (y mod cap)
      | _, _ => True
      end
  | _ => True
  end.

(** As [calm], for the reconstructions and the jobs that read the buffer. *)
Definition still (s : sys) (x : sact) : Prop :=
  match x with
  | UStep t =>
      match nth_error (y_pcs s) t, nth_error (cs_pcs (y_buf s)) t with
      | Some (RHold _), Some (GTail _) | Some (JHold _ _ _ _), Some (GTail _) => in_flight (y_buf s) = []
      | _, _ => True
      end
  | _ => True
  end.

End Sys.
Arguments epoch R : clear implicits.
Arguments sys R : clear implicits.
Arguments spc R : clear implicits.
Arguments who R : clear implicits.
Arguments fin R : clear implicits.
Arguments answer R : clear implicits.
Arguments ucall R : clear implicits.
Arguments sact R : clear implicits.

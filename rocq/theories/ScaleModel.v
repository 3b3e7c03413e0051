(** Clients that insert from several threads, each until the insert is accepted
    (benchmarks/vldb/thread_scaling_bench.cpp).

    Simplifications: the interleaving model of SysModel.v, with its simplifications; the
    thread that warms up the index may run at the same time as the others, and any thread
    may make other calls between its inserts, which allows more executions. *)
From Coq Require Import List Arith Bool.
From Verif Require Import Base RecordModel BufConcModel SysModel.
Import ListNotations.

Section Scale.
Context {R : Type} {RO : RecOps R}.
Variables lwm hwm cap : nat.

(** The index and, for each thread, the records that it still has to insert (or, as
    tombstones, to erase). *)
Record clients := CL { k_sys : sys R; k_left : list (list (R * bool)) }.

Definition k_init (progs : list (list (R * bool))) : clients := CL (sys_init hwm cap (length progs)) progs.

(** Thread [t] calls insert with the next of its records, or another action. *)
Inductive kact := KInsert (t : nat) | KDo (x : sact R).

(** DynamicExtension.h:721, MutableBuffer.h:86: the next step of thread [t] is the last of
    an insert that returns 1. *)
Definition returns_one (s : sys R) (t : nat) : bool :=
  match nth_error (y_pcs s) t, nth_error (cs_pcs (y_buf s)) t with
  | Some IAppW, Some (AVis _ _ _) => true
  | _, _ => false
  end.

(** The thread is through with its first record. *)
Definition drop_first (t : nat) (left : list (list (R * bool))) : list (list (R * bool)) :=
  match nth_error left t with Some l => set_nth t (tl l) left | None => left end.

(** thread_scaling_bench.cpp:53-60, 83-87: insert a record again until the call returns 1,
    then go on to the next. *)
Definition kexec (k : clients) (a : kact) : option clients :=
  match a with
  | KInsert t =>
      match nth_error (k_left k) t with
      | Some ((r, ts) :: _) =>
          match sexec lwm hwm cap (k_sys k) (UCall t (UInsert r ts)) with
          | Some s' => Some (CL s' (k_left k))
          | None => None
          end
      | _ => None
      end
  | KDo x =>
      match x with
      | UCall _ (UInsert _ _) => None
      | _ =>
          match sexec lwm hwm cap (k_sys k) x with
          | Some s' =>
              Some (CL s' (match x with
                           | UStep t => if returns_one (k_sys k) t then drop_first t (k_left k) else k_left k
                           | _ => k_left k
                           end))
          | None => None
          end
      end
  end.

(** The action of the index that belongs to an action of the clients. *)
Definition act_of (k : clients) (a : kact) : option (sact R) :=
  match a with
  | KInsert t => match nth_error (k_left k) t with Some ((r, ts) :: _) => Some (UCall t (UInsert r ts)) | _ => None end
  | KDo x => Some x
  end.

(** States reachable by actions of the index that satisfy [ok]. *)
Inductive kreach (ok : sys R -> sact R -> Prop) : clients -> clients -> Prop :=
| kr_refl : forall k, kreach ok k k
| kr_step : forall k k1 a x k2, kreach ok k k1 -> act_of k1 a = Some x -> ok (k_sys k1) x -> kexec k1 a = Some k2 ->
    kreach ok k k2.

(** ** The benchmark *)

(** thread_scaling_bench.cpp:98-103: [t] threads from [start] on, [per] records each. *)
Fixpoint shares (per start t : nat) : list (nat * nat) :=
  match t with
  | O => []
  | S t' => (start, start + per) :: shares per (start + per) t'
  end.

Definition inserts (a b : nat) (data : list R) : list (R * bool) :=
  map (fun r => (r, false)) (firstn (b - a) (skipn a data)).

(** thread_scaling_bench.cpp:82-107: the main thread inserts [w] of the [n] records, [t]
    threads the others; [others] threads answer queries or reconstruct. *)
Definition scaling (data : list R) (n w t others : nat) : list (list (R * bool)) :=
  inserts 0 w data :: map (fun '(a, b) => inserts a b data) (shares ((n - w) / t) w t) ++ repeat [] others.

End Scale.

Arguments clients : clear implicits.
Arguments kact : clear implicits.

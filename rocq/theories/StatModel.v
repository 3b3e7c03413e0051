(** The scheduler's statistics (include/framework/scheduling/statistics.h:53-72), for the
    jobs of one type: several threads log the duration of the job they have run.

    Simplifications: the counters do not overflow; each statement is one step, and the
    comparison with the maximum is one step (it loads the maximum once). *)
From Coq Require Import List Arith Bool.
Import ListNotations.

(** Where a call of log_time_data(length) is. *)
Inductive lpc :=
| LCnt        (* 58: m_type_1_cnt.fetch_add(1) *)
| LTotal      (* 59: m_type_1_total_time.fetch_add(length) *)
| LCmp        (* 61: length > m_type_1_largest_time *)
| LStore      (* 62: m_type_1_largest_time.store(length) *)
| LEnd.

Record stat := Stat {
  a_cnt : nat;
  a_total : nat;
  a_max : nat;
  a_calls : list (nat * lpc)      (* the calls so far, with their durations *)
}.

Definition stat_init : stat := Stat 0 0 0 [].

Fixpoint set_nth {A} (n : nat) (x : A) (l : list A) : list A :=
  match l, n with
  | [], _ => []
  | _ :: l', 0 => x :: l'
  | y :: l', S n' => y :: set_nth n' x l'
  end.

Inductive sact := ACall (length : nat) | AStep (call : nat).

Definition sexec (s : stat) (x : sact) : option stat :=
  match x with
  | ACall n => Some (Stat (a_cnt s) (a_total s) (a_max s) (a_calls s ++ [(n, LCnt)]))
  | AStep c =>
      match nth_error (a_calls s) c with
      | Some (n, LCnt) => Some (Stat (S (a_cnt s)) (a_total s) (a_max s) (set_nth c (n, LTotal) (a_calls s)))
      | Some (n, LTotal) => Some (Stat (a_cnt s) (a_total s + n) (a_max s) (set_nth c (n, LCmp) (a_calls s)))
      | Some (n, LCmp) =>
          Some (Stat (a_cnt s) (a_total s) (a_max s)
                     (set_nth c (n, if a_max s <? n then LStore else LEnd) (a_calls s)))
      | Some (n, LStore) => Some (Stat (a_cnt s) (a_total s) n (set_nth c (n, LEnd) (a_calls s)))
      | _ => None
      end
  end.

Inductive sreach : stat -> Prop :=
| sr_init : sreach stat_init
| sr_step : forall s x s', sreach s -> sexec s x = Some s' -> sreach s'.

Fixpoint splay (s : stat) (l : list sact) : option stat :=
  match l with
  | [] => Some s
  | x :: l' => match sexec s x with Some s' => splay s' l' | None => None end
  end.

(** All calls have returned. *)
Definition logged (s : stat) : Prop := forall n p, In (n, p) (a_calls s) -> p = LEnd.

(** The durations logged. *)
Definition durations (s : stat) : list nat := map fst (a_calls s).

(** No two calls are between the comparison and the store at once: calls one at a time. *)
Definition one_at_a_time (s : stat) : Prop :=
  length (filter (fun c => match snd c with LEnd => false | _ => true end) (a_calls s)) <= 1.
Inductive serial : stat -> Prop :=
| se_init : serial stat_init
| se_step : forall s x s', serial s -> sexec s x = Some s' -> one_at_a_time s' -> serial s'.

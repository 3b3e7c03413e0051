(** C52: the latencies reported by the scheduler. *)
From Coq Require Import List Arith Bool.
From Verif Require Import StatModel StatProofs.
Import ListNotations.

(** Once all calls have returned, the number of jobs and their total time are exact,
    however the calls interleave. *)
Theorem C52_count_and_total : forall s, sreach s -> logged s ->
  a_cnt s = length (durations s) /\ a_total s = list_sum (durations s).
Proof. exact stat_exact. Qed.
Print Assumptions C52_count_and_total.

(** The maximum reported is the duration of some job, or zero. *)
Theorem C52_maximum_real : forall s, sreach s -> a_max s = 0 \/ In (a_max s) (durations s).
Proof. exact stat_max_real. Qed.
Print Assumptions C52_maximum_real.

(** It is the greatest one if the calls do not overlap. *)
Theorem C52_maximum_partial : forall s, serial s -> logged s -> forall n, In n (durations s) -> n <= a_max s.
Proof. exact stat_max_serial. Qed.
Print Assumptions C52_maximum_partial.

(** Two jobs end at once: both see the old maximum, the longer one stores first. *)
Definition overlap : list sact :=
  [ACall 9; ACall 4; AStep 0; AStep 1; AStep 0; AStep 1; AStep 0; AStep 1; AStep 0; AStep 1].

(** If they overlap, a job can be longer than the maximum reported. *)
Theorem C52_maximum_refuted : exists s, sreach s /\ logged s /\ exists n, In n (durations s) /\ a_max s < n.
Proof. exact (stat_max_lost overlap ltac:(vm_compute; reflexivity)). Qed.
Print Assumptions C52_maximum_refuted.

(** The two jobs of the schedule above: two calls, thirteen units, and four as the maximum. *)
Example C52_case : match splay stat_init overlap with
  | Some s => (a_cnt s, a_total s, a_max s, a_calls s) = (2, 13, 4, [(9, LEnd); (4, LEnd)])
  | None => False end.
Proof. reflexivity. Qed.

(** Calls that do not overlap. *)
Example C52_serial_case : exists s, serial s /\ logged s /\ a_max s = 9 /\ durations s = [4; 9].
Proof.
  exists (Stat 2 13 9 [(4, LEnd); (9, LEnd)]). split; [|split].
  - exact (splay1_serial [ACall 4; AStep 0; AStep 0; AStep 0; AStep 0; ACall 9; AStep 1; AStep 1; AStep 1; AStep 1]
             stat_init _ se_init eq_refl).
  - intros n p [E|[E|[]]]; inversion E; reflexivity.
  - auto.
Qed.

(** Successive reconstructions whose flushes have any size up to the high watermark, as
    they have when the scheduler runs them in the background (C57).  [bs] are the
    buffers that are flushed, [runs] the records they show (FlushSpec.v). *)
From Coq Require Import List Arith ZArith NArith Lia Bool Permutation Sorted.
From Verif Require Import Base RecordModel RecordProofs BufferModel MergeModel MergeProofs StructModel ExtModel
  QueryModel Spec QueryProofs FlushModel FlushSpec FlushProofs.
Import ListNotations.

(** C57: no reconstruction fails. *)
Theorem C57_flushes_succeed {R : Type} {RO : RecOps R} {RL : RecLaws R} (qlt : qorder R) {QO : QOrder qlt} :
  forall C bs runs, valid_cfg C -> Forall2 shows bs runs -> Forall mostly_plain runs ->
  Forall (run_size (c_hwm C)) runs -> exists st, flush_all qlt C st_empty bs = Ok st.
Proof. exact (fun C bs runs V => flushes_succeed qlt C V bs runs). Qed.
Print Assumptions C57_flushes_succeed.

(** For every record, the copies stored minus the tombstones stored are those flushed,
    and no more copies are stored than were flushed. *)
Theorem C57_balance {R : Type} {RO : RecOps R} {RL : RecLaws R} (qlt : qorder R) {QO : QOrder qlt} :
  forall C bs runs st r, valid_cfg C -> Forall2 shows bs runs -> Forall mostly_plain runs ->
  Forall (run_size (c_hwm C)) runs -> flush_all qlt C st_empty bs = Ok st ->
  n_plain r (st_records st) + n_tomb r (concat runs) = n_tomb r (st_records st) + n_plain r (concat runs) /\
  n_plain r (st_records st) <= n_plain r (concat runs).
Proof. exact (fun C bs runs st r V => flushes_balance qlt C V bs runs st r). Qed.
Print Assumptions C57_balance.

(** Without tombstones the stored records are exactly the flushed ones. *)
Theorem C57_contents {R : Type} {RO : RecOps R} {RL : RecLaws R} (qlt : qorder R) {QO : QOrder qlt} :
  forall C bs runs st, valid_cfg C -> Forall2 shows bs runs -> Forall all_plain runs ->
  Forall (run_size (c_hwm C)) runs -> flush_all qlt C st_empty bs = Ok st ->
  Permutation (map wrec (st_records st)) (map wrec (concat runs)) /\ all_plain (st_records st).
Proof. exact (fun C bs runs st V => flushes_contents qlt C V bs runs st). Qed.
Print Assumptions C57_contents.

(** The levels stay within their numbers of shards and records (leveling: see
    C13_leveling_partial). *)
Theorem C57_sizes {R : Type} {RO : RecOps R} {RL : RecLaws R} (qlt : qorder R) {QO : QOrder qlt} :
  forall C bs runs st i ls, valid_cfg C -> Forall2 shows bs runs -> Forall mostly_plain runs ->
  Forall (run_size (c_hwm C)) runs -> flush_all qlt C st_empty bs = Ok st ->
  nth_error (st_runs st) i = Some ls ->
  length ls <= max_shards C /\
  match c_layout C with
  | LEVELING => (i <= 1 -> length (concat ls) <= c_hwm C * c_sf C ^ (i + 1)) /\
                (2 <= c_sf C -> length (concat ls) <= 2 * (c_hwm C * c_sf C ^ (i + 1)))
  | _ => length (concat ls) <= c_hwm C * c_sf C ^ (i + 1)
  end.
Proof. exact (fun C bs runs st i ls V => flushes_sizes qlt C V bs runs st i ls). Qed.
Print Assumptions C57_sizes.

(** A height needs a number of flushes exponential in it. *)
Theorem C57_height {R : Type} {RO : RecOps R} {RL : RecLaws R} (qlt : qorder R) {QO : QOrder qlt} :
  forall C bs runs st, valid_cfg C -> Forall2 shows bs runs -> Forall mostly_plain runs ->
  Forall (run_size (c_hwm C)) runs -> flush_all qlt C st_empty bs = Ok st ->
  let h := length (st_runs st) in
  match c_layout C with
  | TIERING => 1 <= h -> c_sf C ^ (h - 1) <= length runs
  | BSM => 2 <= h -> 2 ^ (h - 2) + 1 <= length runs
  | LEVELING => 3 <= h -> c_hwm C * c_sf C ^ (h - 1) < length (concat runs)
  end.
Proof. exact (fun C bs runs st V => flushes_height qlt C V bs runs st). Qed.
Print Assumptions C57_height.

(** Every shard is sorted, and none is empty. *)
Theorem C57_sorted {R : Type} {RO : RecOps R} {RL : RecLaws R} (qlt : qorder R) {QO : QOrder qlt} :
  forall C bs runs st ls d, valid_cfg C -> Forall2 shows bs runs -> Forall mostly_plain runs ->
  Forall (run_size (c_hwm C)) runs -> flush_all qlt C st_empty bs = Ok st ->
  In ls (st_runs st) -> In d ls -> d <> [] /\ sorted d.
Proof. exact (fun C bs runs st ls d V => flushes_sorted qlt C V bs runs st ls d). Qed.
Print Assumptions C57_sorted.

(** A record count on such a structure and a buffer that shows [win]. *)
Theorem C57_count {R : Type} {RO : RecOps R} {RL : RecLaws R} (qlt : qorder R) {QO : QOrder qlt} :
  forall C bs runs st d v win, valid_cfg C -> Forall2 shows bs runs -> Forall all_plain runs ->
  Forall (run_size (c_hwm C)) runs -> flush_all qlt C st_empty bs = Ok st -> shows (d, v) win ->
  v_count v + st_reccnt st = length (concat runs ++ win).
Proof. exact (fun C bs runs st d v win V => flushes_count qlt C V bs runs st d v win). Qed.
Print Assumptions C57_count.

(** A range query on such a structure and a buffer that shows [win]. *)
Theorem C57_range_query {R : Type} {RO : RecOps R} {RL : RecLaws R} {KO : KeyOps R} {KL : KeyLaws R}
  (qlt : qorder R) {QO : QOrder qlt} (lbf : list (wrapped R) -> Z -> res nat) :
  forall C bs runs st d v win l u, valid_cfg C -> lb_sound lbf -> Forall2 shows bs runs -> Forall all_plain runs ->
  Forall (run_size (c_hwm C)) runs -> flush_all qlt C st_empty bs = Ok st -> shows (d, v) win -> all_plain win ->
  exists out, rq_on qlt lbf l u st d v = Ok out /\
    Permutation out (filter (key_in l u) (map wrec (concat runs ++ win))).
Proof. exact (fun C bs runs st d v win l u V LB => flushes_range_query qlt C V lbf LB bs runs st d v win l u). Qed.
Print Assumptions C57_range_query.

(** With tombstones it returns an in-range record at least (copies - tombstones) and at
    most (copies) times, and nothing outside the range. *)
Theorem C57_range_bounds {R : Type} {RO : RecOps R} {RL : RecLaws R} {KO : KeyOps R} {KL : KeyLaws R}
  (qlt : qorder R) {QO : QOrder qlt} (lbf : list (wrapped R) -> Z -> res nat) :
  forall C bs runs st d v win l u, valid_cfg C -> lb_sound lbf -> Forall2 shows bs runs -> Forall mostly_plain runs ->
  Forall (run_size (c_hwm C)) runs -> flush_all qlt C st_empty bs = Ok st -> shows (d, v) win ->
  exists out, rq_on qlt lbf l u st d v = Ok out /\
    forall r, let ws := concat runs ++ win in
      if key_in l u r then n_plain r ws <= occ r out + n_tomb r ws /\ occ r out <= n_plain r ws
      else occ r out = 0.
Proof. exact (fun C bs runs st d v win l u V LB => flushes_range_bounds qlt C V lbf LB bs runs st d v win l u). Qed.
Print Assumptions C57_range_bounds.

(** ** The hypotheses are met *)

(** Eighteen flushes of 1 to 5 records from a ring of eight slots, of which at most the
    last one is a tombstone, for the record before it. *)
Definition fl_cfg (l : layout) : cfg := Cfg l TOMBSTONE 2 5 2.
Definition fl_rec (n i : nat) : kv := KV (Z.of_nat ((n * 7 + i * 3) mod 19)) (Z.of_nat n).
Definition fl_run (ts : bool) (n : nat) : list (wrapped kv) :=
  map (fun i => append_rec (fl_rec n i) false i) (seq 0 (1 + n mod 5)) ++
  (if ts && (2 =? n mod 5) then [append_rec (fl_rec n 2) true 3] else []).
Definition fl_ring (n : nat) (ws : list (wrapped kv)) : batch kv :=
  let h := n * 3 in
  (map (fun j => nth ((j + 8 - h mod 8) mod 8) ws (append_rec (KV 99 99) false 0)) (seq 0 8), View 8 h (h + length ws) 0).
Definition fl_runs (ts : bool) : list (list (wrapped kv)) := map (fl_run ts) (seq 0 18).
Definition fl_batches (ts : bool) : list (batch kv) := map (fun n => fl_ring n (fl_run ts n)) (seq 0 18).

Example fl_valid : forall l, valid_cfg (fl_cfg l).
Proof. intros. unfold valid_cfg, fl_cfg; simpl; repeat split; lia || auto. Qed.
Example fl_shows : forall ts, Forall2 shows (fl_batches ts) (fl_runs ts).
Proof.
  assert (S : forall ts l, (forall n, In n l -> shows (fl_ring n (fl_run ts n)) (fl_run ts n)) ->
    Forall2 shows (map (fun n => fl_ring n (fl_run ts n)) l) (map (fl_run ts) l)).
  { induction l as [|n l IH]; intros H; constructor; [apply H; left; auto|]. apply IH. intros; apply H; right; auto. }
  intros ts. apply S. intros n H. apply in_seq in H.
  do 18 (destruct n as [|n]; [destruct ts; (split; [reflexivity|]; split; [reflexivity|]; split; [vm_compute; lia|]);
    intros i I; cbn in I; do 8 (destruct i as [|i]; [try reflexivity; lia|]); lia|]). lia.
Qed.
Example fl_sizes : forall ts, Forall (run_size 5) (fl_runs ts).
Proof. intros []; (repeat constructor). Qed.
Example fl_plain : Forall all_plain (fl_runs false).
Proof. apply Forall_forall. intros ws H w Hw. vm_compute in H. repeat (destruct H as [<-|H]; [vm_compute in Hw;
  repeat (destruct Hw as [<-|Hw]; [split; reflexivity|]); destruct Hw|]). destruct H. Qed.
Example fl_mostly : Forall mostly_plain (fl_runs true).
Proof.
  apply Forall_forall. intros ws H. vm_compute in H. repeat (destruct H as [<-|H]; [split; [vm_compute; lia|];
  intros w Hw; repeat (destruct Hw as [<-|Hw]; [reflexivity|]); destruct Hw|]). destruct H.
Qed.
(** They run in every layout, and give three levels. *)
Example fl_flush : forall l ts, exists st, flush_all by_version (fl_cfg l) st_empty (fl_batches ts) = Ok st /\
  3 <= length (st_runs st) /\ length (concat (fl_runs ts)) = (if ts then 55 else 51) /\
  length (st_records st) = (if ts then 47 else 51).
Proof.
  intros [] []; eexists; (split; [vm_compute; reflexivity|]); vm_compute; repeat split; lia.
Qed.

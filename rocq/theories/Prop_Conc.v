(** The buffer under concurrency, for any number of threads (C16, C17, C19, C20, C21,
    C41).  [creach ok s s'] says that some interleaving leads from [s] to [s'], all of
    whose actions satisfy [ok]; [disciplined] is the epoch protocol together with
    flushes that wait for the appends they cover. *)
From Coq Require Import List Arith ZArith NArith Lia Bool.
From Verif Require Import Base RecordModel RecordProofs BufferModel MergeModel BufConcModel BufConcProofs BufConcView
  BufConcData BufConcTrace.
Import ListNotations.

Definition app {R} (t : nat) (r : R) : list (act R) := Call t (Append r false) :: steps t 6.
Definition flush {R} (n : nat) : list (act R) := Advance n :: repeat AdvStep 6.
(** A view of the current head. *)
Definition look {R} (t h : nat) : list (act R) := Call t (View_ h) :: steps t 5.

Definition ra := KV 1 10.
Definition rb := KV 2 20.
Definition rc := KV 3 30.
Definition rd := KV 4 40.

(** C16: whatever the interleaving and the calls, at most [hwm] records are buffered,
    every position below the tail was given to exactly one append, and no two buffered
    positions share a slot. *)
Theorem C16_buffer_bounded {R : Type} {RO : RecOps R} :
  forall hwm cap ok n (s : cstate R), creach hwm cap ok (cs_init hwm cap n) s ->
  hidx (cb_head (cs_buf s)) <= cb_tail (cs_buf s) /\ cb_count (cs_buf s) <= hwm /\
  NoDup (map fst (cs_done s) ++ in_flight s) /\
  (forall x, In x (map fst (cs_done s) ++ in_flight s) <-> x < cb_tail (cs_buf s)).
Proof. exact buffer_bounded. Qed.
Print Assumptions C16_buffer_bounded.

Theorem C16_slots {R : Type} {RO : RecOps R} :
  forall hwm cap ok n (s : cstate R) x y, hwm <= cap -> creach hwm cap ok (cs_init hwm cap n) s ->
  hidx (cb_head (cs_buf s)) <= x < cb_tail (cs_buf s) ->
  hidx (cb_head (cs_buf s)) <= y < cb_tail (cs_buf s) ->
  x mod cap = y mod cap -> x = y.
Proof. exact buffer_slots. Qed.
Print Assumptions C16_slots.

(** Two threads race for the last place: one append is refused. *)
Example C16_case :
  match checked 1 2 (fun _ _ => true) (cs_init 1 2 2)
    [Call 0 (Append ra false); Call 1 (Append rb false); Step 0; Step 1; Step 0; Step 1; Step 0; Step 1; Step 1] with
  | Some s => cs_pcs s = [AWrite ra false 0; ARefused] /\ cb_count (cs_buf s) = 1 /\ in_flight s = [0]
  | None => False
  end.
Proof. vm_compute. repeat split. Qed.

(** C17: with the default capacity no append writes a slot of a held view, when the
    callers are disciplined.  Missing: flushes that do not wait for appends in
    progress, where it is false (next theorem). *)
Theorem C17_view_not_overwritten_partial {R : Type} {RO : RecOps R} :
  forall hwm cap n (s : cstate R) h tl x y, 0 < hwm -> 2 * hwm <= cap ->
  creach hwm cap disciplined (cs_init hwm cap n) s ->
  In (Hold h tl) (cs_pcs s) -> In x (in_flight s) -> h <= y < tl ->
  x mod cap = y mod cap -> x = y.
Proof. exact view_not_overwritten. Qed.
Print Assumptions C17_view_not_overwritten_partial.

(** ... so the acknowledged records of a held view stay as they were appended. *)
Theorem C17_view_intact_partial {R : Type} {RO : RecOps R} :
  forall hwm cap n (s : cstate R) h tl y r ts, 0 < hwm -> 2 * hwm <= cap ->
  creach hwm cap disciplined (cs_init hwm cap n) s ->
  In (Hold h tl) (cs_pcs s) -> h <= y < tl -> In (y, (r, ts)) (cs_done s) ->
  nth_error (cb_data (cs_buf s)) (y mod cap) = Some (append_rec r ts (y mod cap)).
Proof. exact (fun hwm cap n s h tl y r ts HW C2 => held_intact hwm cap HW ltac:(lia) n s h tl y r ts C2). Qed.
Print Assumptions C17_view_intact_partial.

(** A view of the old head is held while appends fill the ring behind it. *)
Definition c17_run : list (act kv) :=
  app 0 ra ++ app 0 rb ++ look 1 0 ++ flush 2 ++ app 0 rc ++ Call 0 (Append rd false) :: steps 0 3.
Example C17_case :
  match checked 2 4 (fun s a => epochs_okb s a && quietb s a) (cs_init 2 4 2) c17_run with
  | Some s =>
      In (Hold 0 2) (cs_pcs s) /\ In 3 (in_flight s) /\ In (0, (ra, false)) (cs_done s) /\
      hidx (cb_head (cs_buf s)) = 2 /\
      nth_error (cb_data (cs_buf s)) 0 = Some (append_rec ra false 0)
  | None => False
  end.
Proof. vm_compute. repeat split; auto. Qed.

(** C17 is false of the code: an append that reserved its slot before two flushes
    overwrites the acknowledged record in a held view. *)
Definition c17_late : list (act kv) :=
  (Call 0 (Append ra false) :: steps 0 3) ++ flush 1 ++ app 1 rb ++ flush 2 ++ app 1 rc ++ look 2 2.
Theorem C17_late_write_refuted :
  exists n (s s' : cstate kv), creach 1 2 epochs_ok (cs_init 1 2 n) s /\
    In (Hold 2 3) (cs_pcs s) /\ In (2, (rc, false)) (cs_done s) /\
    nth_error (cb_data (cs_buf s)) (2 mod 2) = Some (append_rec rc false 0) /\
    cexec 1 2 s (Step 0) = Some s' /\ In (Hold 2 3) (cs_pcs s') /\
    nth_error (cb_data (cs_buf s')) (2 mod 2) = Some (fresh ra false).
Proof.
  exists 3. eexists. eexists.
  split; [apply checked_epochs with (l := c17_late); vm_compute; reflexivity|].
  vm_compute. repeat split; auto.
Qed.
Print Assumptions C17_late_write_refuted.

(** The capacity matters: with one slot more than the high watermark a disciplined
    run overwrites a held view. *)
Theorem C17_capacity_refuted :
  exists n (s : cstate kv), creach 2 3 disciplined (cs_init 2 3 n) s /\
    In (Hold 0 2) (cs_pcs s) /\ In (0, (ra, false)) (cs_done s) /\
    nth_error (cb_data (cs_buf s)) (0 mod 3) = Some (append_rec rd false 0).
Proof.
  exists 2. eexists.
  split; [apply checked_views with (l := app 0 ra ++ app 0 rb ++ look 1 0 ++ flush 2 ++ app 0 rc ++ app 0 rd);
          vm_compute; reflexivity|].
  vm_compute. repeat split; auto.
Qed.
Print Assumptions C17_capacity_refuted.

(** C19: while a view of the old head is held advance_head is refused and changes
    nothing, and nothing else moves the head.  Missing: undisciplined callers. *)
Theorem C19_advance_refused_partial {R : Type} {RO : RecOps R} :
  forall hwm cap n (s : cstate R) m h tl s', 0 < hwm -> hwm <= cap ->
  creach hwm cap disciplined (cs_init hwm cap n) s ->
  cs_adv s = VRef m -> In (Hold h tl) (cs_pcs s) -> h < hidx (cb_head (cs_buf s)) ->
  cexec hwm cap s AdvStep = Some s' ->
  cs_adv s' = VIdle /\ cs_buf s' = cs_buf s /\ cs_pcs s' = cs_pcs s.
Proof. exact (fun hwm cap n s m h tl s' HW CP => held_blocks hwm cap HW CP n s m h tl s'). Qed.
Print Assumptions C19_advance_refused_partial.

Theorem C19_head_kept_partial {R : Type} {RO : RecOps R} :
  forall hwm cap n (s : cstate R) h tl a s', 0 < hwm -> hwm <= cap ->
  creach hwm cap disciplined (cs_init hwm cap n) s ->
  In (Hold h tl) (cs_pcs s) -> h < hidx (cb_head (cs_buf s)) ->
  cexec hwm cap s a = Some s' -> hidx (cb_head (cs_buf s')) = hidx (cb_head (cs_buf s)).
Proof. exact (fun hwm cap n s h tl a s' HW CP => held_keeps_head hwm cap HW CP n s h tl a s'). Qed.
Print Assumptions C19_head_kept_partial.

(** [C17_case] continued: a second flush is refused. *)
Example C19_case :
  match checked 2 4 (fun s a => epochs_okb s a && quietb s a) (cs_init 2 4 2)
          (c17_run ++ [Advance 3; AdvStep; AdvStep]) with
  | Some s =>
      cs_adv s = VRef 3 /\ In (Hold 0 2) (cs_pcs s) /\ hidx (cb_head (cs_buf s)) = 2 /\
      match cexec 2 4 s AdvStep with
      | Some s' => cs_adv s' = VIdle /\ hidx (cb_head (cs_buf s')) = 2
      | None => False
      end
  | None => False
  end.
Proof. vm_compute. repeat split; auto. Qed.

(** C19, the converse, is false of the code: when a release races with a flush the
    wrong counter is decremented, and although nobody holds a view of the old head no
    later flush succeeds. *)
Definition c19_leak : list (act kv) :=
  app 0 ra ++ look 1 0 ++ Call 1 Release :: steps 1 1 ++ flush 1 ++ look 2 1 ++ steps 1 2 ++ app 0 rb.
Theorem C19_stuck_refuted :
  exists n (s : cstate kv), creach 2 4 disciplined (cs_init 2 4 n) s /\
    (forall p, In p (cs_pcs s) -> holds (hidx (cb_old (cs_buf s))) p = false) /\
    cs_adv s = VIdle /\ cb_count (cs_buf s) = 1 /\
    forall s', creach 2 4 disciplined s s' ->
      hidx (cb_head (cs_buf s')) = hidx (cb_head (cs_buf s)).
Proof.
  exists 3. eexists.
  assert (RE : creach 2 4 disciplined (cs_init 2 4 3) ltac:(let x := eval vm_compute in
    (match checked 2 4 (fun s a => epochs_okb s a && quietb s a) (cs_init 2 4 3) c19_leak with
     | Some s => s | None => cs_init 2 4 3 end) in exact x)).
  { apply checked_views with (l := c19_leak). vm_compute. reflexivity. }
  split; [exact RE|]. split; [|split; [reflexivity|split; [reflexivity|]]].
  - intros p I. vm_compute in I. decompose [or] I; subst; try reflexivity; contradiction.
  - intros s' H. eapply (leaked_forever 2 4 3); [lia|exact RE| |exact H].
    split; vm_compute; auto.
Qed.
Print Assumptions C19_stuck_refuted.

(** C20: an acknowledged record is in its slot until it is flushed, and when a flush
    of the positions below [m] ends, all of them were acknowledged and are in their
    slots, so the flush read them.  Missing: flushes that do not wait for appends in
    progress, where it is false (below); the shards built by the flush (C12, C38). *)
Theorem C20_buffered_partial {R : Type} {RO : RecOps R} :
  forall hwm cap n (s : cstate R) y r ts, 0 < hwm -> hwm <= cap ->
  creach hwm cap disciplined (cs_init hwm cap n) s ->
  In (y, (r, ts)) (cs_done s) -> hidx (cb_head (cs_buf s)) <= y ->
  nth_error (cb_data (cs_buf s)) (y mod cap) = Some (append_rec r ts (y mod cap)).
Proof. exact (fun hwm cap n s y r ts HW CP => buffered_intact hwm cap HW CP n s y r ts). Qed.
Print Assumptions C20_buffered_partial.

Theorem C20_flushed_partial {R : Type} {RO : RecOps R} :
  forall hwm cap n (s : cstate R) m y, 0 < hwm -> hwm <= cap ->
  creach hwm cap disciplined (cs_init hwm cap n) s ->
  quiet s (Advance m) -> hidx (cb_head (cs_buf s)) <= y < m ->
  exists r ts, In (y, (r, ts)) (cs_done s) /\
    nth_error (cb_data (cs_buf s)) (y mod cap) = Some (append_rec r ts (y mod cap)).
Proof. exact (fun hwm cap n s m y HW CP => flush_complete hwm cap HW CP n s m y). Qed.
Print Assumptions C20_flushed_partial.

(** The end of [c17_run]: position 2 may be flushed, position 3 is in progress. *)
Example C20_case :
  match checked 2 4 (fun s a => epochs_okb s a && quietb s a) (cs_init 2 4 2) c17_run with
  | Some s => quietb s (Advance 3) = true /\ quietb s (Advance 4) = false /\ In (2, (rc, false)) (cs_done s)
  | None => False
  end.
Proof. vm_compute. repeat split; auto. Qed.

(** C20 is false of the code: a flush between the reservation of a slot and its
    write builds a shard from a slot that was never written, with the default record in
    it; then the append returns 1 and its record is behind the head. *)
Theorem C20_lost_refuted :
  exists n (s1 s2 : cstate kv), creach 1 2 epochs_ok (cs_init 1 2 n) s1 /\
    In (Hold 0 1) (cs_pcs s1) /\
    (exists sh, shard_from_view (cb_data (cs_buf s1)) (View 2 0 1 0) = Ok sh /\
       s_data sh = [W 0 (KV 0 0)]) /\
    creach 1 2 epochs_ok s1 s2 /\ hidx (cb_head (cs_buf s2)) = 1 /\
    In (0, (ra, false)) (cs_done s2).
Proof.
  exists 2. eexists. eexists.
  split; [apply checked_epochs with (l := Call 0 (Append ra false) :: steps 0 3 ++ look 1 0); vm_compute; reflexivity|].
  split; [vm_compute; auto|]. split; [eexists; split; vm_compute; reflexivity|].
  split; [apply checked_epochs with (l := Call 1 Release :: steps 1 3 ++ flush 1 ++ steps 0 3); vm_compute; reflexivity|].
  split; [reflexivity|vm_compute; auto].
Qed.
Print Assumptions C20_lost_refuted.

(** C21 is false of the code even when flushes wait: a view that covers an append in
    progress shows the record of the previous lap, which was flushed. *)
Theorem C21_stale_slot_refuted :
  exists n (s : cstate kv) w, creach 1 2 disciplined (cs_init 1 2 n) s /\
    In (Hold 2 3) (cs_pcs s) /\ hidx (cb_head (cs_buf s)) = 2 /\
    In (0, (ra, false)) (cs_done s) /\ map fst (cs_done s) = [1; 0] /\
    nth_error (cb_data (cs_buf s)) (2 mod 2) = Some w /\ wrec w = ra /\ is_vis w = true.
Proof.
  exists 3. eexists. eexists.
  split; [apply checked_views with (l := app 0 ra ++ flush 1 ++ app 0 rb ++ flush 2 ++
            (Call 1 (Append rc false) :: steps 1 3) ++ look 2 2); vm_compute; reflexivity|].
  vm_compute. repeat split; auto.
Qed.
Print Assumptions C21_stale_slot_refuted.

(** C41: an append refused by its first check that did not read a tail behind the
    head, or refused before the first flush, found [hwm] records.  Missing: the other
    refusals, where it is false (next theorems). *)
Theorem C41_refused_full_partial {R : Type} {RO : RecOps R} :
  forall hwm cap ok n (s : cstate R) t s' p, creach hwm cap ok (cs_init hwm cap n) s ->
  nth_error (cs_pcs s) t = Some p -> cexec hwm cap s (Step t) = Some s' ->
  nth_error (cs_pcs s') t = Some ARefused ->
  (hidx (cb_head (cs_buf s)) = 0 \/
   exists r ts old, p = AHead r ts old /\ hidx (cb_head (cs_buf s)) <= old) ->
  cb_count (cs_buf s) = hwm.
Proof. exact refused_full. Qed.
Print Assumptions C41_refused_full_partial.

(** In [C16_case] the second thread is refused by the retry check, with head 0. *)
Example C41_case :
  match checked 1 2 (fun _ _ => true) (cs_init 1 2 2)
    [Call 0 (Append ra false); Call 1 (Append rb false); Step 0; Step 1; Step 0; Step 1; Step 0; Step 1] with
  | Some s => nth_error (cs_pcs s) 1 = Some (ARetry rb false 1) /\ hidx (cb_head (cs_buf s)) = 0 /\
      cb_count (cs_buf s) = 1
  | None => False
  end.
Proof. vm_compute. repeat split. Qed.

(** C41 is false of the code: after a flush, losing one race for the tail is enough
    to be refused; one of two places was taken during the whole call. *)
Definition c41_call : list (act kv) :=
  [Call 1 (Append rd false); Step 1; Step 1; Step 0; Step 1; Step 1].
Theorem C41_contention_refuted :
  exists n (s s' : cstate kv), creach 2 4 disciplined (cs_init 2 4 n) s /\
    nth_error (cs_pcs s) 1 = Some Idle /\ csched 2 4 s c41_call = Some s' /\
    nth_error (cs_pcs s') 1 = Some ARefused /\
    forall k sk, csched 2 4 s (firstn k c41_call) = Some sk -> cb_count (cs_buf sk) < 2.
Proof.
  exists 2. eexists. eexists.
  split; [apply checked_views with (l := app 0 ra ++ app 0 rb ++ flush 2 ++ Call 0 (Append rc false) :: steps 0 2);
          vm_compute; reflexivity|].
  split; [reflexivity|]. split; [vm_compute; reflexivity|]. split; [reflexivity|].
  intros k sk H. do 7 (destruct k as [|k]; [vm_compute in H; inversion H; vm_compute; lia|]).
  vm_compute in H. inversion H; vm_compute; lia.
Qed.
Print Assumptions C41_contention_refuted.

(** C41 is false of the code: a tail read before a flush is smaller than the head read
    after it, and the unsigned difference looks full; at most one of two places was
    taken during the call. *)
Definition c41_under : list (act kv) :=
  Call 1 (Append rd false) :: Step 1 :: app 0 ra ++ flush 1 ++ [Step 1].
Theorem C41_underflow_refuted :
  exists n (s' : cstate kv), csched 2 4 (cs_init 2 4 n) c41_under = Some s' /\
    nth_error (cs_pcs s') 1 = Some ARefused /\
    forall k sk, csched 2 4 (cs_init 2 4 n) (firstn k c41_under) = Some sk -> cb_count (cs_buf sk) < 2.
Proof.
  exists 2. eexists. split; [vm_compute; reflexivity|]. split; [reflexivity|].
  intros k sk H. do 18 (destruct k as [|k]; [vm_compute in H; inversion H; vm_compute; lia|]).
  vm_compute in H. inversion H; vm_compute; lia.
Qed.
Print Assumptions C41_underflow_refuted.

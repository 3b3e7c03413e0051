(** How the benchmarks fill an index (C82). *)
From Coq Require Import List Arith ZArith NArith Lia Bool Permutation.
From Verif Require Import Base RecordModel RecordProofs MergeModel MergeProofs StructModel ExtModel Spec
  DriveModel DriveSpec DriveProofs DriveTag.
Import ListNotations.

(** C82: with as many positions to delete as the random numbers ask for, the driver
    inserts the given records once each and in order, and erases the records at
    consecutive positions of the list, each after an insert and none that was not inserted
    before.  It ends if the calls succeed, and never if one of them returns 0 and leaves
    the index as it is; for every kind of shards, every configuration, every sequence of
    random numbers and every state of the index. *)
Theorem C82_calls {R : Type} {RO : RecOps R} :
  forall (B : builders R) C recs dels deleting coin start stop di c,
  start <= stop <= length recs -> (deleting = true -> di + countb coin (seq c (stop - start)) <= length dels) ->
  exists ops d', inserted ops = slice start (stop - start) recs /\
    di <= d' <= di + (stop - start) /\
    map Some (erased ops) = map (nth_error recs) (slice di (d' - di) dels) /\
    after_insert ops /\ erases_present (firstn start recs) ops /\
    (deleting = false -> erased ops = [] /\ d' = di) /\
    forall fuel e, 0 < fuel ->
      (forall e' ns, run B C e ops = Ok (e', ns) -> Forall (fun k => k <> 0) ns ->
         insert_records B C recs dels deleting coin fuel start stop di c e = Ok (e', d')) /\
      (forall pre o post e' ns, ops = pre ++ o :: post -> run B C e pre = Ok (e', ns) -> Forall (fun k => k <> 0) ns ->
         step B C e' o = Ok (e', 0) ->
         insert_records B C recs dels deleting coin fuel start stop di c e = Fail FLoop).
Proof. exact driver_calls. Qed.
Print Assumptions C82_calls.

(** C82: filling a new index without deletes succeeds, repeats no call, and leaves
    exactly the given records. *)
Theorem C82_fill {R : Type} {RO : RecOps R} {RL : RecLaws R} (qlt : qorder R) {QO : QOrder qlt} :
  forall C recs dels coin start stop di c fuel e0, valid_cfg C ->
  start <= stop <= length recs -> 0 < fuel -> ext_new C = Ok e0 ->
  exists e, insert_records qlt C recs dels false coin fuel start stop di c e0 = Ok (e, di) /\
    get_record_count e = Ok (e, stop - start) /\
    exists ops, insert_only ops /\ inserted ops = slice start (stop - start) recs /\
      run_new qlt C ops = Ok (e, repeat 1 (length ops)).
Proof. exact (driver_fill qlt). Qed.
Print Assumptions C82_fill.

(** C82: filling a new index with tombstone deletes succeeds when the deletes are few
    enough.  Missing: more deletes (false, see C82_cancel_refuted) and lists of positions
    that are too short (false, see C82_short_refuted). *)
Theorem C82_tombstones_partial {R : Type} {RO : RecOps R} {RL : RecLaws R} (qlt : qorder R) {QO : QOrder qlt} :
  forall C recs dels coin start stop di c fuel e0, valid_cfg C -> c_del C = TOMBSTONE ->
  start <= stop <= length recs -> di + countb coin (seq c (stop - start)) <= length dels -> 0 < fuel -> ext_new C = Ok e0 ->
  exists ops d', inserted ops = slice start (stop - start) recs /\
    map Some (erased ops) = map (nth_error recs) (slice di (d' - di) dels) /\
    erases_present (firstn start recs) ops /\
    (mostly_inserts (c_lwm C) ops ->
     exists e, insert_records qlt C recs dels true coin fuel start stop di c e0 = Ok (e, d') /\
       run_new qlt C ops = Ok (e, repeat 1 (length ops))).
Proof. exact (driver_tombstones qlt). Qed.
Print Assumptions C82_tombstones_partial.

(** C82: filling a new index with tagging deletes succeeds and leaves exactly the live
    records untagged, when no records are equal, no position is listed twice, and in
    every block of low-watermark many inserted records one is never erased.  Missing:
    positions listed twice (false, see C82_repeated_refuted), flushes that are erased
    completely (false, see C82_erased_refuted), and equal records. *)
Theorem C82_tagging_partial {R : Type} {RO : RecOps R} {RL : RecLaws R} (qlt : qorder R) {QO : QOrder qlt} :
  forall C recs dels coin stop di c fuel e0, valid_cfg C -> c_del C = TAGGING ->
  all_different recs -> NoDup dels ->
  stop <= length recs -> di + countb coin (seq c stop) <= length dels -> 0 < fuel -> ext_new C = Ok e0 ->
  exists ops d', inserted ops = firstn stop recs /\
    map Some (erased ops) = map (nth_error recs) (slice di (d' - di) dels) /\
    erases_present [] ops /\
    (survivors (c_lwm C) ops ->
     exists e, insert_records qlt C recs dels true coin fuel 0 stop di c e0 = Ok (e, d') /\
       run_new qlt C ops = Ok (e, repeat 1 (length ops)) /\
       Permutation (map wrec (filter (fun w => negb (is_del w)) (stored e))) (live ops)).
Proof. exact (driver_tagging qlt). Qed.
Print Assumptions C82_tagging_partial.

Definition dr_recs : list kv := map (fun i => KV (Z.of_nat i) 0%Z) (seq 0 12).
Definition dr_fill (C : cfg) (dels : list nat) (coin : nat -> bool) (fuel stop : nat) : res (ext kv * nat) :=
  do e <- ext_new C; insert_records by_version C dr_recs dels true coin fuel 0 stop 0 0 e.
Example C82_case :
  let C := Cfg TIERING TOMBSTONE 3 3 2 in
  valid_cfg C /\
  match dr_fill C [0; 1; 4; 5; 6; 7; 8; 9; 10] (fun c => c mod 3 =? 2) 1 9,
        run_new by_version C [Ins (KV 0 0); Ins (KV 1 0); Ins (KV 2 0); Del (KV 0 0); Ins (KV 3 0); Ins (KV 4 0);
                              Ins (KV 5 0); Del (KV 1 0); Ins (KV 6 0); Ins (KV 7 0); Ins (KV 8 0); Del (KV 4 0)]%Z with
  | Ok (e, d'), Ok (e', _) => d' = 3 /\ e = e'
  | _, _ => False
  end.
Proof. split; [unfold valid_cfg; simpl; repeat split; lia || discriminate|]. vm_compute. split; reflexivity. Qed.

(** C82 fails: when all positions have been used the list is read past its end. *)
Theorem C82_short_refuted : exists C dels coin, valid_cfg C /\ c_del C = TOMBSTONE /\
  forall fuel, 0 < fuel -> dr_fill C dels coin fuel 3 = Fail FOob.
Proof.
  exists (Cfg TIERING TOMBSTONE 8 8 2), [0; 1], (fun _ => true).
  split; [unfold valid_cfg; simpl; repeat split; lia || discriminate|]. split; auto.
  intros [|fuel] F; [lia|]. vm_compute. reflexivity.
Qed.
Print Assumptions C82_short_refuted.

(** C82 fails: a record erased as soon as it is inserted leaves shards without records,
    and their merge reads outside an array. *)
Theorem C82_cancel_refuted : exists C dels coin, valid_cfg C /\ c_del C = TOMBSTONE /\ NoDup dels /\
  10 <= length dels /\ forall fuel, 0 < fuel -> dr_fill C dels coin fuel 10 = Fail FOob.
Proof.
  exists (Cfg TIERING TOMBSTONE 2 2 2), (seq 0 12), (fun _ => true).
  split; [unfold valid_cfg; simpl; repeat split; lia || discriminate|]. split; auto. split; [apply seq_NoDup|].
  split; [simpl; lia|]. intros [|fuel] F; [lia|]. vm_compute. reflexivity.
Qed.
Print Assumptions C82_cancel_refuted.

(** C82 fails: with tagging, a position that is listed again makes the driver repeat an
    erase for ever (a list that was not filled up has the position 0 at its end). *)
Theorem C82_repeated_refuted : exists C dels coin, valid_cfg C /\ c_del C = TAGGING /\ 3 <= length dels /\
  forall fuel, dr_fill C dels coin fuel 3 = Fail FLoop.
Proof.
  exists (Cfg TIERING TAGGING 2 2 2), [0; 0; 0; 0], (fun _ => true).
  split; [unfold valid_cfg; simpl; repeat split; lia || discriminate|]. split; auto. split; [simpl; lia|].
  intros fuel. unfold dr_fill. destruct (ext_new (Cfg TIERING TAGGING 2 2 2)) as [e|] eqn:E; [|discriminate].
  cbn [bind]. vm_compute in E. injection E as <-.
  eapply (drive_stuck _ _ _ _ _ _ _ _ _ _ _ _ _
            [Ins (KV 0 0); Del (KV 0 0); Ins (KV 1 0); Del (KV 0 0); Ins (KV 2 0)]%Z (Del (KV 0 0)%Z) []).
  - vm_compute. reflexivity.
  - reflexivity.
  - vm_compute. reflexivity.
  - repeat constructor; discriminate.
  - vm_compute. reflexivity.
Qed.
Print Assumptions C82_repeated_refuted.

(** C82 fails: with tagging, records erased as soon as they are inserted leave shards
    without records, and their merge reads outside an array; here no position is listed
    twice. *)
Theorem C82_erased_refuted : exists C dels coin, valid_cfg C /\ c_del C = TAGGING /\ NoDup dels /\
  10 <= length dels /\ forall fuel, 0 < fuel -> dr_fill C dels coin fuel 10 = Fail FOob.
Proof.
  exists (Cfg TIERING TAGGING 2 2 2), (seq 0 12), (fun _ => true).
  split; [unfold valid_cfg; simpl; repeat split; lia || discriminate|]. split; auto. split; [apply seq_NoDup|].
  split; [simpl; lia|]. intros [|fuel] F; [lia|]. vm_compute. reflexivity.
Qed.
Print Assumptions C82_erased_refuted.

(** The records and positions of the examples are different; with tagging, three records
    of nine are erased, and six are stored untagged. *)
Definition dr_ops : list (op kv) :=
  [Ins (KV 0 0); Ins (KV 1 0); Ins (KV 2 0); Del (KV 0 0); Ins (KV 3 0); Ins (KV 4 0);
   Ins (KV 5 0); Del (KV 1 0); Ins (KV 6 0); Ins (KV 7 0); Ins (KV 8 0); Del (KV 4 0)]%Z.
Example C82_case_tagging : all_different dr_recs /\ NoDup [0; 1; 4; 5; 6; 7; 8; 9; 10] /\ survivors 3 dr_ops /\
  forall l, let C := Cfg l TAGGING 3 3 2 in valid_cfg C /\
  match dr_fill C [0; 1; 4; 5; 6; 7; 8; 9; 10] (fun c => c mod 3 =? 2) 1 9, run_new by_version C dr_ops with
  | Ok (e, d'), Ok (e', ns) => d' = 3 /\ e = e' /\ ns = repeat 1 12 /\
      length (filter (fun w => negb (is_del w)) (stored e)) = 6
  | _, _ => False
  end.
Proof.
  split; [|split; [repeat constructor; simpl; lia|split]].
  - intros i j a b H1 H2 Q. unfold dr_recs in *.
    apply nth_error_In in H1 as I1. apply nth_error_In in H2 as I2.
    assert (K : forall k x, nth_error (map (fun i => KV (Z.of_nat i) 0%Z) (seq 0 12)) k = Some x -> x = KV (Z.of_nat k) 0%Z).
    { intros k x H. do 12 (destruct k; [injection H as <-; reflexivity|]). simpl in H. destruct k; discriminate. }
    apply K in H1, H2. subst. cbn in Q. apply andb_true_iff in Q as (Q & _). apply Z.eqb_eq in Q. cbn in Q. lia.
  - intros k H. simpl in H. destruct k as [|[|[|k]]]; [| | |lia].
    + exists (KV 2 0). vm_compute. auto.
    + exists (KV 3 0). vm_compute. auto.
    + exists (KV 6 0). vm_compute. auto.
  - intros l. split; [destruct l; unfold valid_cfg; simpl; repeat split; lia || discriminate|].
    destruct l; vm_compute; repeat split; reflexivity.
Qed.

(** The benchmark programs from the data file to the filled index (C87). *)
From Coq Require Import List Arith ZArith NArith Lia Bool Permutation Sorted.
From Verif Require Import Base RecordModel RecordProofs MergeModel MergeProofs StructModel ExtModel Spec
  DriveModel DriveSpec DriveProofs FileModel FileSpec ProgModel ProgProofs.
Import ListNotations.

(** C87: the chosen positions are increasing, so that none is chosen twice, and are those
    for which the random number asks, until there are enough. *)
Theorem C87_positions : forall coin n size js c, picks coin size n 0 0 = (js, c) ->
  StronglySorted lt js /\ js = filter coin (seq 0 c) /\ c <= n /\ length js <= size /\ (c = n \/ length js = size).
Proof. exact positions_chosen. Qed.
Print Assumptions C87_positions.

(** C87: with erases by tagging, the program inserts the [n] records of the file, the
    first [w] of them without erases between them, erases those at the chosen positions
    that it comes to, and ends with the records stored that were not erased.  The random
    numbers must ask for no more erases than positions were chosen, and in every block of
    low-watermark many records one must remain.  Missing: more erases (false, see
    C87_unfilled_refuted), and blocks that are erased completely (false, see C82_erased_refuted). *)
Theorem C87_tagging_partial (qlt : qorder kv) {QO : QOrder qlt} : forall C coin k key_of ks rest fuel n size w js c,
  valid_cfg C -> c_del C = TAGGING -> Forall (fits k) ks -> w <= n <= length ks -> 0 < fuel ->
  picks coin size n 0 0 = (js, c) -> countb coin (seq c (n - w)) <= length js ->
  exists recs ops d', length recs = n /\
    (forall i x, i < n -> nth_error ks i = Some x -> nth_error recs i = Some (KV (key_of x) (Z.of_nat i))) /\
    inserted ops = recs /\ d' <= length js /\
    map Some (erased ops) = map (nth_error recs) (firstn d' js) /\
    (survivors (c_lwm C) ops ->
     exists e, bench_fill coin qlt C k key_of fuel n size w (concat (map (le_bytes k) ks) ++ rest) = Ok (e, d') /\
       run_new qlt C ops = Ok (e, repeat 1 (length ops)) /\
       Permutation (map wrec (filter (fun w => negb (is_del w)) (stored e))) (live ops)).
Proof. exact (program_tagging qlt). Qed.
Print Assumptions C87_tagging_partial.

(** C87: with tombstones the same, if in every block of low-watermark many operations
    there are more inserts than erases; of every record the copies stored and the
    tombstones stored then differ as the inserts and erases do.  Missing: blocks with
    more erases (false, see C82_cancel_refuted). *)
Theorem C87_tombstones_partial (qlt : qorder kv) {QO : QOrder qlt} : forall C coin k key_of ks rest fuel n size w js c,
  valid_cfg C -> c_del C = TOMBSTONE -> Forall (fits k) ks -> w <= n <= length ks -> 0 < fuel ->
  picks coin size n 0 0 = (js, c) -> countb coin (seq c (n - w)) <= length js ->
  exists recs ops d', length recs = n /\
    (forall i x, i < n -> nth_error ks i = Some x -> nth_error recs i = Some (KV (key_of x) (Z.of_nat i))) /\
    inserted ops = recs /\ d' <= length js /\
    map Some (erased ops) = map (nth_error recs) (firstn d' js) /\
    (mostly_inserts (c_lwm C) ops ->
     exists e, bench_fill coin qlt C k key_of fuel n size w (concat (map (le_bytes k) ks) ++ rest) = Ok (e, d') /\
       run_new qlt C ops = Ok (e, repeat 1 (length ops)) /\
       forall r, n_plain r (stored e) + n_del r ops = n_tomb r (stored e) + n_ins r ops).
Proof. exact (program_tombstones qlt). Qed.
Print Assumptions C87_tombstones_partial.

(** ** A case: ten keys, three positions, a warm-up of two records *)

Definition pg_keys : list N := [40; 10; 40; 20; 7; 300; 0; 1; 2; 3]%N.
Definition pg_coin (c : nat) : bool := existsb (Nat.eqb c) [0; 3; 4; 8; 11].
Definition pg_rec (i : nat) : kv := KV (Z.of_N (nth i pg_keys 0%N)) (Z.of_nat i).
Definition pg_ops : list (op kv) :=
  map (fun i => Ins (pg_rec i)) (seq 0 6) ++ [Del (pg_rec 0)] ++ map (fun i => Ins (pg_rec i)) (seq 6 3) ++
  [Del (pg_rec 3)] ++ [Ins (pg_rec 9)].

Example C87_case : Forall (fits 8) pg_keys /\ picks pg_coin 3 10 0 0 = ([0; 3; 4], 5) /\
  countb pg_coin (seq 5 8) = 2 /\ survivors 3 pg_ops /\ mostly_inserts 3 pg_ops /\
  forall l d, let C := Cfg l d 3 4 2 in valid_cfg C /\
  match bench_fill pg_coin by_version C 8 Z.of_N 1 10 3 2 (concat (map (le_bytes 8) pg_keys)),
        run_new by_version C pg_ops with
  | Ok (e, d'), Ok (e', ns) => d' = 2 /\ e = e' /\ ns = repeat 1 12 /\ length (live pg_ops) = 8
  | _, _ => False
  end.
Proof.
  split; [repeat constructor|]. split; [reflexivity|]. split; [reflexivity|].
  split; [intros k H; change (length (inserted pg_ops)) with 10 in H; destruct k as [|[|[|k]]]; [| | |lia]|].
  - exists (pg_rec 1). vm_compute. auto.
  - exists (pg_rec 4). vm_compute. auto.
  - exists (pg_rec 6). vm_compute. auto.
  - split; [intros k H; change (length pg_ops) with 12 in H; destruct k as [|[|[|[|k]]]]; [vm_compute; lia..|lia]|].
    intros l d. split; [destruct l; unfold valid_cfg; simpl; repeat split; lia || discriminate|].
    destruct l, d; vm_compute; repeat split; reflexivity.
Qed.

(** ** What fails *)

(** C87 fails if more erases are asked for than positions were chosen: the entries that
    were not assigned are 0, and the program erases record 0 again for ever. *)
Theorem C87_unfilled_refuted : exists C coin ks n size w, valid_cfg C /\ c_del C = TAGGING /\ Forall (fits 8) ks /\
  w <= n <= length ks /\ countb coin (seq n (n - w)) <= size /\
  forall fuel, bench_fill coin by_version C 8 Z.of_N fuel n size w (concat (map (le_bytes 8) ks)) = Fail FLoop.
Proof.
  exists (Cfg TIERING TAGGING 2 2 2), (fun c => existsb (Nat.eqb c) [0; 7; 11]), [40; 10; 40; 20; 1; 2; 3]%N, 7, 2, 2.
  split; [unfold valid_cfg; simpl; repeat split; lia || discriminate|]. split; [reflexivity|].
  split; [repeat constructor|]. split; [simpl; lia|]. split; [vm_compute; lia|].
  intros [|fuel]; [vm_compute; reflexivity|].
  unfold bench_fill. destruct (ext_new (Cfg TIERING TAGGING 2 2 2)) as [e|] eqn:E; [|discriminate].
  cbn [bind]. vm_compute in E. injection E as <-.
  match goal with |- (do _ <- ?X; _) = _ => assert (X = Ok [KV 40 0; KV 10 1; KV 40 2; KV 20 3; KV 1 4; KV 2 5; KV 3 6]%Z) as -> by (vm_compute; reflexivity) end.
  cbn [bind length]. match goal with |- (let '(_, _) := ?X in _) = _ => assert (X = ([0], 7)) as -> by (vm_compute; reflexivity) end.
  match goal with |- (do _ <- ?X; _) = _ => destruct X as [[e1 d1]|] eqn:W; [|vm_compute in W; discriminate] end.
  vm_compute in W. injection W as <- <-. cbn [bind].
  eapply (drive_stuck by_version _ _ _ _ _ 5 2 0 7 _
            [Ins (KV 40 2); Del (KV 40 0); Ins (KV 20 3); Ins (KV 1 4); Ins (KV 2 5); Ins (KV 3 6); Del (KV 40 0)]%Z 2
            [Ins (KV 40 2); Del (KV 40 0); Ins (KV 20 3); Ins (KV 1 4); Ins (KV 2 5); Ins (KV 3 6)]%Z (Del (KV 40 0)%Z) []).
  - vm_compute. reflexivity.
  - reflexivity.
  - vm_compute. reflexivity.
  - repeat constructor; discriminate.
  - vm_compute. reflexivity.
Qed.
Print Assumptions C87_unfilled_refuted.

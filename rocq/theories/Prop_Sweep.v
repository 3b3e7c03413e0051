(** The benchmark programs that try many parameters (C95).  [lbf] is the shards'
    get_lower_bound. *)
From Coq Require Import List Arith ZArith NArith Lia Bool Permutation Sorted.
From Verif Require Import Base RecordModel RecordProofs MergeModel MergeProofs StructModel ExtModel QueryModel Spec VPModel VPSpec
  KNNProofs KindModel KindSpec KindProofs DriveModel DriveSpec FileModel FileSpec ProgModel TripProofs NearModel NearSpec NearProofs
  TourSpec SweepModel SweepSpec SweepProofs SweepCount Prop_Size Prop_Prog Prop_Near Prop_Tour.
Import ListNotations.

(** C95: for each of the parameters the program makes a new index, inserts all records,
    which differ, erases those at the first of the chosen positions, as many as the random
    numbers of the round, which follow those of the round before, make [due], and answers each query
    with the [k] nearest of the live records and of some erased ones, the same for all
    queries of the round.  No part of the program fails if there is a query; without one
    it divides by 0.
    Missing: that each index gets the same calls (false, see C95_same_refuted), and what
    C91_text_partial misses: for each round the bound on the random numbers that are at
    most delete_proportion, and [survivors], are assumed. *)
Theorem C95_sweep_partial {R : Type} {RO : RecOps R} {RL : RecLaws R} {D : Type} {DO : DistOps D} {DL : DistLaws D}
  {MO : MetricOps R D} {ML : MetricLaws R D} :
  forall (recs : list R) coin fuel size w js c cs, all_different recs -> w <= length recs -> 0 < fuel ->
  picks coin size (length recs) 0 0 = (js, c) -> Forall (fun C => valid_cfg C /\ c_del C = TAGGING) cs ->
  (forall i, i < length cs -> countb coin (seq (c + i * (length recs - w)) (length recs - w)) <= length js) ->
  exists opss, Forall2 (fun i ops => inserted ops = recs /\
      map Some (erased ops) = map (nth_error recs)
        (firstn (due coin (length recs - w) w (c + i * (length recs - w)) js) js)) (seq 0 (length cs)) opss /\
    (Forall2 (fun C ops => survivors (c_lwm C) ops) cs opss -> exists seen,
     Forall2 (fun ops s => exists xs ys, s = live ops ++ xs /\ Permutation recs (live ops ++ xs ++ ys)) opss seen /\
     forall pop leafsz rng (qs : list (R * nat)), PQMax pop -> Forall (fun q => 0 < snd q) qs ->
     let program := bench_sweep leafsz pop rng coin fuel size w recs qs cs in
     (qs = [] -> cs <> [] -> program = Fail FOob) /\
     (qs <> [] -> exists outss, program = Ok outss /\
       Forall2 (fun s outs => Forall2 (fun q out =>
         nearest (fun x y => dleb (dist (fst q) x) (dist (fst q) y)) (snd q) s out) qs outs) seen outss)).
Proof. exact sweep_ok. Qed.
Print Assumptions C95_sweep_partial.

(** C95: the program that counts (ts_parmsweep.cpp) does the same with tombstones; it
    answers each range with the number of live records in it and of the tombstones stored
    in it, and no more than all the records in it.  It ends with answers if there is a
    query and no shard lies below one of the ranges.
    Missing: the number of live records (false, see C89_erased_refuted), the same calls for
    all parameters (false, see C95_same_refuted), and what C89_tombstones_partial misses. *)
Theorem C95_counts_partial (qlt : qorder kv) {QO : QOrder qlt} (lbf : list (wrapped kv) -> Z -> res nat) (LB : lb_sound lbf) :
  forall (recs : list kv) coin fuel size w js c cs, all_different recs -> w <= length recs -> 0 < fuel ->
  picks coin size (length recs) 0 0 = (js, c) -> Forall (fun C => valid_cfg C /\ c_del C = TOMBSTONE) cs ->
  (forall i, i < length cs -> countb coin (seq (c + i * (length recs - w)) (length recs - w)) <= length js) ->
  exists opss, Forall2 (fun i ops => inserted ops = recs /\
      map Some (erased ops) = map (nth_error recs)
        (firstn (due coin (length recs - w) w (c + i * (length recs - w)) js) js)) (seq 0 (length cs)) opss /\
    (Forall2 (fun C ops => mostly_inserts (c_lwm C) ops) cs opss -> exists es,
     Forall2 (fun p e => run_new qlt (fst p) (snd p) = Ok (e, repeat 1 (length (snd p)))) (combine cs opss) es /\
     forall zs, let program := count_sweep lbf qlt coin fuel size w recs zs cs in
     (zs <> [] -> Forall (fun e => forall q, In q zs -> reached e q) es -> exists nss, program = Ok nss) /\
     (forall nss, program = Ok nss -> (cs <> [] -> zs <> []) /\
       Forall2 (fun p ns => Forall2 (fun q m =>
         m = hits (live (fst p)) q + countb (fun w => key_in (fst q) (snd q) (wrec w) && is_ts w) (stored (snd p)) /\
         m <= hits recs q) zs ns) (combine opss es) nss)).
Proof. exact (count_sweep_ok qlt lbf LB). Qed.
Print Assumptions C95_counts_partial.

(** C95: the programs try each size of the buffer with each scale factor and both
    layouts, and all of these are allowed. *)
Theorem C95_parameters : forall d sizes factors, Forall (fun n => 1 <= n) sizes -> Forall (fun n => 1 <= n) factors ->
  Forall (fun C => valid_cfg C /\ c_del C = d) (sweep_cfgs d sizes factors) /\
  length (sweep_cfgs d sizes factors) = 2 * (length sizes * length factors) /\
  forall l bs sf, l = TIERING \/ l = LEVELING -> In bs sizes -> In sf factors ->
    In (Cfg l d bs bs sf) (sweep_cfgs d sizes factors).
Proof. exact sweep_all. Qed.
Print Assumptions C95_parameters.

(** ** A case: the ten records of C91 with four parameters.  The first round erases two
    records; the random numbers of the others erase none. *)

Definition sw_recs : list kv := map nr_mk nr_points.
Definition sw_opss : list (list (op kv)) := nr_ops :: repeat (map Ins sw_recs) 3.
Definition sw_run (qs : list (kv * nat)) (cs : list cfg) :=
  bench_sweep 2 pop_far (fun _ i c => i + c) pg_coin 1 3 2 sw_recs qs cs.

Example C95_case : all_different sw_recs /\ picks pg_coin 3 10 0 0 = ([0; 3; 4], 5) /\
  sweep_cfgs TAGGING [3] [2; 3] = [Cfg TIERING TAGGING 3 3 2; Cfg TIERING TAGGING 3 3 3; Cfg LEVELING TAGGING 3 3 2; Cfg LEVELING TAGGING 3 3 3] /\
  (forall i, i < 4 -> countb pg_coin (seq (5 + i * 8) 8) <= 3) /\
  map (fun i => due pg_coin 8 2 (5 + i * 8) [0; 3; 4]) (seq 0 4) = [2; 0; 0; 0] /\
  Forall2 (fun C ops => inserted ops = sw_recs /\ survivors (c_lwm C) ops) (sweep_cfgs TAGGING [3] [2; 3]) sw_opss /\
  exists outss, sw_run [(KV 14 0, 2); (KV 62 5, 3)] (sweep_cfgs TAGGING [3] [2; 3]) = Ok outss /\
    map (map (map k_key)) outss =
      [[[25; 10]; [30; 61; 63]]; [[14; 10]; [61; 30; 63]]; [[10; 14]; [30; 61; 63]]; [[14; 10]; [30; 61; 63]]]%Z.
Proof.
  split; [exact nr_different|]. split; [reflexivity|]. split; [reflexivity|].
  split; [intros i H; do 4 (destruct i as [|i]; [vm_compute; lia|]); lia|].
  split; [reflexivity|].
  split; [|eexists; split; vm_compute; reflexivity].
  assert (A : survivors 3 (map Ins sw_recs)).
  { intros k H. change (length (inserted (map Ins sw_recs))) with 10 in H. destruct k as [|[|[|k]]]; [| | |lia].
    - exists (nr_rec 1). vm_compute. auto.
    - exists (nr_rec 4). vm_compute. auto.
    - exists (nr_rec 6). vm_compute. auto. }
  repeat constructor; try exact A. apply C91_case.
Qed.

Definition sw_kept : list kv := map tr_rec (seq 0 10).

Example sw_different : all_different sw_kept.
Proof.
  assert (K : forall i a, nth_error sw_kept i = Some a -> k_val a = Z.of_nat i).
  { intros i a H. do 10 (destruct i as [|i]; [vm_compute in H; injection H as <-; reflexivity|]).
    vm_compute in H. destruct i; discriminate. }
  intros i j a b Hi Hj Q. apply kv_req_eq in Q. subst b. apply K in Hi, Hj. lia.
Qed.

Example C95_counts_case : all_different sw_kept /\
  Forall2 (fun C ops => inserted ops = sw_kept /\ mostly_inserts (c_lwm C) ops)
    (sweep_cfgs TOMBSTONE [3] [2; 3]) (tr_ops :: repeat (map Ins sw_kept) 3) /\
  count_sweep lb_isam by_version pg_coin 1 3 2 sw_kept [(12, 40); (1, 2)]%Z (sweep_cfgs TOMBSTONE [3] [2; 3]) =
    Ok [[4; 1]; [4; 1]; [4; 1]; [4; 1]].
Proof.
  split; [exact sw_different|]. split; [|vm_compute; reflexivity].
  assert (A : mostly_inserts 3 (map Ins sw_kept)).
  { intros k H. change (length (map Ins sw_kept)) with 10 in H. destruct k as [|[|[|[|k]]]]; [vm_compute; lia..|lia]. }
  repeat constructor; try exact A. apply C89_case.
Qed.

(** ** What fails *)

(** C95 fails for the comparison: tried twice, the same parameters give other answers,
    because the random numbers go on and other records are erased. *)
Theorem C95_same_refuted : exists C (recs : list kv) p x y, valid_cfg C /\ c_del C = TAGGING /\ all_different recs /\
  bench_sweep 2 pop_far (fun _ i c => i + c) pg_coin 1 3 2 recs [(p, 1)] [C; C] = Ok [[[x]]; [[y]]] /\ x <> y.
Proof.
  exists (Cfg TIERING TAGGING 3 3 2), sw_recs, (KV 14 0)%Z, (nr_rec 1), (nr_rec 0).
  split; [unfold valid_cfg; simpl; repeat split; lia || discriminate|]. split; [reflexivity|]. split; [exact nr_different|].
  split; [vm_compute; reflexivity|]. vm_compute. discriminate.
Qed.
Print Assumptions C95_same_refuted.

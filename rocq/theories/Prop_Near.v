(** The benchmark programs for nearest neighbours, from their files to the answers (C91). *)
From Coq Require Import List Arith ZArith NArith Lia Bool Permutation Sorted.
From Verif Require Import Base RecordModel RecordProofs MergeModel MergeProofs StructModel ExtModel QueryModel Spec VPModel VPSpec
  KNNProofs KindModel KindSpec KindProofs DriveModel DriveSpec FileModel FileSpec ProgModel TripProofs NearModel NearSpec NearProofs Prop_Size Prop_Prog.
Import ListNotations.

(** C91: with erases by tagging, the program inserts the records of the data file, which
    differ, erases those at the chosen positions that it comes to, and answers each point
    of the query file with the [k] nearest of the live records and of some erased ones,
    [xs], the same for all queries; the static structure gives the [k] nearest live
    records.  No part of the program fails if there is a query; without one it divides
    by 0.  For text files (vptree_bench.cpp); [atof] ignores an end of line.
    Missing: that the index leaves out erased records (false, see C91_erased_refuted),
    equal records (false, see C91_equal_refuted), and what C87_tagging_partial misses. *)
Theorem C91_text_partial {R : Type} {RO : RecOps R} {RL : RecLaws R} {D : Type} {DO : DistOps D} {DL : DistLaws D}
  {MO : MetricOps R D} {ML : MetricLaws R D} :
  forall C V (atof : list N -> V) (mk : list V -> R) dim k n rows qrows coin fuel size w js c,
  valid_cfg C -> c_del C = TAGGING -> (forall a, word a -> atof (a ++ [10%N]) = atof a) ->
  Forall (Forall word) rows -> Forall (fun r => Forall word r /\ 1 <= length r <= dim) qrows -> 0 < k ->
  let recs := map (fun ws => mk (map atof (firstn dim ws))) (firstn n rows) in
  all_different recs -> w <= length recs -> 0 < fuel ->
  picks coin size (length recs) 0 0 = (js, c) -> countb coin (seq c (length recs - w)) <= length js ->
  exists ops d', inserted ops = recs /\ d' <= length js /\ map Some (erased ops) = map (nth_error recs) (firstn d' js) /\
    (survivors (c_lwm C) ops -> exists xs ys, Permutation recs (live ops ++ xs ++ ys) /\
     forall pop leafsz rng srng, PQMax pop ->
     let program := text_nearest leafsz pop rng srng coin C atof mk dim k n fuel size w
       (text (map spaced rows)) (text (map spaced qrows)) in
     let ps := map (fun r => mk (map atof r)) qrows in
     (ps = [] -> program = Fail FOob) /\
     (ps <> [] -> exists outs sts, program = Ok (outs, sts) /\
       Forall2 (fun p out => nearest (fun x y => dleb (dist p x) (dist p y)) k (live ops ++ xs) out) ps outs /\
       Forall2 (fun p out => nearest (fun x y => dleb (dist p x) (dist p y)) k (live ops) (map wrec out)) ps sts)).
Proof. exact near_text. Qed.
Print Assumptions C91_text_partial.

(** C91: the same for binary files (vptree_bench_alt.cpp). *)
Theorem C91_binary_partial {R : Type} {RO : RecOps R} {RL : RecLaws R} {D : Type} {DO : DistOps D} {DL : DistLaws D}
  {MO : MetricOps R D} {ML : MetricLaws R D} :
  forall C (mk : list N -> R) dim k m n ps qs rest rest' coin fuel size w js c,
  valid_cfg C -> c_del C = TAGGING -> (N.of_nat dim < 2 ^ 31)%N ->
  (N.of_nat (length ps) < 2 ^ 31)%N -> (N.of_nat (length qs) < 2 ^ 31)%N ->
  Forall (fun p => length p = dim /\ Forall (fits 8) p) ps -> Forall (fun p => length p = dim /\ Forall (fits 8) p) qs -> 0 < k ->
  let recs := map mk (firstn n ps) in
  all_different recs -> w <= length recs -> 0 < fuel ->
  picks coin size (length recs) 0 0 = (js, c) -> countb coin (seq c (length recs - w)) <= length js ->
  exists ops d', inserted ops = recs /\ d' <= length js /\ map Some (erased ops) = map (nth_error recs) (firstn d' js) /\
    (survivors (c_lwm C) ops -> exists xs ys, Permutation recs (live ops ++ xs ++ ys) /\
     forall pop leafsz rng srng, PQMax pop ->
     let program := binary_nearest leafsz pop rng srng coin C mk dim k m n fuel size w
       (point_file dim ps rest) (point_file dim qs rest') in
     let points := map mk (firstn m qs) in
     (points = [] -> program = Fail FOob) /\
     (points <> [] -> exists outs sts, program = Ok (outs, sts) /\
       Forall2 (fun p out => nearest (fun x y => dleb (dist p x) (dist p y)) k (live ops ++ xs) out) points outs /\
       Forall2 (fun p out => nearest (fun x y => dleb (dist p x) (dist p y)) k (live ops) (map wrec out)) points sts)).
Proof. exact near_binary. Qed.
Print Assumptions C91_binary_partial.

(** ** A case: ten records, of which those with keys 14 and 20 are erased *)

Definition nr_atof (w : list N) : N := fold_left (fun a c => if digit_char c then (10 * a + (c - 48))%N else a) w 0%N.
Definition nr_mk (p : list N) : kv := KV (Z.of_N (nth 0 p 0%N)) (Z.of_N (nth 1 p 0%N)).
Definition nr_rows : list (list (list N)) :=
  [[[49; 52]; [48]]; [[49; 48]; [49]]; [[51; 48]; [50]]; [[50; 48]; [51]]; [[50; 53]; [52]]; [[57; 57]; [53]];
   [[48]; [54]]; [[54; 49]; [55]]; [[50]; [56]]; [[54; 51]; [57]]]%N.
Definition nr_points : list (list N) := map (map nr_atof) nr_rows.
Definition nr_queries : list (list (list N)) := [[[49; 57]]; [[54; 50]; [53]]]%N.
Definition nr_rec (i : nat) : kv := nr_mk (nth i nr_points []).
Definition nr_ops : list (op kv) :=
  map (fun i => Ins (nr_rec i)) (seq 0 6) ++ [Del (nr_rec 0)] ++ map (fun i => Ins (nr_rec i)) (seq 6 3) ++
  [Del (nr_rec 3)] ++ [Ins (nr_rec 9)].
Definition nr_text (l : layout) (rows : list (list (list N))) :=
  text_nearest 2 pop_far (fun i c => i + c) (fun c => c) pg_coin (Cfg l TAGGING 3 4 2) nr_atof nr_mk 2 3 10 1 3 2
    (text (map spaced rows)) (text (map spaced nr_queries)).
Definition nr_binary (l : layout) (ps : list (list N)) :=
  binary_nearest 2 pop_far (fun i c => i + c) (fun c => c) pg_coin (Cfg l TAGGING 3 4 2) nr_mk 2 3 5 10 1 3 2
    (point_file 2 ps [7%N]) (point_file 2 [[19; 0]; [62; 5]]%N []).

Example nr_words : forall w, word w -> nr_atof (w ++ [10%N]) = nr_atof w.
Proof. intros w _. unfold nr_atof. rewrite fold_left_app. reflexivity. Qed.

Example nr_different : all_different (map nr_mk nr_points).
Proof.
  assert (K : forall i a, nth_error (map nr_mk nr_points) i = Some a -> k_val a = Z.of_nat i).
  { intros i a H. do 10 (destruct i as [|i]; [vm_compute in H; injection H as <-; reflexivity|]).
    vm_compute in H. destruct i; discriminate. }
  intros i j a b Hi Hj Q. apply kv_req_eq in Q. subst b. apply K in Hi, Hj. lia.
Qed.

Example C91_case : PQMax pop_far /\ Forall (Forall word) nr_rows /\
  Forall (fun r => Forall word r /\ 1 <= length r <= 2) nr_queries /\
  Forall (fun p => length p = 2 /\ Forall (fits 8) p) nr_points /\
  all_different (map nr_mk nr_points) /\ picks pg_coin 3 10 0 0 = ([0; 3; 4], 5) /\ countb pg_coin (seq 5 8) = 2 /\
  survivors 3 nr_ops /\ map k_key (live nr_ops) = [10; 30; 25; 99; 0; 61; 2; 63]%Z /\
  forall l, exists out1 out2,
    nr_text l nr_rows = Ok ([out1; [nr_rec 2; nr_rec 7; nr_rec 9]], out2) /\
    map (map (fun w => k_key (wrec w))) out2 = [[30; 25; 10]; [63; 61; 30]]%Z /\ length out1 = 3 /\
    nr_binary l nr_points = nr_text l nr_rows.
Proof.
  split; [exact pop_far_max|].
  split; [repeat constructor; (discriminate || (simpl; intuition discriminate))|].
  split; [repeat constructor; (discriminate || (simpl; intuition discriminate))|].
  split; [repeat constructor|]. split; [exact nr_different|]. split; [reflexivity|]. split; [reflexivity|].
  split; [intros k H; change (length (inserted nr_ops)) with 10 in H; destruct k as [|[|[|k]]]; [| | |lia]|].
  - exists (nr_rec 1). vm_compute. auto.
  - exists (nr_rec 4). vm_compute. auto.
  - exists (nr_rec 6). vm_compute. auto.
  - split; [reflexivity|]. intros l. destruct l; do 2 eexists;
      (split; [vm_compute; reflexivity|split; [reflexivity|split; [reflexivity|vm_compute; reflexivity]]]).
Qed.

(** ** What fails *)

(** C91 fails for erased records: that with key 20 was erased and is an answer of the
    index; the static structure leaves it out. *)
Theorem C91_erased_refuted : exists C rows qrows ops (r : kv), valid_cfg C /\ c_del C = TAGGING /\ Forall (Forall word) rows /\
  all_different (map (fun ws => nr_mk (map nr_atof (firstn 2 ws))) rows) /\
  inserted ops = map (fun ws => nr_mk (map nr_atof (firstn 2 ws))) rows /\ In r (erased ops) /\ ~ In r (live ops) /\
  exists outs sts, text_nearest 2 pop_far (fun i c => i + c) (fun c => c) pg_coin C nr_atof nr_mk 2 3 10 1 3 2
    (text (map spaced rows)) (text (map spaced qrows)) = Ok (outs, sts) /\
    In r (concat outs) /\ ~ In r (map wrec (concat sts)).
Proof.
  exists (Cfg LEVELING TAGGING 3 4 2), nr_rows, nr_queries, nr_ops, (nr_rec 3).
  split; [unfold valid_cfg; simpl; repeat split; lia || discriminate|]. split; [reflexivity|]. split; [apply C91_case|].
  split; [exact nr_different|]. split; [reflexivity|]. split; [vm_compute; auto|].
  split; [vm_compute; intuition discriminate|]. do 2 eexists. split; [vm_compute; reflexivity|].
  split; [vm_compute; auto 10|]. vm_compute. intuition discriminate.
Qed.
Print Assumptions C91_erased_refuted.

(** C91 fails for equal records: the program erases the records at the positions 0 and 3,
    which are equal, but tags the same record twice; the static structure contains the
    other. *)
Theorem C91_equal_refuted : exists C (recs : list kv) ops r, valid_cfg C /\ c_del C = TAGGING /\
  inserted ops = recs /\ erased ops = [r; r] /\ nth_error recs 0 = Some r /\ nth_error recs 3 = Some r /\
  countb (req r) recs = 2 /\
  exists outs sts, bench_nearest 2 pop_far (fun i c => i + c) (fun c => c) pg_coin C 1 3 2 recs [(r, 1)] = Ok (outs, sts) /\
    map (map wrec) sts = [[r]] /\ exists e, run_new vp_shards C ops = Ok (e, repeat 1 (length ops)).
Proof.
  exists (Cfg TIERING TAGGING 3 4 2), (map (fun x => KV x 0) [14; 10; 3; 14; 20; 99; 0; 61; 2; 63])%Z,
    (map (fun x => Ins (KV x 0)) [14; 10; 3; 14; 20; 99] ++ [Del (KV 14 0)] ++ map (fun x => Ins (KV x 0)) [0; 61; 2] ++
     [Del (KV 14 0); Ins (KV 63 0)])%Z, (KV 14 0)%Z.
  split; [unfold valid_cfg; simpl; repeat split; lia || discriminate|].
  do 6 (split; [reflexivity|]). do 2 eexists. split; [vm_compute; reflexivity|]. split; [reflexivity|].
  eexists. vm_compute. reflexivity.
Qed.
Print Assumptions C91_equal_refuted.

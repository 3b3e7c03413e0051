(** The benchmark programs that count, from their files to the answers (C89).  [lbf] is
    the shards' get_lower_bound. *)
From Coq Require Import List Arith ZArith NArith Lia Bool Permutation Sorted.
From Verif Require Import Base RecordModel RecordProofs MergeModel MergeProofs StructModel ExtModel QueryModel Spec
  DriveModel DriveSpec FileModel FileSpec ProgModel TourModel TourSpec TourProofs Prop_Size Prop_File Prop_Prog.
Import ListNotations.

(** C89: with erases by tagging, the program inserts the [n] records of the data file,
    erases those at the chosen positions that it comes to, and answers every accepted line
    of the query file with the number of live records in its range; the static structure
    gives the same numbers.  It does end with answers if a line is accepted, no shard lies
    below one of the ranges, a record is live and the static structure can be built.
    Missing: the rest (false, see C89_fault_refuted and C89_no_query_refuted), and what
    C87_tagging_partial misses. *)
Theorem C89_tagging_partial (qlt : qorder kv) {QO : QOrder qlt} (lbf : list (wrapped kv) -> Z -> res nat) (LB : lb_sound lbf) :
  forall C coin ks rest fuel n size w js c,
  valid_cfg C -> c_del C = TAGGING -> Forall (fits 8) ks -> w <= n <= length ks -> 0 < fuel ->
  picks coin size n 0 0 = (js, c) -> countb coin (seq c (n - w)) <= length js ->
  exists recs ops d', length recs = n /\
    (forall i x, i < n -> nth_error ks i = Some x -> nth_error recs i = Some (KV (Z.of_N x) (Z.of_nat i))) /\
    inserted ops = recs /\ d' <= length js /\ map Some (erased ops) = map (nth_error recs) (firstn d' js) /\
    (survivors (c_lwm C) ops ->
     exists e, run_new qlt C ops = Ok (e, repeat 1 (length ops)) /\
     forall V (scan : list N -> option (V * list N)) close qs qfuel, Forall (good_line scan) qs -> length qs < qfuel ->
     let f := concat (map (le_bytes 8) ks) ++ rest in
     let program := bench_counts lbf coin qlt C scan close fuel qfuel n size w f (query_text qs) in
     let zs := ranges close qs in
     (zs <> [] -> (forall q, In q zs -> reached e q) -> live ops <> [] ->
      (exists x, create_static_structure qlt e = Ok x) -> exists a, program = Ok a) /\
     (forall ns cs, program = Ok (ns, cs) -> ns = map (hits (live ops)) zs /\
        (live ops <> [] -> Forall2 (fun q c => shard_count (hits (live ops) q) c) zs cs))).
Proof. exact (tour_tagging qlt lbf LB). Qed.
Print Assumptions C89_tagging_partial.

(** C89: with tombstones, which the programs use, every answer is the number of live
    records in the range and of the tombstones stored in the range, and no more than the
    records of the file in the range.  Missing: the number of live records (false, see
    C89_erased_refuted), and what C87_tombstones_partial misses. *)
Theorem C89_tombstones_partial (qlt : qorder kv) {QO : QOrder qlt} (lbf : list (wrapped kv) -> Z -> res nat) (LB : lb_sound lbf) :
  forall C coin ks rest fuel n size w js c,
  valid_cfg C -> c_del C = TOMBSTONE -> Forall (fits 8) ks -> w <= n <= length ks -> 0 < fuel ->
  picks coin size n 0 0 = (js, c) -> countb coin (seq c (n - w)) <= length js ->
  exists recs ops d', length recs = n /\
    (forall i x, i < n -> nth_error ks i = Some x -> nth_error recs i = Some (KV (Z.of_N x) (Z.of_nat i))) /\
    inserted ops = recs /\ d' <= length js /\ map Some (erased ops) = map (nth_error recs) (firstn d' js) /\
    (mostly_inserts (c_lwm C) ops ->
     exists e, run_new qlt C ops = Ok (e, repeat 1 (length ops)) /\
     forall V (scan : list N -> option (V * list N)) close qs qfuel, Forall (good_line scan) qs -> length qs < qfuel ->
     let f := concat (map (le_bytes 8) ks) ++ rest in
     let program := bench_counts lbf coin qlt C scan close fuel qfuel n size w f (query_text qs) in
     forall ns cs, program = Ok (ns, cs) -> ranges close qs <> [] /\
       Forall2 (fun q m => m = hits (live ops) q + countb (fun w => key_in (fst q) (snd q) (wrec w) && is_ts w) (stored e) /\
                           m <= hits recs q) (ranges close qs) ns).
Proof. exact (tour_tombstones qlt lbf LB). Qed.
Print Assumptions C89_tombstones_partial.

(** ** A case: ten keys, three positions, a warm-up of two records, two ranges *)

Definition tr_keys : list N := [14; 10; 30; 20; 25; 300; 0; 61; 2; 63]%N.
Definition tr_rec (i : nat) : kv := KV (Z.of_N (nth i tr_keys 0%N)) (Z.of_nat i).
Definition tr_ops : list (op kv) :=
  map (fun i => Ins (tr_rec i)) (seq 0 6) ++ [Del (tr_rec 0)] ++ map (fun i => Ins (tr_rec i)) (seq 6 3) ++
  [Del (tr_rec 3)] ++ [Ins (tr_rec 9)].
Definition tr_run (d : delpol) (l : layout) (keys : list N) (close : N -> bool) :=
  bench_counts lb_isam pg_coin by_version (Cfg l d 3 4 2) sel_scan close 1 4 10 3 2
    (concat (map (le_bytes 8) keys)) (query_text q_lines).

Example C89_case : Forall (fits 8) tr_keys /\ picks pg_coin 3 10 0 0 = ([0; 3; 4], 5) /\
  countb pg_coin (seq 5 8) = 2 /\ survivors 3 tr_ops /\ mostly_inserts 3 tr_ops /\ Forall (good_line sel_scan) q_lines /\
  ranges (fun _ => true) q_lines = [(12, 40); (1, 2)]%Z /\ map (hits (live tr_ops)) [(12, 40); (1, 2)]%Z = [2; 1] /\
  forall l, tr_run TAGGING l tr_keys (fun _ => true) = Ok ([2; 1], [[(2, 0)]; [(1, 0)]]) /\
            exists cs, tr_run TOMBSTONE l tr_keys (fun _ => true) = Ok ([4; 1], cs).
Proof.
  split; [repeat constructor|]. split; [reflexivity|]. split; [reflexivity|].
  split; [intros k H; change (length (inserted tr_ops)) with 10 in H; destruct k as [|[|[|k]]]; [| | |lia]|].
  - exists (tr_rec 1). vm_compute. auto.
  - exists (tr_rec 4). vm_compute. auto.
  - exists (tr_rec 6). vm_compute. auto.
  - split; [intros k H; change (length tr_ops) with 12 in H; destruct k as [|[|[|[|k]]]]; [vm_compute; lia..|lia]|].
    split; [exact q_good|]. split; [reflexivity|]. split; [vm_compute; reflexivity|].
    intros l. split; [destruct l; vm_compute; reflexivity|]. eexists. destruct l; vm_compute; reflexivity.
Qed.

(** ** What fails *)

(** C89 fails if a shard lies below a range: the program reads a count that the shard has
    not given, here for the keys 1 to 10 and the range from 12 to 40. *)
Theorem C89_fault_refuted : exists ks (qs : list (qline N)), Forall (fits 8) ks /\ Forall (good_line sel_scan) qs /\
  ranges (N.eqb 5) qs = [(12, 40)]%Z /\
  forall l d, let C := Cfg l d 3 4 2 in valid_cfg C /\
    (exists x, bench_fill pg_coin by_version C 8 Z.of_N 1 10 3 2 (concat (map (le_bytes 8) ks)) = Ok x) /\
    bench_counts lb_isam pg_coin by_version C sel_scan (N.eqb 5) 1 4 10 3 2 (concat (map (le_bytes 8) ks)) (query_text qs) =
    Fail FOob.
Proof.
  exists [1; 2; 3; 4; 5; 6; 7; 8; 9; 10]%N, q_lines. split; [repeat constructor|]. split; [exact q_good|].
  split; [reflexivity|]. intros l d. split; [destruct l; unfold valid_cfg; simpl; repeat split; lia || discriminate|].
  destruct l, d; (split; [eexists|]; vm_compute; reflexivity).
Qed.
Print Assumptions C89_fault_refuted.

(** C89 fails if no line is accepted: the program divides by the number of queries. *)
Theorem C89_no_query_refuted : exists ks (qs : list (qline N)) close, Forall (fits 8) ks /\ Forall (good_line sel_scan) qs /\
  ranges close qs = [] /\
  forall l d, bench_counts lb_isam pg_coin by_version (Cfg l d 3 4 2) sel_scan close 1 4 10 3 2
    (concat (map (le_bytes 8) ks)) (query_text qs) = Fail FOob.
Proof.
  exists tr_keys, q_lines, (N.eqb 9). split; [repeat constructor|]. split; [exact q_good|]. split; [reflexivity|].
  intros l d. destruct l, d; vm_compute; reflexivity.
Qed.
Print Assumptions C89_no_query_refuted.

(** C89 fails with tombstones: of the records 14, 30, 20 and 25 in the range from 12 to 40
    two were erased, but all are counted; the static structure counts two. *)
Theorem C89_erased_refuted : exists ks (qs : list (qline N)) ops, Forall (fits 8) ks /\ Forall (good_line sel_scan) qs /\
  ranges (N.eqb 5) qs = [(12, 40)]%Z /\ hits (live ops) (12, 40)%Z = 2 /\
  forall l, exists e, run_new by_version (Cfg l TOMBSTONE 3 4 2) ops = Ok (e, repeat 1 (length ops)) /\
    bench_fill pg_coin by_version (Cfg l TOMBSTONE 3 4 2) 8 Z.of_N 1 10 3 2 (concat (map (le_bytes 8) ks)) = Ok (e, 2) /\
    bench_counts lb_isam pg_coin by_version (Cfg l TOMBSTONE 3 4 2) sel_scan (N.eqb 5) 1 4 10 3 2
      (concat (map (le_bytes 8) ks)) (query_text qs) = Ok ([4], [[(2, 0)]]).
Proof.
  exists tr_keys, q_lines, tr_ops. split; [repeat constructor|]. split; [exact q_good|]. split; [reflexivity|].
  split; [reflexivity|]. intros l. destruct l; eexists; (split; [vm_compute; reflexivity|split; vm_compute; reflexivity]).
Qed.
Print Assumptions C89_erased_refuted.

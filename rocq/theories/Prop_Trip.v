(** The benchmark program that samples, from its files to the samples (C90).  [lbf] and
    [ubf] are the shards' get_lower_bound and get_upper_bound. *)
From Coq Require Import List Arith ZArith NArith Lia Bool Permutation Sorted.
From Verif Require Import Base RecordModel RecordProofs MergeModel MergeProofs StructModel ExtModel QueryModel Spec ISAMModel
  SampleModel SampleSpec SampleProofs ISAMProofs
  DriveModel DriveSpec FileModel FileSpec ProgModel TourModel TourSpec TripModel TripProofs Prop_Size Prop_File Prop_Prog Prop_Tour.
Import ListNotations.

(** C90: with erases by tagging, if the program ends, the samples for each accepted line
    are at most [size] records of the data file with their keys in the range; those of the
    static structure are exactly [size] live records of the range, if there is one.  It
    ends with [size] samples each if rejection is off, a line is accepted, every range has
    a live record and the static structure can be built.  It never ends ([Fail FFuel] for
    every bound on the rounds) if a range contains no record of the file.
    Missing: that the index samples live records (false, see C90_erased_refuted), the end
    of the program with rejection, which depends on the random numbers, and what
    C87_tagging_partial misses. *)
Theorem C90_samples_partial (qlt : qorder kv) {QO : QOrder qlt} (lbf ubf : list (wrapped kv) -> Z -> res nat)
  (BE : bounds_exact lbf ubf) :
  forall C coin ks rest fuel n dels w js c,
  valid_cfg C -> c_del C = TAGGING -> Forall (fits 8) ks -> w <= n <= length ks -> 0 < fuel ->
  picks coin dels n 0 0 = (js, c) -> countb coin (seq c (n - w)) <= length js ->
  exists recs ops d', length recs = n /\
    (forall i x, i < n -> nth_error ks i = Some x -> nth_error recs i = Some (KV (Z.of_N x) (Z.of_nat i))) /\
    inserted ops = recs /\ d' <= length js /\ map Some (erased ops) = map (nth_error recs) (firstn d' js) /\
    (survivors (c_lwm C) ops ->
     forall V (scan : list N -> option (V * list N)) close qs qfuel rng alias rounds rej size,
     Forall (good_line scan) qs -> length qs < qfuel -> (forall i, alias_contract (alias i)) ->
     let f := concat (map (le_bytes 8) ks) ++ rest in
     let program := bench_samples rng alias lbf ubf rounds rej size coin qlt C scan close fuel qfuel n dels w f (query_text qs) in
     let zs := ranges close qs in
     (forall outs sts, program = Ok (outs, sts) ->
        Forall2 (fun q out => length out <= size /\ forall x, In x out -> In x recs /\ key_in (fst q) (snd q) x = true) zs outs /\
        Forall2 (fun q out => 0 < hits (live ops) q ->
          length out = size /\ forall x, In x out -> In x (live ops) /\ key_in (fst q) (snd q) x = true) zs sts) /\
     (rej = false -> 0 < rounds -> zs <> [] -> (forall q, In q zs -> 0 < hits (live ops) q) ->
      (exists e, run_new qlt C ops = Ok (e, repeat 1 (length ops)) /\ exists x, create_static_structure qlt e = Ok x) ->
      exists outs sts, program = Ok (outs, sts) /\ Forall (fun out => length out = size) (outs ++ sts)) /\
     (0 < size -> (exists q, In q zs /\ hits recs q = 0) -> program = Fail FFuel)).
Proof. exact (trip qlt lbf ubf BE). Qed.
Print Assumptions C90_samples_partial.

(** The ten records of C89_case, of which those with keys 14 and 20 are erased, an ISAM
    tree with fanout 2 and leaves of one record, and three samples per query. *)
Definition tp_run (rej : bool) (l : layout) (keys : list N) (close : N -> bool) :=
  bench_samples (fun i k => 3 * i + k + 1) (fun _ => last_pos) (isam_find 2 1) (isam_find_upper 2 1) 4 rej 3
    pg_coin by_version (Cfg l TAGGING 3 4 2) sel_scan close 1 4 10 3 2
    (concat (map (le_bytes 8) keys)) (query_text q_lines).

Example C90_case : bounds_exact (isam_find 2 1) (isam_find_upper 2 1) /\ alias_contract last_pos /\
  Forall (fits 8) tr_keys /\ picks pg_coin 3 10 0 0 = ([0; 3; 4], 5) /\
  countb pg_coin (seq 5 8) = 2 /\ survivors 3 tr_ops /\ Forall (good_line sel_scan) q_lines /\
  ranges (fun _ => true) q_lines = [(12, 40); (1, 2)]%Z /\ map (hits (live tr_ops)) [(12, 40); (1, 2)]%Z = [2; 1] /\
  (forall l rej, exists out, tp_run rej l tr_keys (fun _ => true) =
     Ok ([out; repeat (tr_rec 8) 3], [[tr_rec 2; tr_rec 4; tr_rec 2]; repeat (tr_rec 8) 3]) /\ length out = 3) /\
  (forall l, tp_run true l [1; 2; 3; 4; 5; 6; 7; 8; 9; 10]%N (fun _ => true) = Fail FFuel).
Proof.
  split; [apply isam_bounds_exact; lia|]. split; [exact last_pos_ok|].
  split; [repeat constructor|]. split; [reflexivity|]. split; [reflexivity|].
  split; [apply C89_case|]. split; [exact q_good|]. split; [reflexivity|]. split; [vm_compute; reflexivity|].
  split; [intros l rej; destruct l, rej; eexists; split; vm_compute; reflexivity|].
  intros l. destruct l; vm_compute; reflexivity.
Qed.

(** ** What fails *)

(** C90 fails for erased records: the record with key 20 was erased, and the index samples
    it, with rejection (irs_bench.cpp) or without; the static structure does not. *)
Theorem C90_erased_refuted : exists ks (qs : list (qline N)) ops r, Forall (fits 8) ks /\ Forall (good_line sel_scan) qs /\
  ranges (N.eqb 5) qs = [(12, 40)]%Z /\ In r (erased ops) /\ ~ In r (live ops) /\
  exists C e, valid_cfg C /\ c_del C = TAGGING /\ run_new by_version C ops = Ok (e, repeat 1 (length ops)) /\
    bench_fill pg_coin by_version C 8 Z.of_N 1 10 3 2 (concat (map (le_bytes 8) ks)) = Ok (e, 2) /\
    exists rng alias, alias_contract alias /\ forall rej, exists out st,
      bench_samples rng (fun _ => alias) (isam_find 2 1) (isam_find_upper 2 1) 4 rej 3 pg_coin by_version C
        sel_scan (N.eqb 5) 1 4 10 3 2 (concat (map (le_bytes 8) ks)) (query_text qs) = Ok ([out], [st]) /\
      In r out /\ ~ In r st.
Proof.
  exists tr_keys, q_lines, tr_ops, (tr_rec 3). split; [repeat constructor|]. split; [exact q_good|]. split; [reflexivity|].
  split; [vm_compute; auto|]. split; [vm_compute; intuition discriminate|].
  exists (Cfg LEVELING TAGGING 3 4 2). eexists. split; [unfold valid_cfg; simpl; repeat split; lia || discriminate|].
  split; [reflexivity|]. split; [vm_compute; reflexivity|]. split; [vm_compute; reflexivity|].
  exists (fun i k => 3 * i + k + 1), last_pos. split; [exact last_pos_ok|]. intros rej.
  exists [tr_rec 4; tr_rec 2; tr_rec 3], [tr_rec 4; tr_rec 2; tr_rec 4]. split; [destruct rej; vm_compute; reflexivity|].
  split; [simpl; auto|]. vm_compute. intuition discriminate.
Qed.
Print Assumptions C90_erased_refuted.

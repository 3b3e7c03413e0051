(** Proofs about the program that tries many parameters. *)
From Coq Require Import List Arith ZArith NArith Lia Bool Permutation Sorted.
From Verif Require Import Base ListLemmas RecordModel RecordProofs BufferModel BufferProofs
  MergeModel MergeProofs StructModel ExtModel StructProofs StructTotal SortedProofs ExtProofs ContentProofs
  TagProofs ExecProofs TagContent CountProofs QueryModel Spec QueryProofs SerialProofs LevelProofs SizeProofs
  VPModel VPSpec KNNProofs KindModel KindSpec KindProofs KindTag AloneModel AloneSpec AloneProofs
  DriveModel DriveSpec DriveProofs DriveTag FileModel FileSpec FileProofs ProgModel ProgProofs NearModel NearSpec NearProofs
  SweepModel SweepSpec.
Import ListNotations.

Section Due.
Context {R : Type} {RO : RecOps R} {RL : RecLaws R}.

Lemma calls_due (recs : list R) (dels : list nat) coin : forall n i di c ops d,
  calls recs dels true coin n i di c = Ok (ops, d) -> d = di + due coin n i c (skipn di dels).
Proof.
  induction n as [|n IH]; intros i di c ops d H; cbn [calls] in H.
  - injection H as _ <-. simpl. lia.
  - destruct (nth_res i recs) as [r|]; cbn [bind] in H; [|discriminate].
    assert (SK : forall c', (do (ops0, d1) <- calls recs dels true coin n (Datatypes.S i) di c'; Ok (Ins r :: ops0, d1)) = Ok (ops, d) ->
      d = di + due coin n (Datatypes.S i) c' (skipn di dels)).
    { intros c' Q. destruct (calls _ _ _ _ n _ di c') as [[o1 d1]|] eqn:E; cbn [bind] in Q; [|discriminate].
      injection Q as _ <-. eapply IH; eauto. }
    destruct (coin c) eqn:CO.
    + unfold nth_res in H at 1. destruct (nth_error dels di) as [j|] eqn:ND; cbn [bind] in H; [|discriminate].
      assert (SP : skipn di dels = j :: skipn (Datatypes.S di) dels).
      { clear - ND. revert di ND. induction dels as [|x l IHl]; intros [|di] ND; try discriminate.
        - injection ND as ->. reflexivity.
        - cbn [skipn]. apply (IHl di ND). }
      rewrite SP. cbn [due]. rewrite CO. cbn [andb]. destruct (j <=? i).
      * destruct (nth_res j recs) as [x|]; cbn [bind] in H; [|discriminate].
        destruct (calls _ _ _ _ n _ (Datatypes.S di) _) as [[o1 d1]|] eqn:E; cbn [bind] in H; [|discriminate].
        injection H as _ <-. apply IH in E. lia.
      * rewrite <- SP. apply SK. exact H.
    + apply SK in H. rewrite H. f_equal. destruct (skipn di dels) as [|j l]; cbn [due]; [destruct n; reflexivity|].
      rewrite CO. reflexivity.
Qed.

(** [two_calls_any] of NearProofs.v with the number of erases. *)
Lemma two_calls_due (B : builders R) : forall C recs P Z coin w c fuel e0, w <= length recs ->
  countb coin (seq c (length recs - w)) <= length P -> 0 < fuel -> ext_new C = Ok e0 ->
  exists ops, inserted ops = recs /\
    map Some (erased ops) = map (nth_error recs) (firstn (due coin (length recs - w) w c P) P) /\ erases_present [] ops /\
    forall e, run_new B C ops = Ok (e, repeat 1 (length ops)) ->
     exists e1 d, insert_records B C recs (P ++ Z) false coin fuel 0 w 0 c e0 = Ok (e1, 0) /\
       insert_records B C recs (P ++ Z) true coin fuel w (length recs) 0 c e1 = Ok (e, d).
Proof.
  intros C recs P Z coin w c fuel e0 LW CN FU N0.
  destruct (calls_ok recs P false coin w 0 0 c ltac:(lia) ltac:(discriminate)) as (ops1 & d1 & E1 & G1).
  destruct (calls_ok recs P true coin (length recs - w) w 0 c ltac:(lia) ltac:(auto)) as (ops2 & d2 & E2 & G2).
  pose proof (calls_due _ _ _ _ _ _ _ _ _ E2) as DD. cbn [skipn Nat.add] in DD.
  apply (calls_more _ _ Z) in E1. apply (calls_more _ _ Z) in E2.
  destruct G1 as (I1 & _ & _ & _ & _ & _ & X1). destruct (X1 eq_refl) as (R1 & ->). clear X1.
  destruct G2 as (I2 & D2 & M2 & (js & J1 & J2 & J3) & _ & P2 & _).
  rewrite Nat.sub_0_r in J1. subst js. unfold slice in I1. cbn [skipn] in I1. rewrite <- DD.
  exists (ops1 ++ ops2). split; [|split; [|split]].
  - rewrite inserted_app, I1, I2, slice_prefix. apply firstn_all2. lia.
  - rewrite erased_app, R1. exact J3.
  - intros pre r post Q. destruct (split_del _ _ _ _ _ R1 Q) as (p & -> & Q2). cbn [app].
    rewrite inserted_app, I1. eapply P2. exact Q2.
  - intros e RN. assert (RR : run B C e0 (ops1 ++ ops2) = Ok (e, repeat 1 (length (ops1 ++ ops2))))
      by (unfold run_new in RN; rewrite N0 in RN; exact RN).
    apply run_two in RR as (e1 & n1 & n2 & A1 & A2 & EN).
    assert (NZ : Forall (fun k => k <> 0) (n1 ++ n2)) by (rewrite <- EN; apply all_ones).
    apply Forall_app in NZ as (NZ1 & NZ2). exists e1, d2. split.
    + unfold insert_records. rewrite Nat.sub_0_r. eapply drive_calls; eauto.
    + unfold insert_records. eapply drive_calls; eauto.
Qed.
End Due.

Section Sweep.
Context {R : Type} {RO : RecOps R} {RL : RecLaws R}.
Context {D : Type} {DO : DistOps D} {DL : DistLaws D} {MO : MetricOps R D} {ML : MetricLaws R D}.

Lemma round_ok : forall C recs coin fuel size w js c c0, valid_cfg C -> c_del C = TAGGING ->
  all_different recs -> w <= length recs -> 0 < fuel ->
  picks coin size (length recs) 0 0 = (js, c0) -> countb coin (seq c (length recs - w)) <= length js ->
  exists ops, inserted ops = recs /\
    map Some (erased ops) = map (nth_error recs) (firstn (due coin (length recs - w) w c js) js) /\
    (survivors (c_lwm C) ops -> exists xs ys, Permutation recs (live ops ++ xs ++ ys) /\
     forall pop leafsz rng i (qs : list (R * nat)), PQMax pop -> Forall (fun q => 0 < snd q) qs ->
     let program := round leafsz pop rng coin fuel w recs qs (to_delete size js) C i c in
     (qs = [] -> program = Fail FOob) /\
     (qs <> [] -> exists outs, program = Ok outs /\
       Forall2 (fun q out => nearest (fun x y => dleb (dist (fst q) x) (dist (fst q) y)) (snd q) (live ops ++ xs) out) qs outs)).
Proof.
  intros C recs coin fuel size w js c c0 V TG AD LW FU PK CN.
  destruct (new_total (R := R) C (proj1 (proj2 (proj2 V))) (proj1 V) (proj1 (proj2 V)) (proj2 (proj2 (proj2 V)))) as [e0 N0].
  destruct (two_calls_due vp_shards C recs js (repeat 0 (size - length js)) coin w c fuel e0 LW CN FU N0)
    as (ops & II & EE & EP & K).
  exists ops. split; auto. split; auto. intros SV.
  assert (DI : distinct_inserts ops).
  { intros r. rewrite n_ins_inserted, II. apply different_count; auto. }
  destruct (picks_sorted _ _ _ _ _ _ _ PK) as (SO & _ & _).
  assert (EL : erases_live ops).
  { intros pre r post E. exists r. split; [|apply req_refl]. apply never_erased_live; [apply (EP pre r post E)|].
    eapply erased_once; [exact AD| |exact EE|exact E]. change (NoDup (slice 0 (due coin (length recs - w) w c js) js)).
    apply nodup_slice, sorted_nodup; auto. }
  destruct (vp_ones C V TG ops SV DI EL) as (e & RN).
  destruct (vp_tag_knn C V TG ops e _ SV DI RN) as (xs & ys & PX & KN).
  exists xs, ys. rewrite <- II at 1. split; auto. intros pop leafsz rng i qs PM KP. cbv zeta.
  destruct (run_nearest_ok pop leafsz (rng i) e
    (fun q out => nearest (fun x y => dleb (dist (fst q) x) (dist (fst q) y)) (snd q) (live ops ++ xs) out) qs) as (outs & E1 & F1).
  { intros q IQ. apply KN; auto. rewrite Forall_forall in KP. auto. }
  destruct (K e RN) as (e1 & d & A1 & A2).
  unfold round, to_delete. rewrite N0. cbn [bind]. rewrite A1. cbn [bind]. rewrite A2. cbn [bind].
  rewrite E1. cbn [bind]. split; [intros ->; auto|]. intros NQ. exists outs. split; auto. destruct qs; [contradiction|]. auto.
Qed.

Lemma rounds_ok : forall recs coin fuel size w js c0, all_different recs -> w <= length recs -> 0 < fuel ->
  picks coin size (length recs) 0 0 = (js, c0) ->
  forall cs k, Forall (fun C => valid_cfg C /\ c_del C = TAGGING) cs ->
  (forall i, i < length cs -> countb coin (seq (c0 + (k + i) * (length recs - w)) (length recs - w)) <= length js) ->
  exists opss, Forall2 (fun i ops => inserted ops = recs /\
      map Some (erased ops) = map (nth_error recs)
        (firstn (due coin (length recs - w) w (c0 + i * (length recs - w)) js) js)) (seq k (length cs)) opss /\
    (Forall2 (fun C ops => survivors (c_lwm C) ops) cs opss -> exists seen,
     Forall2 (fun ops s => exists xs ys, s = live ops ++ xs /\ Permutation recs (live ops ++ xs ++ ys)) opss seen /\
     forall pop leafsz rng i (qs : list (R * nat)), PQMax pop -> Forall (fun q => 0 < snd q) qs ->
     let program := rounds leafsz pop rng coin fuel w recs qs (to_delete size js) i (c0 + k * (length recs - w)) cs in
     (qs = [] -> cs <> [] -> program = Fail FOob) /\
     (qs <> [] -> exists outss, program = Ok outss /\
       Forall2 (fun s outs => Forall2 (fun q out =>
         nearest (fun x y => dleb (dist (fst q) x) (dist (fst q) y)) (snd q) s out) qs outs) seen outss)).
Proof.
  intros recs coin fuel size w js c0 AD LW FU PK. induction cs as [|C cs IH]; intros k F CN.
  - exists []. split; [constructor|]. intros _. exists []. split; [constructor|]. intros. cbv zeta. split; [congruence|].
    intros _. exists []. split; [reflexivity|constructor].
  - inversion F as [|? ? (V & TG) F']; subst.
    assert (CN0 : countb coin (seq (c0 + k * (length recs - w)) (length recs - w)) <= length js).
    { specialize (CN 0 ltac:(simpl; lia)). rewrite Nat.add_0_r in CN. exact CN. }
    destruct (round_ok C recs coin fuel size w js (c0 + k * (length recs - w)) c0 V TG AD LW FU PK CN0) as (ops & A1 & A2 & K).
    destruct (IH (Datatypes.S k) F') as (opss & G & KK).
    { intros i Hi. specialize (CN (Datatypes.S i) ltac:(simpl; lia)). rewrite <- plus_n_Sm in CN. exact CN. }
    exists (ops :: opss). split; [constructor; eauto|]. intros SV. inversion SV; subst.
    destruct K as (xs & ys & P & Q); auto. destruct KK as (seen & S1 & S2); auto.
    exists ((live ops ++ xs) :: seen). split; [constructor; eauto|].
    intros pop leafsz rng i qs PM KP. cbv zeta. cbn [rounds].
    assert (ZZ : forall m, c0 + k * m + m = c0 + Datatypes.S k * m) by (intros; lia). rewrite ZZ.
    destruct (Q pop leafsz rng i qs PM KP) as (Q1 & Q2). destruct (S2 pop leafsz rng (Datatypes.S i) qs PM KP) as (_ & T2).
    split; [intros Z _; rewrite (Q1 Z); auto|]. intros NQ.
    destruct (Q2 NQ) as (outs & E1 & F1). destruct (T2 NQ) as (outss & E2 & F2).
    exists (outs :: outss). rewrite E1. cbn [bind]. rewrite E2. split; [reflexivity|]. constructor; auto.
Qed.

Theorem sweep_ok : forall recs coin fuel size w js c cs, all_different recs -> w <= length recs -> 0 < fuel ->
  picks coin size (length recs) 0 0 = (js, c) -> Forall (fun C => valid_cfg C /\ c_del C = TAGGING) cs ->
  (forall i, i < length cs -> countb coin (seq (c + i * (length recs - w)) (length recs - w)) <= length js) ->
  exists opss, Forall2 (fun i ops => inserted ops = recs /\
      map Some (erased ops) = map (nth_error recs)
        (firstn (due coin (length recs - w) w (c + i * (length recs - w)) js) js)) (seq 0 (length cs)) opss /\
    (Forall2 (fun C ops => survivors (c_lwm C) ops) cs opss -> exists seen,
     Forall2 (fun ops s => exists xs ys, s = live ops ++ xs /\ Permutation recs (live ops ++ xs ++ ys)) opss seen /\
     forall pop leafsz rng (qs : list (R * nat)), PQMax pop -> Forall (fun q => 0 < snd q) qs ->
     let program := bench_sweep leafsz pop rng coin fuel size w recs qs cs in
     (qs = [] -> cs <> [] -> program = Fail FOob) /\
     (qs <> [] -> exists outss, program = Ok outss /\
       Forall2 (fun s outs => Forall2 (fun q out =>
         nearest (fun x y => dleb (dist (fst q) x) (dist (fst q) y)) (snd q) s out) qs outs) seen outss)).
Proof.
  intros recs coin fuel size w js c cs AD LW FU PK F CN.
  destruct (rounds_ok recs coin fuel size w js c AD LW FU PK cs 0 F CN) as (opss & G & K).
  exists opss. split; auto. intros SV. destruct (K SV) as (seen & S1 & S2). exists seen. split; auto.
  intros pop leafsz rng qs PM KP. unfold bench_sweep. rewrite PK. rewrite Nat.mul_0_l, Nat.add_0_r in S2. apply S2; auto.
Qed.
End Sweep.

(** The parameters that the programs try. *)
Theorem sweep_all : forall d sizes factors, Forall (fun n => 1 <= n) sizes -> Forall (fun n => 1 <= n) factors ->
  Forall (fun C => valid_cfg C /\ c_del C = d) (sweep_cfgs d sizes factors) /\
  length (sweep_cfgs d sizes factors) = 2 * (length sizes * length factors) /\
  forall l bs sf, l = TIERING \/ l = LEVELING -> In bs sizes -> In sf factors -> In (Cfg l d bs bs sf) (sweep_cfgs d sizes factors).
Proof.
  intros d sizes factors FS FF. rewrite Forall_forall in FS, FF.
  assert (L : forall l, length (grid d l sizes factors) = length sizes * length factors).
  { intros l. unfold grid. clear. induction sizes; simpl; auto. rewrite app_length, map_length, IHsizes. auto. }
  split; [|split].
  - apply Forall_forall. intros C H. unfold sweep_cfgs, grid in H. apply in_app_iff in H.
    destruct H as [H|H]; apply in_flat_map in H as (bs & H1 & H2); apply in_map_iff in H2 as (sf & <- & H2);
      apply FS in H1; apply FF in H2; (split; [|reflexivity]); unfold valid_cfg; simpl; repeat split; try lia; discriminate.
  - unfold sweep_cfgs. rewrite app_length, !L. lia.
  - intros l bs sf Hl H1 H2. unfold sweep_cfgs. apply in_app_iff.
    destruct Hl as [->| ->]; [left|right]; apply in_flat_map; exists bs; (split; [exact H1|]);
      apply in_map_iff; exists sf; auto.
Qed.

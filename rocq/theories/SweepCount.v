(** Proofs about the program that tries many parameters and counts. *)
From Coq Require Import List Arith ZArith NArith Lia Bool Permutation Sorted.
From Verif Require Import Base ListLemmas RecordModel RecordProofs BufferModel MergeModel MergeProofs StructModel ExtModel QueryModel Spec
  ExtProofs ContentProofs ExecProofs QueryProofs SerialProofs TagContent SizeProofs CountProofs BsmProofs StructTotal LevelProofs
  DriveModel DriveSpec DriveProofs DriveTag
  FileModel FileSpec FileProofs ProgModel ProgProofs AloneModel AloneSpec AloneProofs NearModel NearProofs TourModel TourSpec TourProofs
  SweepModel SweepSpec SweepProofs.
Import ListNotations.

Section T.
Variable qlt : qorder kv.
Context {QO : QOrder qlt}.
Variable lbf : list (wrapped kv) -> Z -> res nat.
Hypothesis LB : lb_sound lbf.

Lemma count_round_ok : forall C recs coin fuel size w js c c0, valid_cfg C -> c_del C = TOMBSTONE ->
  all_different recs -> w <= length recs -> 0 < fuel ->
  picks coin size (length recs) 0 0 = (js, c0) -> countb coin (seq c (length recs - w)) <= length js ->
  exists ops, inserted ops = recs /\
    map Some (erased ops) = map (nth_error recs) (firstn (due coin (length recs - w) w c js) js) /\
    (mostly_inserts (c_lwm C) ops -> exists e, run_new qlt C ops = Ok (e, repeat 1 (length ops)) /\
     forall zs, let program := count_round lbf qlt coin fuel w recs zs (to_delete size js) C c in
     (zs <> [] -> (forall q, In q zs -> reached e q) -> exists ns, program = Ok ns) /\
     (forall ns, program = Ok ns -> zs <> [] /\
       Forall2 (fun q m => m = hits (live ops) q + countb (fun w => key_in (fst q) (snd q) (wrec w) && is_ts w) (stored e) /\
                           m <= hits recs q) zs ns)).
Proof.
  intros C recs coin fuel size w js c c0 V TB AD LW FU PK CN.
  destruct (new_total (R := kv) C (proj1 (proj2 (proj2 V))) (proj1 V) (proj1 (proj2 V)) (proj2 (proj2 (proj2 V)))) as [e0 N0].
  destruct (two_calls_due qlt C recs js (repeat 0 (size - length js)) coin w c fuel e0 LW CN FU N0)
    as (ops & I & ER & EP & K).
  exists ops. split; auto. split; auto. intros MI.
  destruct (picks_sorted _ _ _ _ _ _ _ PK) as (SO & _ & _).
  destruct (run_ok qlt C V ops (tomb_appends C _ TB) (mostly_blocks _ _ MI)) as (e & RN).
  exists e. split; auto. intros zs. cbv zeta.
  assert (DI : distinct_inserts ops).
  { intros r. rewrite n_ins_inserted, I. apply different_count; auto. }
  assert (EL : erases_live ops).
  { intros pre r post E. exists r. split; [|apply req_refl]. apply never_erased_live; [apply (EP pre r post E)|].
    eapply erased_once; [exact AD| |exact ER|exact E]. change (NoDup (slice 0 (due coin (length recs - w) w c js) js)). apply nodup_slice. apply sorted_nodup. auto. }
  destruct (K e RN) as (e1 & d & A1 & A2).
  unfold count_round, to_delete. rewrite N0. cbn [bind]. rewrite A1. cbn [bind]. rewrite A2. cbn [bind]. split.
  - intros NE RE. rewrite (run_counts_fixed lbf e _ (fun q => counted (fst q) (snd q) (stored e))).
    + cbn [bind]. destruct zs; [contradiction|]. cbn [per_query bind]. eauto.
    + intros q IQ. apply (range_count_ok_any qlt C V lbf LB ops e _ (fst q) (snd q) RN (RE q IQ)).
  - intros ns H. destruct (run_counts lbf e zs) as [[e2 m]|] eqn:E; cbn [bind] in H; [|discriminate].
    destruct (run_counts_inv lbf e (fun q => counted (fst q) (snd q) (stored e)) _ _ _
      (fun q e1 n H => range_count_any qlt C V lbf LB _ _ _ _ _ _ _ RN H) E) as [-> ->].
    split; [intros ->; discriminate|].
    assert (HN : map (fun q => counted (fst q) (snd q) (stored e)) zs = ns) by (destruct zs; [discriminate|]; injection H as <-; reflexivity).
    rewrite <- HN. clear H HN. rewrite <- I. clear - TB MI DI EL RN V QO. induction zs as [|[l u] l0 IH]; cbn [map]; constructor; auto.
    apply (tomb_counted qlt C ops e _ l u V TB MI DI EL RN).
Qed.

Lemma count_rounds_ok : forall recs coin fuel size w js c0, all_different recs -> w <= length recs -> 0 < fuel ->
  picks coin size (length recs) 0 0 = (js, c0) ->
  forall cs k, Forall (fun C => valid_cfg C /\ c_del C = TOMBSTONE) cs ->
  (forall i, i < length cs -> countb coin (seq (c0 + (k + i) * (length recs - w)) (length recs - w)) <= length js) ->
  exists opss, Forall2 (fun i ops => inserted ops = recs /\
      map Some (erased ops) = map (nth_error recs)
        (firstn (due coin (length recs - w) w (c0 + i * (length recs - w)) js) js)) (seq k (length cs)) opss /\
    (Forall2 (fun C ops => mostly_inserts (c_lwm C) ops) cs opss -> exists es,
     Forall2 (fun p e => run_new qlt (fst p) (snd p) = Ok (e, repeat 1 (length (snd p)))) (combine cs opss) es /\
     forall zs, let program := count_rounds lbf qlt coin fuel w recs zs (to_delete size js) (c0 + k * (length recs - w)) cs in
     (zs <> [] -> Forall (fun e => forall q, In q zs -> reached e q) es -> exists nss, program = Ok nss) /\
     (forall nss, program = Ok nss -> (cs <> [] -> zs <> []) /\
       Forall2 (fun p ns => Forall2 (fun q m =>
         m = hits (live (fst p)) q + countb (fun w => key_in (fst q) (snd q) (wrec w) && is_ts w) (stored (snd p)) /\
         m <= hits recs q) zs ns) (combine opss es) nss)).
Proof.
  intros recs coin fuel size w js c0 AD LW FU PK. induction cs as [|C cs IH]; intros k F CN.
  - exists []. split; [constructor|]. intros _. exists []. split; [constructor|]. intros zs. cbv zeta. cbn [count_rounds].
    split; [eauto|]. intros nss H. injection H as <-. split; [congruence|constructor].
  - inversion F as [|? ? (V & TB) F']; subst.
    assert (CN0 : countb coin (seq (c0 + k * (length recs - w)) (length recs - w)) <= length js).
    { specialize (CN 0 ltac:(simpl; lia)). rewrite Nat.add_0_r in CN. exact CN. }
    destruct (count_round_ok C recs coin fuel size w js (c0 + k * (length recs - w)) c0 V TB AD LW FU PK CN0) as (ops & A1 & A2 & K).
    destruct (IH (Datatypes.S k) F') as (opss & G & KK).
    { intros i Hi. specialize (CN (Datatypes.S i) ltac:(simpl; lia)). rewrite <- plus_n_Sm in CN. exact CN. }
    exists (ops :: opss). split; [constructor; eauto|]. intros MI. inversion MI; subst.
    destruct K as (e & RN & Q); auto. destruct KK as (es & S1 & S2); auto.
    exists (e :: es). split; [cbn [combine]; constructor; auto|].
    intros zs. cbv zeta. cbn [count_rounds].
    assert (ZZ : forall m, c0 + k * m + m = c0 + Datatypes.S k * m) by (intros; lia). rewrite ZZ.
    destruct (Q zs) as (Q1 & Q2). destruct (S2 zs) as (T1 & T2). split.
    + intros NZ RE. inversion RE; subst. destruct Q1 as (ns & E1); auto. destruct T1 as (nss & E2); auto.
      rewrite E1. cbn [bind]. rewrite E2. cbn [bind]. eauto.
    + intros nss H. destruct (count_round _ _ _ _ _ _ _ _ _ _) as [ns|] eqn:E1; cbn [bind] in H; [|discriminate].
      destruct (count_rounds _ _ _ _ _ _ _ _ _ _) as [rest|] eqn:E2; cbn [bind] in H; [|discriminate].
      injection H as <-. destruct (Q2 _ eq_refl) as (NZ & F1). destruct (T2 _ eq_refl) as (_ & F2).
      split; auto. cbn [combine]. constructor; auto.
Qed.

Theorem count_sweep_ok : forall recs coin fuel size w js c cs, all_different recs -> w <= length recs -> 0 < fuel ->
  picks coin size (length recs) 0 0 = (js, c) -> Forall (fun C => valid_cfg C /\ c_del C = TOMBSTONE) cs ->
  (forall i, i < length cs -> countb coin (seq (c + i * (length recs - w)) (length recs - w)) <= length js) ->
  exists opss, Forall2 (fun i ops => inserted ops = recs /\
      map Some (erased ops) = map (nth_error recs)
        (firstn (due coin (length recs - w) w (c + i * (length recs - w)) js) js)) (seq 0 (length cs)) opss /\
    (Forall2 (fun C ops => mostly_inserts (c_lwm C) ops) cs opss -> exists es,
     Forall2 (fun p e => run_new qlt (fst p) (snd p) = Ok (e, repeat 1 (length (snd p)))) (combine cs opss) es /\
     forall zs, let program := count_sweep lbf qlt coin fuel size w recs zs cs in
     (zs <> [] -> Forall (fun e => forall q, In q zs -> reached e q) es -> exists nss, program = Ok nss) /\
     (forall nss, program = Ok nss -> (cs <> [] -> zs <> []) /\
       Forall2 (fun p ns => Forall2 (fun q m =>
         m = hits (live (fst p)) q + countb (fun w => key_in (fst q) (snd q) (wrec w) && is_ts w) (stored (snd p)) /\
         m <= hits recs q) zs ns) (combine opss es) nss)).
Proof.
  intros recs coin fuel size w js c cs AD LW FU PK F CN.
  destruct (count_rounds_ok recs coin fuel size w js c AD LW FU PK cs 0 F CN) as (opss & G & K).
  exists opss. split; auto. intros SV. destruct (K SV) as (es & S1 & S2). exists es. split; auto.
  intros zs. unfold count_sweep. rewrite PK. rewrite Nat.mul_0_l, Nat.add_0_r in S2. apply S2.
Qed.
End T.

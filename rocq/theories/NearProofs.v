(** Proofs about the benchmark programs for nearest neighbours. *)
From Coq Require Import List Arith ZArith NArith Lia Bool Permutation Sorted.
From Verif Require Import Base ListLemmas RecordModel RecordProofs BufferModel BufferProofs
  MergeModel MergeProofs StructModel ExtModel StructProofs StructTotal SortedProofs ExtProofs ContentProofs
  TagProofs ExecProofs TagContent CountProofs QueryModel Spec QueryProofs SerialProofs LevelProofs SizeProofs
  VPModel VPSpec KNNProofs KindModel KindSpec KindProofs KindTag AloneModel AloneSpec AloneProofs
  DriveModel DriveSpec DriveProofs DriveTag FileModel FileSpec FileProofs ProgModel ProgProofs NearModel NearSpec.
Import ListNotations.

Section Near.
Context {R : Type} {RO : RecOps R} {RL : RecLaws R}.

(** [two_calls] of ProgProofs.v for any shards. *)
Lemma two_calls_any (B : builders R) : forall C recs P Z coin w c fuel e0, w <= length recs ->
  countb coin (seq c (length recs - w)) <= length P -> 0 < fuel -> ext_new C = Ok e0 ->
  exists ops d', inserted ops = recs /\ d' <= length P /\
    map Some (erased ops) = map (nth_error recs) (firstn d' P) /\ erases_present [] ops /\
    forall e, run_new B C ops = Ok (e, repeat 1 (length ops)) ->
     exists e1, insert_records B C recs (P ++ Z) false coin fuel 0 w 0 c e0 = Ok (e1, 0) /\
       insert_records B C recs (P ++ Z) true coin fuel w (length recs) 0 c e1 = Ok (e, d').
Proof.
  intros C recs P Z coin w c fuel e0 LW CN FU N0.
  destruct (calls_ok recs P false coin w 0 0 c ltac:(lia) ltac:(discriminate)) as (ops1 & d1 & E1 & G1).
  destruct (calls_ok recs P true coin (length recs - w) w 0 c ltac:(lia) ltac:(auto)) as (ops2 & d2 & E2 & G2).
  apply (calls_more _ _ Z) in E1. apply (calls_more _ _ Z) in E2.
  destruct G1 as (I1 & _ & _ & _ & _ & _ & X1). destruct (X1 eq_refl) as (R1 & ->). clear X1.
  destruct G2 as (I2 & D2 & M2 & (js & J1 & J2 & J3) & _ & P2 & _).
  rewrite Nat.sub_0_r in J1. subst js. unfold slice in I1. cbn [skipn] in I1.
  exists (ops1 ++ ops2), d2. split; [|split; [lia|split; [|split]]].
  - rewrite inserted_app, I1, I2, slice_prefix. apply firstn_all2. lia.
  - rewrite erased_app, R1. exact J3.
  - intros pre r post Q. destruct (split_del _ _ _ _ _ R1 Q) as (p & -> & Q2). cbn [app].
    rewrite inserted_app, I1. eapply P2. exact Q2.
  - intros e RN. assert (RR : run B C e0 (ops1 ++ ops2) = Ok (e, repeat 1 (length (ops1 ++ ops2))))
      by (unfold run_new in RN; rewrite N0 in RN; exact RN).
    apply run_two in RR as (e1 & n1 & n2 & A1 & A2 & EN).
    assert (NZ : Forall (fun k => k <> 0) (n1 ++ n2)) by (rewrite <- EN; apply all_ones).
    apply Forall_app in NZ as (NZ1 & NZ2). exists e1. split.
    + unfold insert_records. rewrite Nat.sub_0_r. eapply drive_calls; eauto.
    + unfold insert_records. eapply drive_calls; eauto.
Qed.

Variable C : cfg.
Hypothesis V : valid_cfg C.
Hypothesis TG : c_del C = TAGGING.

Lemma vp_ones : forall ops : list (op R), survivors (c_lwm C) ops -> distinct_inserts ops -> erases_live ops ->
  exists e, run_new vp_shards C ops = Ok (e, repeat 1 (length ops)).
Proof.
  intros ops SV DI EL.
  assert (K : forall pre post, ops = pre ++ post -> exists e, run_new vp_shards C pre = Ok (e, repeat 1 (length pre))).
  { induction pre as [|o pre IH] using rev_ind; intros post E.
    - destruct (krun_total vp_shards C V TG ops (vp_fine _) SV [] ops eq_refl) as (e & rs & _ & _ & _ & _ & H & _).
      exists e. pose proof H as H'. unfold run_new in H'. destruct (ext_new C); [|discriminate]. cbn in H'. injection H' as _ <-. exact H.
    - rewrite <- app_assoc in E. cbn [app] in E. destruct (IH _ E) as (e & Rn).
      destruct (krun_total vp_shards C V TG ops (vp_fine _) SV pre _ E) as (e' & rs & st & win & pos & tsn & Rn' & I & K).
      rewrite Rn in Rn'. injection Rn' as <- <-.
      destruct (ktotal vp_shards C V TG ops pre post o e st win pos tsn I K E SV) as (e' & n & ST).
      assert (n = 1).
      { destruct V as (V1 & V2 & V3 & _). destruct o as [r|r]; simpl in ST.
        - unfold insert in ST. destruct (Nat.eq_dec (length win) (c_lwm C)) as [L|L].
          + pose proof (append_flush vp_shards C V3 V1 V2 e st win pos tsn r false I (s_shape _ _ (k_sinv _ _ _ _ _ _ K)) L) as X.
            destruct (reconstruct_struct _ _ _ _ _) as [st'|] eqn:ER; [|congruence].
            destruct X as (e'' & A' & _). congruence.
          + assert (L' : length win < c_lwm C) by (destruct I; lia).
            destruct (append_room vp_shards C V3 V1 V2 e st win pos tsn r false I L') as (e'' & A' & _). congruence.
        - destruct (erase_kind vp_shards C V TG e st win pos tsn r I) as (e1 & n1 & st' & win' & X & _ & Y).
          rewrite ST in X. injection X as <- <-.
          destruct Y as [(_ & _ & Y)|[(_ & _ & Y & _)|(K1 & _ & _ & K2 & _)]]; auto. exfalso.
          destruct (EL pre r post E) as (x & IX & RX).
          apply (Permutation_in x (Permutation_sym (k_live _ _ _ _ _ _ K DI))) in IX. unfold lv in IX.
          apply in_map_iff in IX as (z & <- & Hz). apply filter_In in Hz as [Hz _]. unfold cont in Hz.
          rewrite req_sym in RX.
          apply in_app_iff in Hz as [Hz|Hz]; [rewrite (miss_age _ _ K1 z Hz) in RX|rewrite (K2 z Hz) in RX]; discriminate. }
      subst n. exists e'. rewrite app_length, repeat_app. eapply run_new_snoc; eauto. }
  apply (K ops []). rewrite app_nil_r. auto.
Qed.

Context {D : Type} {DO : DistOps D} {DL : DistLaws D} {MO : MetricOps R D} {ML : MetricLaws R D}.

(** With tagging a kNN query is exact for the live records and some of the erased ones. *)
Lemma vp_tag_knn : forall ops (e : ext R) rs, survivors (c_lwm C) ops -> distinct_inserts ops ->
  run_new vp_shards C ops = Ok (e, rs) ->
  exists xs ys, Permutation (inserted ops) (live ops ++ xs ++ ys) /\
  forall pop (PM : PQMax pop) leafsz rng p k, 0 < k ->
  exists out, knn leafsz pop rng e p k = Ok (e, out) /\
    nearest (fun x y => dleb (dist p x) (dist p y)) k (live ops ++ xs) out.
Proof.
  intros ops e rs SV DI H.
  destruct (kind_facts vp_shards C V TG ops e rs (vp_fine _) (survivors_safe vp_shards C V TG ops (vp_fine _) SV) H)
    as (st & win & pos & tsn & I & K).
  pose proof (k_live _ _ _ _ _ _ K DI) as PL. destruct (k_ins _ _ _ _ _ _ K) as (x & PI).
  assert (SP : forall l : list (wrapped R), Permutation (map wrec l) (lv l ++ map wrec (filter is_del l))).
  { induction l as [|a l IH]; simpl; auto. unfold lv in *. unfold keep at 1. destruct (is_del a) eqn:T; simpl.
    - rewrite T. simpl. apply Permutation_cons_app. exact IH.
    - rewrite T. simpl. constructor. exact IH. }
  assert (LA : forall a b : list (wrapped R), lv (a ++ b) = lv a ++ lv b) by (intros; unfold lv; rewrite filter_app, map_app; auto).
  exists (map wrec (filter is_del (sdata (age st)))), (map wrec (filter is_del win) ++ x). split.
  - rewrite PI, (SP (cont st win)), PL. unfold cont. rewrite filter_app, map_app, <- !app_assoc. auto.
  - intros pop PM leafsz rng p k KP.
    pose proof V as (V1 & V2 & V3 & _).
    destruct (einv_records C V3 V1 V2 _ _ _ _ _ I) as [VR _].
    destruct (vp_trees_ok leafsz rng (query_shards st) 0) as (ts & T & Q & A).
    destruct (knn_exact pop PM leafsz p k _ _ _ ts KP VR A) as (out & E & NN).
    exists out. unfold knn, knn_on. rewrite (with_epoch_eq C _ _ _ _ _ _ I), T. cbn [bind]. rewrite E. cbn [bind].
    split; auto. eapply nearest_perm; [|exact NN]. rewrite map_app, Q.
    rewrite <- PL. unfold cont. rewrite LA.
    assert (P : Permutation (map wrec (sdata (query_shards st))) (map wrec (sdata (age st)))).
    { apply Permutation_map. unfold sdata. apply concat_perm, Permutation_map, query_shards_perm. }
    rewrite P, (SP (sdata (age st))). change (filter (fun w => negb (is_del w)) win) with (filter keep win).
    fold (lv win). rewrite (Permutation_app_comm (lv win)), <- !app_assoc. apply Permutation_app_head, Permutation_app_comm.
Qed.

Lemma run_nearest_ok : forall pop leafsz rng (e : ext R) (P : R * nat -> list R -> Prop) qs,
  (forall q, In q qs -> exists out, knn leafsz pop rng e (fst q) (snd q) = Ok (e, out) /\ P q out) ->
  exists outs, run_nearest leafsz pop rng e qs = Ok (e, outs) /\ Forall2 P qs outs.
Proof.
  intros pop leafsz rng e P. induction qs as [|(p, k) qs IH]; intros H; [exists []; auto|]. cbn [run_nearest].
  destruct (H (p, k) (or_introl eq_refl)) as (out & E & Q). cbn [fst snd] in E. rewrite E. cbn [bind].
  destruct IH as (outs & E2 & F); [intros; apply H; right; auto|]. rewrite E2. cbn [bind]. eauto.
Qed.

Lemma static_nearest_ok : forall pop leafsz srng (s : shard R) (P : R * nat -> list (wrapped R) -> Prop) qs,
  (forall q, In q qs -> exists out, alone_knn leafsz pop srng (fst q) (snd q) s = Ok out /\ P q out) ->
  exists outs, static_nearest leafsz pop srng s qs = Ok outs /\ Forall2 P qs outs.
Proof.
  intros pop leafsz srng s P. unfold static_nearest. induction qs as [|(p, k) qs IH]; intros H; [exists []; auto|].
  cbn [map_res]. destruct (H (p, k) (or_introl eq_refl)) as (out & E & Q). rewrite E. cbn [bind].
  destruct IH as (outs & E2 & F); [intros; apply H; right; auto|]. rewrite E2. cbn [bind]. eauto.
Qed.

Theorem near : forall recs coin fuel size w js c, all_different recs -> w <= length recs -> 0 < fuel ->
  picks coin size (length recs) 0 0 = (js, c) -> countb coin (seq c (length recs - w)) <= length js ->
  exists ops d', inserted ops = recs /\ d' <= length js /\ map Some (erased ops) = map (nth_error recs) (firstn d' js) /\
    (survivors (c_lwm C) ops -> exists xs ys, Permutation recs (live ops ++ xs ++ ys) /\
     forall pop leafsz rng srng (qs : list (R * nat)), PQMax pop -> Forall (fun q => 0 < snd q) qs ->
     let program := bench_nearest leafsz pop rng srng coin C fuel size w recs qs in
     (qs = [] -> program = Fail FOob) /\
     (qs <> [] -> exists outs sts, program = Ok (outs, sts) /\
       Forall2 (fun q out => nearest (fun x y => dleb (dist (fst q) x) (dist (fst q) y)) (snd q) (live ops ++ xs) out) qs outs /\
       Forall2 (fun q out => nearest (fun x y => dleb (dist (fst q) x) (dist (fst q) y)) (snd q) (live ops) (map wrec out)) qs sts)).
Proof.
  intros recs coin fuel size w js c AD LW FU PK CN.
  destruct (new_total (R := R) C (proj1 (proj2 (proj2 V))) (proj1 V) (proj1 (proj2 V)) (proj2 (proj2 (proj2 V)))) as [e0 N0].
  destruct (two_calls_any vp_shards C recs js (repeat 0 (size - length js)) coin w c fuel e0 LW CN FU N0)
    as (ops & d' & II & D' & EE & EP & K).
  exists ops, d'. split; auto. split; auto. split; auto. intros SV.
  assert (DI : distinct_inserts ops).
  { intros r. rewrite n_ins_inserted, II. apply different_count; auto. }
  destruct (picks_sorted _ _ _ _ _ _ _ PK) as (SO & _ & _).
  assert (EL : erases_live ops).
  { intros pre r post E. exists r. split; [|apply req_refl]. apply never_erased_live; [apply (EP pre r post E)|].
    eapply erased_once; [exact AD| |exact EE|exact E]. change (firstn d' js) with (slice 0 d' js).
    apply nodup_slice, sorted_nodup; auto. }
  destruct (vp_ones ops SV DI EL) as (e & RN).
  pose proof (survivors_safe vp_shards C V TG ops (vp_fine _) SV) as BS.
  destruct (vp_tag_knn ops e _ SV DI RN) as (xs & ys & PX & KN).
  exists xs, ys. rewrite <- II at 1. split; auto. intros pop leafsz rng srng qs PM KP. cbv zeta.
  destruct (run_nearest_ok pop leafsz rng e
    (fun q out => nearest (fun x y => dleb (dist (fst q) x) (dist (fst q) y)) (snd q) (live ops ++ xs) out) qs) as (outs & E1 & F1).
  { intros q IQ. apply KN; auto. rewrite Forall_forall in KP. auto. }
  destruct (K e RN) as (e1 & A1 & A2).
  unfold bench_nearest, to_delete. rewrite N0. cbn [bind]. rewrite PK, A1. cbn [bind]. rewrite A2. cbn [bind].
  rewrite E1. cbn [bind]. split; [intros ->; auto|]. intros NQ.
  destruct (vp_tag_static C V TG ops e _ BS DI RN) as (s & SS & _).
  destruct (static_nearest_ok pop leafsz srng s
    (fun q out => nearest (fun x y => dleb (dist (fst q) x) (dist (fst q) y)) (snd q) (live ops) (map wrec out)) qs) as (sts & E2 & F2).
  { intros q IQ. eapply vp_alone; eauto; [right; auto|]. rewrite Forall_forall in KP. auto. }
  exists outs, sts. split; [|auto]. destruct qs; [contradiction|]. cbn [bind]. rewrite SS. cbn [bind]. rewrite E2. auto.
Qed.
End Near.

Section Files.
Context {R : Type} {RO : RecOps R} {RL : RecLaws R}.
Context {D : Type} {DO : DistOps D} {DL : DistLaws D} {MO : MetricOps R D} {ML : MetricLaws R D}.

Theorem near_text : forall C V (atof : list N -> V) (mk : list V -> R) dim k n rows qrows coin fuel size w js c,
  valid_cfg C -> c_del C = TAGGING -> (forall a, word a -> atof (a ++ [10%N]) = atof a) ->
  Forall (Forall word) rows -> Forall (fun r => Forall word r /\ 1 <= length r <= dim) qrows -> 0 < k ->
  let recs := map (fun ws => mk (map atof (firstn dim ws))) (firstn n rows) in
  all_different recs -> w <= length recs -> 0 < fuel ->
  picks coin size (length recs) 0 0 = (js, c) -> countb coin (seq c (length recs - w)) <= length js ->
  exists ops d', inserted ops = recs /\ d' <= length js /\ map Some (erased ops) = map (nth_error recs) (firstn d' js) /\
    (survivors (c_lwm C) ops -> exists xs ys, Permutation recs (live ops ++ xs ++ ys) /\
     forall pop leafsz rng srng, PQMax pop ->
     let program := text_nearest leafsz pop rng srng coin C atof mk dim k n fuel size w
       (text (map spaced rows)) (text (map spaced qrows)) in
     let ps := map (fun r => mk (map atof r)) qrows in
     (ps = [] -> program = Fail FOob) /\
     (ps <> [] -> exists outs sts, program = Ok (outs, sts) /\
       Forall2 (fun p out => nearest (fun x y => dleb (dist p x) (dist p y)) k (live ops ++ xs) out) ps outs /\
       Forall2 (fun p out => nearest (fun x y => dleb (dist p x) (dist p y)) k (live ops) (map wrec out)) ps sts)).
Proof.
  intros C V atof mk dim k n rows qrows coin fuel size w js c VC TG AT FR FQ KP recs AD LW FU PK CN.
  destruct (near C VC TG recs coin fuel size w js c AD LW FU PK CN) as (ops & d' & A & B & E & K).
  exists ops, d'. split; auto. split; auto. split; auto. intros SV. destruct (K SV) as (xs & ys & P & Q).
  exists xs, ys. split; auto. intros pop leafsz rng srng PM. cbv zeta.
  unfold text_nearest. rewrite (vectors_read atof dim n rows FR), (knn_read atof dim k qrows AT FQ). cbn [bind].
  rewrite !map_map. cbn [fst snd]. fold recs.
  destruct (Q pop leafsz rng srng (map (fun r => (mk (map atof r), k)) qrows) PM) as (Q1 & Q2).
  { apply Forall_forall. intros q IQ. apply in_map_iff in IQ as (r & <- & _). auto. }
  split.
  - intros Z. apply Q1. destruct qrows; auto. discriminate.
  - intros Z. destruct Q2 as (outs & sts & EP & F1 & F2); [destruct qrows; auto; discriminate|].
    exists outs, sts. split; auto. clear - F1 F2.
    assert (G : forall {X} (S : R -> X -> Prop) l ys, Forall2 (fun q => S (fst q)) (map (fun r => (mk (map atof r), k)) l) ys ->
      Forall2 S (map (fun r => mk (map atof r)) l) ys).
    { intros X S. induction l; intros zs H; inversion H; subst; constructor; auto. }
    assert (G2 : forall {X} (S : R -> nat -> X -> Prop) l ys,
      Forall2 (fun q => S (fst q) (snd q)) (map (fun r => (mk (map atof r), k)) l) ys ->
      Forall2 (fun q => S (fst q) k) (map (fun r => (mk (map atof r), k)) l) ys).
    { intros X S. induction l; intros zs H; inversion H; subst; constructor; auto. }
    split; apply G; [apply (G2 _ (fun p k out => nearest (fun x y => dleb (dist p x) (dist p y)) k (live ops ++ xs) out))
                    |apply (G2 _ (fun p k out => nearest (fun x y => dleb (dist p x) (dist p y)) k (live ops) (map wrec out)))]; auto.
Qed.

Theorem near_binary : forall C (mk : list N -> R) dim k m n ps qs rest rest' coin fuel size w js c,
  valid_cfg C -> c_del C = TAGGING -> (N.of_nat dim < 2 ^ 31)%N ->
  (N.of_nat (length ps) < 2 ^ 31)%N -> (N.of_nat (length qs) < 2 ^ 31)%N ->
  Forall (fun p => length p = dim /\ Forall (fits 8) p) ps -> Forall (fun p => length p = dim /\ Forall (fits 8) p) qs -> 0 < k ->
  let recs := map mk (firstn n ps) in
  all_different recs -> w <= length recs -> 0 < fuel ->
  picks coin size (length recs) 0 0 = (js, c) -> countb coin (seq c (length recs - w)) <= length js ->
  exists ops d', inserted ops = recs /\ d' <= length js /\ map Some (erased ops) = map (nth_error recs) (firstn d' js) /\
    (survivors (c_lwm C) ops -> exists xs ys, Permutation recs (live ops ++ xs ++ ys) /\
     forall pop leafsz rng srng, PQMax pop ->
     let program := binary_nearest leafsz pop rng srng coin C mk dim k m n fuel size w
       (point_file dim ps rest) (point_file dim qs rest') in
     let points := map mk (firstn m qs) in
     (points = [] -> program = Fail FOob) /\
     (points <> [] -> exists outs sts, program = Ok (outs, sts) /\
       Forall2 (fun p out => nearest (fun x y => dleb (dist p x) (dist p y)) k (live ops ++ xs) out) points outs /\
       Forall2 (fun p out => nearest (fun x y => dleb (dist p x) (dist p y)) k (live ops) (map wrec out)) points sts)).
Proof.
  intros C mk dim k m n ps qs rest rest' coin fuel size w js c VC TG DB LP LQ FP FQ KP recs AD LW FU PK CN.
  destruct (near C VC TG recs coin fuel size w js c AD LW FU PK CN) as (ops & d' & A & B & E & K).
  exists ops, d'. split; auto. split; auto. split; auto. intros SV. destruct (K SV) as (xs & ys & P & Q).
  exists xs, ys. split; auto. intros pop leafsz rng srng PM. cbv zeta.
  unfold binary_nearest, point_file.
  rewrite (points_read dim dim ps rest n FP (le_n _) LP DB). cbn [bind].
  rewrite (binary_knn_read dim k dim qs rest' m FQ (le_n _) LQ DB). cbn [bind].
  rewrite map_map. cbn [fst snd]. fold recs.
  destruct (Q pop leafsz rng srng (map (fun r => (mk r, k)) (firstn m qs)) PM) as (Q1 & Q2).
  { apply Forall_forall. intros q IQ. apply in_map_iff in IQ as (r & <- & _). auto. }
  split.
  - intros Z. apply Q1. destruct (firstn m qs); auto. discriminate.
  - intros Z. destruct Q2 as (outs & sts & EP & F1 & F2); [destruct (firstn m qs); auto; discriminate|].
    exists outs, sts. split; auto. clear - F1 F2.
    assert (G : forall {X} (S : R -> nat -> X -> Prop) l ys,
      Forall2 (fun q => S (fst q) (snd q)) (map (fun r => (mk r, k)) l) ys -> Forall2 (fun p => S p k) (map mk l) ys).
    { intros X S. induction l; intros zs H; inversion H; subst; constructor; auto. }
    split; [apply (G _ (fun p k out => nearest (fun x y => dleb (dist p x) (dist p y)) k (live ops ++ xs) out))
           |apply (G _ (fun p k out => nearest (fun x y => dleb (dist p x) (dist p y)) k (live ops) (map wrec out)))]; auto.
Qed.
End Files.

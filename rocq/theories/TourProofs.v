(** Proofs about the benchmark programs that count. *)
From Coq Require Import List Arith ZArith NArith Lia Bool Permutation Sorted.
From Verif Require Import Base ListLemmas RecordModel RecordProofs BufferModel MergeModel MergeProofs StructModel ExtModel QueryModel Spec
  ExtProofs ContentProofs ExecProofs QueryProofs SerialProofs TagContent SizeProofs CountProofs BsmProofs DriveModel DriveSpec DriveProofs DriveTag
  FileModel FileSpec FileProofs ProgModel ProgProofs AloneModel AloneSpec AloneProofs TourModel TourSpec.
Import ListNotations.

Lemma live_net {R} {RO : RecOps R} {RL : RecLaws R} : forall ops : list (op R), distinct_inserts ops -> erases_live ops ->
  forall r, occ r (live ops) + n_del r ops = n_ins r ops.
Proof.
  intros ops. induction ops as [|o ops IH] using rev_ind; intros D EL r; auto.
  assert (D' : distinct_inserts ops).
  { intros x. specialize (D x). unfold n_ins in *. rewrite countb_app in D. lia. }
  assert (EL' : erases_live ops).
  { intros pre x post E. apply (EL pre x (post ++ [o])). rewrite E, <- app_assoc. auto. }
  pose proof (IH D' EL' r) as H. rewrite live_app. unfold n_ins, n_del in *. rewrite !countb_app.
  destruct o as [x|x]; cbn [countb].
  - unfold occ in *. rewrite countb_app. cbn [countb]. destruct (req r x); lia.
  - destruct (EL ops x [] eq_refl) as (y & IY & RY). unfold occ in *.
    assert (K : countb (req r) (filter (fun z => negb (req x z)) (live ops)) = if req r x then 0 else countb (req r) (live ops)).
    { clear - RL. induction (live ops) as [|z l L]; simpl; [destruct (req r x); auto|].
      destruct (req x z) eqn:Q; simpl.
      - rewrite L. destruct (req r x) eqn:Q'; auto. destruct (req r z) eqn:Q2; auto.
        rewrite req_sym in Q. rewrite (req_trans _ _ _ Q2 Q) in Q'. discriminate.
      - rewrite L. destruct (req r x) eqn:Q'; auto. destruct (req r z) eqn:Q2; auto.
        rewrite req_sym in Q'. rewrite (req_trans _ _ _ Q' Q2) in Q. discriminate. }
    rewrite K. destruct (req r x) eqn:Q; [|lia].
    assert (P : 0 < countb (req r) (live ops)).
    { apply countb_pos. exists y. split; auto. eapply req_trans; eauto. }
    specialize (D' r). unfold n_ins in *. lia.
Qed.

Lemma fewer_counts {R} {RO : RecOps R} {RL : RecLaws R} (p : R -> bool) :
  (forall a b, req a b = true -> p a = p b) -> forall A B : list R,
  (forall r, countb (req r) A <= countb (req r) B) -> countb p A <= countb p B.
Proof.
  intros PR. induction A as [|a A IH]; intros B H; [simpl; lia|].
  assert (P : 0 < countb (req a) B) by (specialize (H a); simpl in H; rewrite req_refl in H; lia).
  apply countb_pos in P as (b & IB & RB). apply in_split in IB as (B1 & B2 & ->).
  rewrite (countb_perm p (B1 ++ _) (b :: B1 ++ B2)) by (symmetry; apply Permutation_middle).
  simpl. rewrite (PR _ _ RB). assert (countb p A <= countb p (B1 ++ B2)); [|lia].
  apply IH. intros r. specialize (H r).
  rewrite (countb_perm (req r) (B1 ++ _) (b :: B1 ++ B2)) in H by (symmetry; apply Permutation_middle).
  simpl in H. assert (E : req r a = req r b).
  { destruct (req r a) eqn:Q1, (req r b) eqn:Q2; auto.
    - rewrite (req_trans _ _ _ Q1 RB) in Q2. discriminate.
    - rewrite req_sym in RB. rewrite (req_trans _ _ _ Q2 RB) in Q1. discriminate. }
  rewrite E in H. destruct (req r b); lia.
Qed.

Lemma same_counts {R} {RO : RecOps R} {RL : RecLaws R} (p : R -> bool) :
  (forall a b, req a b = true -> p a = p b) -> forall A B : list R,
  (forall r, countb (req r) A = countb (req r) B) -> countb p A = countb p B.
Proof. intros PR A B H. apply Nat.le_antisymm; apply fewer_counts; auto; intros; rewrite H; lia. Qed.

Lemma kv_req_key : forall l u (a b : kv), req a b = true -> key_in l u a = key_in l u b.
Proof.
  intros l u [a x] [b y] H. unfold req in H. simpl in H. unfold kv_eq in H. simpl in H.
  apply andb_true_iff in H as (H & _). apply Z.eqb_eq in H. subst. reflexivity.
Qed.

(** ** One query after the other *)

Lemma run_counts_fixed : forall lbf (e : ext kv) qs f,
  (forall q, In q qs -> range_count lbf e (fst q) (snd q) = Ok (e, f q)) ->
  run_counts lbf e qs = Ok (e, map f qs).
Proof.
  intros lbf e qs f. induction qs as [|(l, u) qs IH]; intros H; auto. cbn [run_counts].
  pose proof (H (l, u) (or_introl eq_refl)) as Q. cbn [fst snd] in Q. rewrite Q. cbn [bind]. rewrite IH by (intros; apply H; simpl; auto). auto.
Qed.

Lemma run_counts_inv : forall lbf (e : ext kv) f qs e' ns,
  (forall q e1 n, range_count lbf e (fst q) (snd q) = Ok (e1, n) -> e1 = e /\ n = f q) ->
  run_counts lbf e qs = Ok (e', ns) -> e' = e /\ ns = map f qs.
Proof.
  intros lbf e f qs. induction qs as [|(l, u) qs IH]; intros e' ns H K; cbn [run_counts] in K.
  - injection K as <- <-. auto.
  - destruct (range_count lbf e l u) as [[e1 n]|] eqn:E; cbn [bind] in K; [|discriminate].
    destruct (H (l, u) e1 n E) as [-> ->].
    destruct (run_counts lbf e qs) as [[e2 m]|] eqn:E2; cbn [bind] in K; [|discriminate].
    injection K as <- <-. destruct (IH _ _ H eq_refl) as [-> ->]. auto.
Qed.

Lemma map_res_all {A B} (f : A -> res B) (P : A -> B -> Prop) : forall l,
  (forall a, In a l -> exists b, f a = Ok b /\ P a b) -> exists bs, map_res f l = Ok bs /\ Forall2 P l bs.
Proof.
  induction l as [|a l IH]; intros H; [exists []; split; auto; constructor|].
  destruct (H a (or_introl eq_refl)) as (b & E & Q). destruct IH as (bs & E' & F); [intros; apply H; simpl; auto|].
  exists (b :: bs). cbn [map_res]. rewrite E. cbn [bind]. rewrite E'. cbn [bind]. auto.
Qed.

Section T.
Variable qlt : qorder kv.
Context {QO : QOrder qlt}.
Variable lbf : list (wrapped kv) -> Z -> res nat.
Hypothesis LB : lb_sound lbf.

Lemma ranges_map {V} (close : V -> bool) qs :
  map (fun q => (Z.of_N (fst q), Z.of_N (snd q)))
    (map (fun q => (ql_lo q, ql_hi q)) (filter (fun q => (ql_lo q <? ql_hi q)%N && close (ql_sel q)) qs)) = ranges close qs.
Proof. unfold ranges. rewrite map_map. auto. Qed.

Theorem tour_tagging : forall C coin ks rest fuel n size w js c,
  valid_cfg C -> c_del C = TAGGING -> Forall (fits 8) ks -> w <= n <= length ks -> 0 < fuel ->
  picks coin size n 0 0 = (js, c) -> countb coin (seq c (n - w)) <= length js ->
  exists recs ops d', length recs = n /\
    (forall i x, i < n -> nth_error ks i = Some x -> nth_error recs i = Some (KV (Z.of_N x) (Z.of_nat i))) /\
    inserted ops = recs /\ d' <= length js /\ map Some (erased ops) = map (nth_error recs) (firstn d' js) /\
    (survivors (c_lwm C) ops ->
     exists e, run_new qlt C ops = Ok (e, repeat 1 (length ops)) /\
     forall V (scan : list N -> option (V * list N)) close qs qfuel, Forall (good_line scan) qs -> length qs < qfuel ->
     let f := concat (map (le_bytes 8) ks) ++ rest in
     let program := bench_counts lbf coin qlt C scan close fuel qfuel n size w f (query_text qs) in
     let zs := ranges close qs in
     (zs <> [] -> (forall q, In q zs -> reached e q) -> live ops <> [] ->
      (exists x, create_static_structure qlt e = Ok x) -> exists a, program = Ok a) /\
     (forall ns cs, program = Ok (ns, cs) -> ns = map (hits (live ops)) zs /\
        (live ops <> [] -> Forall2 (fun q c => shard_count (hits (live ops) q) c) zs cs))).
Proof.
  intros C coin ks rest fuel n size w js c V TG F L FU PK CN.
  destruct (program_calls qlt C coin 8 Z.of_N ks rest fuel n size w js c V F L FU PK CN)
    as (recs & ops & d' & LR & NT & AD & I & D & ER & EP & K).
  exists recs, ops, d'. split; auto. split; auto. split; auto. split; auto. split; auto. intros SV.
  destruct (picks_sorted _ _ _ _ _ _ _ PK) as (SO & _ & _).
  destruct (tagging_fill qlt C recs js ops d' V TG AD (sorted_nodup _ SO) I ER EP SV) as (e & RN & PE).
  exists e. split; auto. intros V0 scan close qs qfuel GL QF. cbv zeta.
  assert (DI : distinct_inserts ops).
  { intros r. rewrite n_ins_inserted, I. apply different_count; auto. }
  assert (B : bsm_safe qlt C ops) by (intros _; apply (few_never_empty qlt C V); right; right; auto).
  assert (CE : forall q e1 m, range_count lbf e (fst q) (snd q) = Ok (e1, m) -> e1 = e /\ m = hits (live ops) q).
  { intros q e1 m H. split; [apply (range_count_any qlt C V lbf LB _ _ _ _ _ _ _ RN H)|].
    apply (range_count_tagging qlt C V lbf LB _ _ _ _ _ _ _ TG B DI RN H). }
  assert (ST : settled qlt C ops) by (right; auto).
  assert (SC : forall e2 s, create_static_structure qlt e = Ok (e2, s) -> live ops <> [] ->
    exists cs, static_counts lbf s (ranges close qs) = Ok cs /\
      Forall2 (fun q c => shard_count (hits (live ops) q) c) (ranges close qs) cs).
  { intros e2 s SS NX. apply map_res_all. intros q _.
    destruct (after_rc qlt C V ops e e2 _ s ST RN SS NX lbf (fst q) (snd q) LB) as [E|[E N]].
    - eexists. split; [exact E|left; auto].
    - eexists. split; [exact E|right; auto]. }
  unfold bench_counts. rewrite (range_read scan close qs qfuel GL QF). cbn [bind]. rewrite (K e RN). cbn [bind].
  rewrite ranges_map. split.
  - intros NE RE NX (x & SS). destruct x as [e2 s].
    rewrite (run_counts_fixed lbf e _ (hits (live ops))).
    + cbn [bind]. destruct (ranges close qs) as [|z zs]; [contradiction|]. cbn [per_query bind]. rewrite SS. cbn [bind].
      destruct (SC _ _ SS NX) as (cs & E & _). rewrite E. cbn [bind]. eauto.
    + intros q IQ. pose proof (range_count_ok_any qlt C V lbf LB ops e _ (fst q) (snd q) RN (RE q IQ)) as H.
      destruct (CE _ _ _ H) as [_ E]. rewrite H, E. auto.
  - intros ns cs H. destruct (run_counts lbf e (ranges close qs)) as [[e1 m]|] eqn:E; cbn [bind] in H; [|discriminate].
    destruct (run_counts_inv _ _ _ _ _ _ CE E) as [-> ->].
    destruct (ranges close qs) as [|z zs] eqn:Z; cbn [per_query bind] in H; [discriminate|]. rewrite <- Z in *.
    destruct (create_static_structure qlt e) as [[e2 s]|] eqn:SS; cbn [bind] in H; [|discriminate].
    destruct (static_counts lbf s (ranges close qs)) as [cs'|] eqn:E'; cbn [bind] in H; [|discriminate].
    injection H as <- <-. split; auto. intros NX. destruct (SC _ _ eq_refl NX) as (cs & E2 & FF).
    rewrite E' in E2. injection E2 as <-. auto.
Qed.

(** With tombstones. *)
Lemma tomb_counted : forall C ops e rs l u, valid_cfg C -> c_del C = TOMBSTONE -> mostly_inserts (c_lwm C) ops ->
  distinct_inserts ops -> erases_live ops -> run_new qlt C ops = Ok (e, rs) ->
  counted l u (stored e) = hits (live ops) (l, u) + countb (fun w => key_in l u (wrec w) && is_ts w) (stored e) /\
  counted l u (stored e) <= hits (inserted ops) (l, u).
Proof.
  intros C ops e rs l u V TB MI DI EL RN.
  assert (B : bsm_safe qlt C ops) by (intros _; apply (few_never_empty qlt C V); right; left; auto).
  assert (UT : forall w, In w (stored e) -> is_del w = false).
  { destruct (run_facts qlt C V ops e rs (tomb_appends C _ TB) (safe_ok qlt C _ B) RN)
      as (st & win & pos & I & S & HH & _ & _).
    destruct (hist_cancel qlt C _ _ _ _ HH) as (N & _).
    pose proof (plain_stored C V _ _ _ _ _ I) as P0. unfold cont in P0. intros w Hw. rewrite P0 in Hw.
    rewrite Forall_forall in N. apply N. auto. }
  set (P := map wrec (filter (fun w => negb (is_ts w)) (stored e))).
  set (T := map wrec (filter is_ts (stored e))).
  assert (FC : forall (p : kv -> bool) (q : wrapped kv -> bool) ws,
    countb p (map wrec (filter q ws)) = countb (fun w => p (wrec w) && q w) ws).
  { intros p q ws. induction ws as [|w ws IH]; simpl; auto. destruct (q w); simpl; rewrite ?andb_true_r, ?andb_false_r, IH; auto. }
  assert (C1 : counted l u (stored e) = countb (key_in l u) P).
  { unfold P. rewrite FC. unfold counted. clear - UT. induction (stored e) as [|w ws IH]; auto. cbn [countb].
    rewrite (UT w (or_introl eq_refl)), andb_true_r. rewrite IH; auto. intros. apply UT. simpl. auto. }
  assert (KR : forall a b : kv, req a b = true -> key_in l u a = key_in l u b) by (intros; apply kv_req_key; auto).
  split.
  - rewrite C1. unfold hits. rewrite <- countb_filter. cbn [fst snd].
    rewrite <- FC. fold T. rewrite <- countb_app. apply same_counts; auto. intros r.
    pose proof (net_balance qlt C V ops e rs TB B RN r) as NB. pose proof (live_net ops DI EL r) as LN.
    rewrite countb_app. unfold P, T. rewrite !FC. unfold occ, n_plain, n_tomb in *. lia.
  - rewrite C1. unfold hits. rewrite <- countb_filter. cbn [fst snd].
    assert (M : forall r, countb (req r) P <= countb (req r) (inserted ops)).
    { intros r. destruct (stored_balance qlt C V ops e rs TB B RN r) as (k & E1 & _).
      rewrite <- n_ins_inserted, E1. unfold P. rewrite FC. unfold n_plain. lia. }
    apply fewer_counts; auto.
Qed.

Theorem tour_tombstones : forall C coin ks rest fuel n size w js c,
  valid_cfg C -> c_del C = TOMBSTONE -> Forall (fits 8) ks -> w <= n <= length ks -> 0 < fuel ->
  picks coin size n 0 0 = (js, c) -> countb coin (seq c (n - w)) <= length js ->
  exists recs ops d', length recs = n /\
    (forall i x, i < n -> nth_error ks i = Some x -> nth_error recs i = Some (KV (Z.of_N x) (Z.of_nat i))) /\
    inserted ops = recs /\ d' <= length js /\ map Some (erased ops) = map (nth_error recs) (firstn d' js) /\
    (mostly_inserts (c_lwm C) ops ->
     exists e, run_new qlt C ops = Ok (e, repeat 1 (length ops)) /\
     forall V (scan : list N -> option (V * list N)) close qs qfuel, Forall (good_line scan) qs -> length qs < qfuel ->
     let f := concat (map (le_bytes 8) ks) ++ rest in
     let program := bench_counts lbf coin qlt C scan close fuel qfuel n size w f (query_text qs) in
     forall ns cs, program = Ok (ns, cs) -> ranges close qs <> [] /\
       Forall2 (fun q m => m = hits (live ops) q + countb (fun w => key_in (fst q) (snd q) (wrec w) && is_ts w) (stored e) /\
                           m <= hits recs q) (ranges close qs) ns).
Proof.
  intros C coin ks rest fuel n size w js c V TB F L FU PK CN.
  destruct (program_calls qlt C coin 8 Z.of_N ks rest fuel n size w js c V F L FU PK CN)
    as (recs & ops & d' & LR & NT & AD & I & D & ER & EP & K).
  exists recs, ops, d'. split; auto. split; auto. split; auto. split; auto. split; auto. intros MI.
  destruct (picks_sorted _ _ _ _ _ _ _ PK) as (SO & _ & _).
  destruct (run_ok qlt C V ops (tomb_appends C _ TB) (mostly_blocks _ _ MI)) as (e & RN).
  exists e. split; auto. intros V0 scan close qs qfuel GL QF. cbv zeta. intros ns cs H.
  assert (DI : distinct_inserts ops).
  { intros r. rewrite n_ins_inserted, I. apply different_count; auto. }
  assert (EL : erases_live ops).
  { intros pre r post E. exists r. split; [|apply req_refl]. apply never_erased_live; [apply (EP pre r post E)|].
    eapply erased_once; [exact AD| |exact ER|exact E]. change (firstn d' js) with (slice 0 d' js). apply nodup_slice. apply sorted_nodup. auto. }
  unfold bench_counts in H. rewrite (range_read scan close qs qfuel GL QF) in H. cbn [bind] in H. rewrite (K e RN) in H. cbn [bind] in H.
  rewrite ranges_map in H.
  destruct (run_counts lbf e (ranges close qs)) as [[e1 m]|] eqn:E; cbn [bind] in H; [|discriminate].
  destruct (run_counts_inv lbf e (fun q => counted (fst q) (snd q) (stored e)) _ _ _
    (fun q e1 n H => range_count_any qlt C V lbf LB _ _ _ _ _ _ _ RN H) E) as [-> ->].
  destruct (ranges close qs) as [|z zs] eqn:Z; cbn [per_query bind] in H; [discriminate|]. rewrite <- Z in *.
  destruct (create_static_structure qlt e) as [[e2 s]|] eqn:SS; cbn [bind] in H; [|discriminate].
  destruct (static_counts lbf s (ranges close qs)) as [cs'|] eqn:E'; cbn [bind] in H; [|discriminate].
  injection H as <- <-. split; [rewrite Z; discriminate|].
  rewrite <- I. clear - TB MI DI EL RN V QO. induction (ranges close qs) as [|[l u] l0 IH]; cbn [map]; constructor; auto.
  apply (tomb_counted C ops e _ l u V TB MI DI EL RN).
Qed.
End T.

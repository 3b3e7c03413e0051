(** Proofs about the benchmark program that samples. *)
From Coq Require Import List Arith ZArith NArith Lia Bool Permutation Sorted.
From Verif Require Import Base ListLemmas RecordModel RecordProofs BufferModel MergeModel MergeProofs StructModel ExtModel QueryModel Spec
  ExtProofs ContentProofs ExecProofs QueryProofs SerialProofs TagContent SizeProofs CountProofs BsmProofs DriveModel DriveSpec DriveProofs DriveTag
  FileModel FileSpec FileProofs ProgModel ProgProofs SampleModel SampleSpec SampleProofs SampleHist
  AloneModel AloneSpec AloneProofs TourModel TourSpec TourProofs TripModel.
Import ListNotations.

(** ** Sampling after erases by tagging *)

Section Tagged.
Context {R : Type} {RO : RecOps R} {RL : RecLaws R} {KO : KeyOps R} {KL : KeyLaws R}.
Variable qlt : qorder R.
Context {QO : QOrder qlt}.
Variable C : cfg.
Hypothesis V : valid_cfg C.
Variables lbf ubf : list (wrapped R) -> Z -> res nat.
Hypothesis BE : bounds_exact lbf ubf.
Variables (ops : list (op R)) (e : ext R) (rs : list nat).
Hypothesis TG : c_del C = TAGGING.
Hypothesis NE : shards_never_empty qlt C ops.
Hypothesis H : run_new qlt C ops = Ok (e, rs).

Lemma stored_inserted : forall w, In w (stored e) -> exists r, In r (inserted ops) /\ req (wrec w) r = true.
Proof.
  intros w I. destruct (nothing_made_up qlt C V ops e rs (wrec w) H) as (A & _ & B). specialize (B TG).
  assert (P : 0 < n_plain (wrec w) (stored e)).
  { apply countb_pos. exists w. split; auto. rewrite req_refl. destruct (is_ts w) eqn:T; auto.
    assert (0 < n_tomb (wrec w) (stored e)); [|lia]. apply countb_pos. exists w. rewrite req_refl. auto. }
  rewrite n_ins_inserted in A. assert (Q : 0 < countb (req (wrec w)) (inserted ops)) by lia.
  apply countb_pos in Q. exact Q.
Qed.

Lemma shards_there : forall ls d, In ls (levels_of e) -> In d ls -> d <> [].
Proof. apply (NE ops [] e rs); auto. rewrite app_nil_r. auto. Qed.

Lemma sample_tagging : forall rng alias fuel rej s l u, (l <= u)%Z -> alias_contract alias ->
  match range_sample rng alias lbf ubf fuel rej s l u e with
  | Ok (e', out) => e' = e /\ length out <= s /\
      forall x, In x out -> key_in l u x = true /\ exists r, In r (inserted ops) /\ req x r = true
  | Fail f => f = FFuel
  end.
Proof.
  intros rng alias fuel rej s l u LU AO.
  destruct (sample_view qlt C V _ _ _ H shards_there) as (ws & ds & DO & P & E).
  unfold range_sample. rewrite (E _ (fun w d => irs_query rng alias lbf ubf fuel rej s l u w d)).
  pose proof (irs_sound rng alias AO _ _ BE l u LU ws ds DO rej fuel s) as S.
  destruct (irs_query rng alias lbf ubf fuel rej s l u ws ds) as [out|f]; simpl; auto.
  destruct S as (L & S). split; auto. split; auto. intros x I. destruct (S x I) as (K & w & IW & <-).
  split; [unfold key_in; apply andb_true_iff; rewrite !Z.leb_le; auto|].
  apply stored_inserted. apply (Permutation_in _ P). auto.
Qed.

Lemma sample_tagging_exact : forall rng alias fuel s l u, alias_contract alias -> 0 < fuel ->
  (exists w, In w (stored e) /\ key_in l u (wrec w) = true) ->
  exists out, range_sample rng alias lbf ubf fuel false s l u e = Ok (e, out) /\ length out = s.
Proof.
  intros rng alias fuel s l u AO F (w & I & K).
  destruct (sample_view qlt C V _ _ _ H shards_there) as (ws & ds & DO & P & E).
  unfold range_sample. rewrite (E _ (fun w d => irs_query rng alias lbf ubf fuel false s l u w d)).
  destruct (irs_exact rng alias AO _ _ BE l u ws ds DO false fuel s F (or_introl eq_refl)) as (out & EQ & L).
  - exists (wrec w). unfold key_in in K. apply andb_true_iff in K. rewrite !Z.leb_le in K. split; auto.
    exists w. split; auto. apply (Permutation_in _ (Permutation_sym P)). auto.
  - exists out. rewrite EQ. auto.
Qed.

Lemma sample_tagging_none : forall rng alias fuel rej s l u, (l <= u)%Z -> alias_contract alias -> 0 < s ->
  (forall w, In w (stored e) -> key_in l u (wrec w) = false) ->
  range_sample rng alias lbf ubf fuel rej s l u e = Fail FFuel.
Proof.
  intros rng alias fuel rej s l u LU AO SP N.
  destruct (sample_view qlt C V _ _ _ H shards_there) as (ws & ds & DO & P & E).
  unfold range_sample. rewrite (E _ (fun w d => irs_query rng alias lbf ubf fuel rej s l u w d)).
  rewrite (irs_empty rng alias AO _ _ BE l u LU ws ds DO rej fuel s SP); auto.
  intros r (K & w & I & <-). apply (Permutation_in _ P) in I. specialize (N w I). unfold key_in in N.
  rewrite (proj2 (Z.leb_le _ _) (proj1 K)), (proj2 (Z.leb_le _ _) (proj2 K)) in N. discriminate.
Qed.
End Tagged.

Lemma kv_req_eq : forall a b : kv, req a b = true -> a = b.
Proof.
  intros [a x] [b y] H. unfold req in H. simpl in H. unfold kv_eq in H. simpl in H.
  apply andb_true_iff in H as (H1 & H2). apply Z.eqb_eq in H1, H2. subst. reflexivity.
Qed.

Section T.
Variable qlt : qorder kv.
Context {QO : QOrder qlt}.
Variables lbf ubf : list (wrapped kv) -> Z -> res nat.
Hypothesis BE : bounds_exact lbf ubf.

Lemma run_samples_inv : forall rng alias rounds rej size e (P : Z * Z -> list kv -> Prop) qs i e' outs,
  (forall j l u e1 out, In (l, u) qs -> range_sample (rng j) (alias j) lbf ubf rounds rej size l u e = Ok (e1, out) ->
    e1 = e /\ P (l, u) out) ->
  run_samples rng alias lbf ubf rounds rej size i e qs = Ok (e', outs) -> e' = e /\ Forall2 P qs outs.
Proof.
  intros rng alias rounds rej size e P. induction qs as [|(l, u) qs IH]; intros i e' outs H K; cbn [run_samples] in K.
  - injection K as <- <-. auto.
  - destruct (range_sample (rng i) (alias i) lbf ubf rounds rej size l u e) as [[e1 out]|] eqn:E; cbn [bind] in K; [|discriminate].
    destruct (H i l u e1 out (or_introl eq_refl) E) as [-> Q].
    destruct (run_samples rng alias lbf ubf rounds rej size (S i) e qs) as [[e2 m]|] eqn:E2; cbn [bind] in K; [|discriminate].
    injection K as <- <-. destruct (IH _ _ _ (fun j l0 u0 e0 o I => H j l0 u0 e0 o (or_intror I)) E2) as [-> ?]. auto.
Qed.

Lemma run_samples_ok : forall rng alias rounds rej size e qs i,
  (forall j l u, In (l, u) qs -> exists out, range_sample (rng j) (alias j) lbf ubf rounds rej size l u e = Ok (e, out)) ->
  exists outs, run_samples rng alias lbf ubf rounds rej size i e qs = Ok (e, outs).
Proof.
  intros rng alias rounds rej size e. induction qs as [|(l, u) qs IH]; intros i H; cbn [run_samples]; [eauto|].
  destruct (H i l u (or_introl eq_refl)) as (out & ->). cbn [bind].
  destruct (IH (S i) (fun j l0 u0 I => H j l0 u0 (or_intror I))) as (outs & ->). cbn [bind]. eauto.
Qed.

Lemma run_samples_stuck : forall rng alias rounds rej size e l u qs i,
  (forall j l u, In (l, u) qs -> (exists out, range_sample (rng j) (alias j) lbf ubf rounds rej size l u e = Ok (e, out)) \/
     range_sample (rng j) (alias j) lbf ubf rounds rej size l u e = Fail FFuel) ->
  In (l, u) qs -> (forall j, range_sample (rng j) (alias j) lbf ubf rounds rej size l u e = Fail FFuel) ->
  run_samples rng alias lbf ubf rounds rej size i e qs = Fail FFuel.
Proof.
  intros rng alias rounds rej size e l u. induction qs as [|(a, b) qs IH]; intros i H Q N; [destruct Q|]. cbn [run_samples].
  destruct Q as [Q|Q]; [injection Q as -> ->; rewrite N; auto|].
  destruct (H i a b (or_introl eq_refl)) as [(out & ->)| ->]; cbn [bind]; auto.
  rewrite IH; auto. intros. apply H. right. auto.
Qed.

Lemma static_samples_inv : forall rng size s (P : Z * Z -> list kv -> Prop) qs i outs,
  (forall j l u ws, In (l, u) qs -> alone_irs (rng j) lbf ubf size l u s = Ok ws -> P (l, u) (map wrec ws)) ->
  static_samples rng lbf ubf size i s qs = Ok outs -> Forall2 P qs outs.
Proof.
  intros rng size s P. induction qs as [|(l, u) qs IH]; intros i outs H K; cbn [static_samples] in K.
  - injection K as <-. auto.
  - destruct (alone_irs (rng i) lbf ubf size l u s) as [ws|] eqn:E; cbn [bind] in K; [|discriminate].
    destruct (static_samples rng lbf ubf size (S i) s qs) as [m|] eqn:E2; cbn [bind] in K; [|discriminate].
    injection K as <-. constructor; [apply (H i l u ws (or_introl eq_refl) E)|].
    eapply IH; [|exact E2]. intros. eapply H; [right|]; eauto.
Qed.

Lemma static_samples_ok : forall rng size s qs i,
  (forall j l u, In (l, u) qs -> exists ws, alone_irs (rng j) lbf ubf size l u s = Ok ws) ->
  exists outs, static_samples rng lbf ubf size i s qs = Ok outs.
Proof.
  intros rng size s. induction qs as [|(l, u) qs IH]; intros i H; cbn [static_samples]; [eauto|].
  destruct (H i l u (or_introl eq_refl)) as (ws & ->). cbn [bind].
  destruct (IH (S i) (fun j l0 u0 I => H j l0 u0 (or_intror I))) as (outs & ->). cbn [bind]. eauto.
Qed.

Theorem trip : forall C coin ks rest fuel n dels w js c,
  valid_cfg C -> c_del C = TAGGING -> Forall (fits 8) ks -> w <= n <= length ks -> 0 < fuel ->
  picks coin dels n 0 0 = (js, c) -> countb coin (seq c (n - w)) <= length js ->
  exists recs ops d', length recs = n /\
    (forall i x, i < n -> nth_error ks i = Some x -> nth_error recs i = Some (KV (Z.of_N x) (Z.of_nat i))) /\
    inserted ops = recs /\ d' <= length js /\ map Some (erased ops) = map (nth_error recs) (firstn d' js) /\
    (survivors (c_lwm C) ops ->
     forall V (scan : list N -> option (V * list N)) close qs qfuel rng alias rounds rej size,
     Forall (good_line scan) qs -> length qs < qfuel -> (forall i, alias_contract (alias i)) ->
     let f := concat (map (le_bytes 8) ks) ++ rest in
     let program := bench_samples rng alias lbf ubf rounds rej size coin qlt C scan close fuel qfuel n dels w f (query_text qs) in
     let zs := ranges close qs in
     (forall outs sts, program = Ok (outs, sts) ->
        Forall2 (fun q out => length out <= size /\ forall x, In x out -> In x recs /\ key_in (fst q) (snd q) x = true) zs outs /\
        Forall2 (fun q out => 0 < hits (live ops) q ->
          length out = size /\ forall x, In x out -> In x (live ops) /\ key_in (fst q) (snd q) x = true) zs sts) /\
     (rej = false -> 0 < rounds -> zs <> [] -> (forall q, In q zs -> 0 < hits (live ops) q) ->
      (exists e, run_new qlt C ops = Ok (e, repeat 1 (length ops)) /\ exists x, create_static_structure qlt e = Ok x) ->
      exists outs sts, program = Ok (outs, sts) /\ Forall (fun out => length out = size) (outs ++ sts)) /\
     (0 < size -> (exists q, In q zs /\ hits recs q = 0) -> program = Fail FFuel)).
Proof.
  intros C coin ks rest fuel n dels w js c V TG F L FU PK CN.
  destruct (program_calls qlt C coin 8 Z.of_N ks rest fuel n dels w js c V F L FU PK CN)
    as (recs & ops & d' & LR & NT & AD & I & D & ER & EP & K).
  exists recs, ops, d'. split; auto. split; auto. split; auto. split; auto. split; auto. intros SV.
  destruct (picks_sorted _ _ _ _ _ _ _ PK) as (SO & _ & _).
  destruct (tagging_fill qlt C recs js ops d' V TG AD (sorted_nodup _ SO) I ER EP SV) as (e & RN & PE).
  intros V0 scan close qs qfuel rng alias rounds rej size GL QF AO. cbv zeta.
  assert (DI : distinct_inserts ops).
  { intros r. rewrite n_ins_inserted, I. apply different_count; auto. }
  assert (NE : shards_never_empty qlt C ops) by (apply (few_never_empty qlt C V); right; right; auto).
  assert (B : bsm_safe qlt C ops) by (intros _; auto).
  assert (ST : settled qlt C ops) by (right; auto).
  assert (LU : forall l u, In (l, u) (ranges close qs) -> (l <= u)%Z).
  { intros l u Q. unfold ranges in Q. apply in_map_iff in Q as (q & E & Q). injection E as <- <-.
    apply filter_In in Q as (_ & Q). apply andb_true_iff in Q as (Q & _). apply N.ltb_lt in Q. lia. }
  assert (LI : forall q, 0 < hits (live ops) q -> exists r, In r (live ops) /\ key_in (fst q) (snd q) r = true).
  { intros q Q. unfold hits in Q. destruct (filter (key_in (fst q) (snd q)) (live ops)) as [|r l] eqn:E; [simpl in Q; lia|].
    exists r. apply filter_In. rewrite E. simpl. auto. }
  assert (SQ : forall e2 s i l u, create_static_structure qlt e = Ok (e2, s) -> 0 < hits (live ops) (l, u) ->
    exists ws, alone_irs (rng i) lbf ubf size l u s = Ok ws /\ length (map wrec ws) = size /\
      forall x, In x (map wrec ws) -> In x (live ops) /\ key_in l u x = true).
  { intros e2 s i l u SS HI. destruct (LI _ HI) as (r & IR & KR). cbn [fst snd] in KR.
    assert (NX : live ops <> []) by (intros E; rewrite E in IR; destruct IR).
    destruct (after_irs qlt C V ops e e2 _ s ST RN SS NX (rng i) lbf ubf size l u BE (ex_intro _ r (conj IR KR)))
      as (Y & ws & PY & EW & MW). exists ws. split; auto. split; [rewrite MW, map_length, seq_length; auto|].
    intros x IX. rewrite MW in IX. apply in_map_iff in IX as (k & <- & _).
    apply filter_In. apply (Permutation_in _ PY). apply nth_In. apply Nat.mod_upper_bound.
    assert (In r Y) by (apply (Permutation_in _ (Permutation_sym PY)), filter_In; auto). destruct Y; [contradiction|simpl; lia]. }
  unfold bench_samples. rewrite (range_read scan close qs qfuel GL QF). cbn [bind]. rewrite (K e RN). cbn [bind].
  rewrite ranges_map. split; [|split].
  - intros outs sts H.
    destruct (run_samples rng alias lbf ubf rounds rej size 0 e (ranges close qs)) as [[e1 m]|] eqn:E; cbn [bind] in H; [|discriminate].
    apply (run_samples_inv _ _ _ _ _ _
      (fun q out => length out <= size /\ forall x, In x out -> In x recs /\ key_in (fst q) (snd q) x = true)) in E as [-> F1].
    2:{ intros j l u e1' out IQ RS.
        pose proof (sample_tagging qlt C V lbf ubf BE ops e _ TG NE RN (rng j) (alias j) rounds rej size l u (LU l u IQ) (AO j)) as X.
        rewrite RS in X. destruct X as (-> & LE & X). split; auto. split; auto. intros x IX. destruct (X x IX) as (KX & r & IR & EQ).
        apply kv_req_eq in EQ. subst r. rewrite <- I. auto. }
    destruct (ranges close qs) as [|z zs] eqn:Z; cbn [per_query bind] in H; [discriminate|]. rewrite <- Z in *.
    destruct (create_static_structure qlt e) as [[e2 s]|] eqn:SS; cbn [bind] in H; [|discriminate].
    destruct (static_samples rng lbf ubf size (length (ranges close qs)) s (ranges close qs)) as [m2|] eqn:E'; cbn [bind] in H; [|discriminate].
    injection H as <- <-. split; auto. eapply static_samples_inv; [|exact E'].
    intros j l u ws IQ RS HI. cbn [fst snd]. destruct (SQ e2 s j l u eq_refl HI) as (ws' & E2 & R). rewrite RS in E2. injection E2 as <-. auto.
  - intros -> RO NZ HI (e0 & RN0 & x & SS). rewrite RN in RN0. injection RN0 as <-. destruct x as [e2 s].
    assert (SE : forall j l u, In (l, u) (ranges close qs) -> exists out,
      range_sample (rng j) (alias j) lbf ubf rounds false size l u e = Ok (e, out) /\ length out = size).
    { intros j l u IQ. apply (sample_tagging_exact qlt C V lbf ubf BE ops e _ NE RN); auto.
      destruct (LI _ (HI _ IQ)) as (r & IR & KR). apply (Permutation_in _ (Permutation_sym PE)) in IR.
      apply in_map_iff in IR as (z & <- & IZ). apply filter_In in IZ as (IZ & _). eauto. }
    destruct (run_samples_ok rng alias rounds false size e (ranges close qs) 0) as (outs & E).
    { intros j l u IQ. destruct (SE j l u IQ) as (out & ? & _). eauto. }
    destruct (static_samples_ok rng size s (ranges close qs) (length (ranges close qs))) as (sts & E2).
    { intros j l u IQ. destruct (SQ e2 s j l u SS (HI _ IQ)) as (ws & ? & _). eauto. }
    exists outs, sts. rewrite E. cbn [bind]. split.
    + destruct (ranges close qs) as [|z zs] eqn:Z; [contradiction|]. cbn [per_query bind]. rewrite SS. cbn [bind]. rewrite E2. auto.
    + apply (run_samples_inv _ _ _ _ _ _ (fun q out => length out = size)) in E as [_ F1].
      2:{ intros j l u e1 out IQ RS. destruct (SE j l u IQ) as (o & E3 & L3). rewrite E3 in RS. injection RS as <- <-. auto. }
      apply (static_samples_inv _ _ _ (fun q out => length out = size)) in E2.
      2:{ intros j l u ws IQ RS. destruct (SQ e2 s j l u SS (HI _ IQ)) as (o & E3 & L3 & _). rewrite E3 in RS. injection RS as <-. auto. }
      apply Forall_app. clear - F1 E2. split; [clear E2; induction F1|clear F1; induction E2]; auto.
  - intros SP ([l u] & IQ & HZ). rewrite (run_samples_stuck rng alias rounds rej size e l u); auto.
    + intros j a b IA.
      pose proof (sample_tagging qlt C V lbf ubf BE ops e _ TG NE RN (rng j) (alias j) rounds rej size a b (LU a b IA) (AO j)) as X.
      destruct (range_sample (rng j) (alias j) lbf ubf rounds rej size a b e) as [[e1 out]|f]; [destruct X as (-> & _); eauto|subst; auto].
    + intros j. apply (sample_tagging_none qlt C V lbf ubf BE ops e _ NE RN); auto. intros x IX.
      destruct (key_in l u (wrec x)) eqn:KX; auto. exfalso.
      destruct (stored_inserted qlt C V ops e _ TG RN x IX) as (r & IR & EQ). apply kv_req_eq in EQ. subst r. rewrite I in IR.
      unfold hits in HZ. cbn [fst snd] in HZ. assert (In (wrec x) (filter (key_in l u) recs)) by (apply filter_In; auto).
      destruct (filter (key_in l u) recs); [contradiction|discriminate].
Qed.
End T.

(** An alias structure that takes the last positive weight. *)
Definition last_pos (ws : list nat) (c : nat) : nat := length ws - 1 - first_pos (rev ws) c.

Lemma last_pos_ok : alias_contract last_pos.
Proof.
  intros ws c H. destruct (first_pos_ok (rev ws) c) as (n & E & P).
  { clear - H. intros Z. apply H. clear H. induction ws as [|a ws IH]; auto. simpl in *.
    assert (A : forall l m, sum_list (l ++ m) = sum_list l + sum_list m).
    { induction l as [|x l L]; intros m; simpl; auto. rewrite L. lia. }
    rewrite A in Z. simpl in Z. rewrite IH by lia. lia. }
  exists n. split; auto. unfold last_pos.
  assert (L : first_pos (rev ws) c < length ws) by (rewrite <- rev_length; apply nth_error_Some; rewrite E; discriminate).
  rewrite <- E. rewrite (nth_error_nth' ws 0) by lia.
  rewrite (nth_error_nth' (rev ws) 0) by (rewrite rev_length; lia).
  f_equal. rewrite rev_nth by lia. f_equal. lia.
Qed.

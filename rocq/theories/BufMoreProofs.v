(** Proofs about all the calls on one buffer. *)
From Coq Require Import List Arith ZArith NArith Lia Bool.
From Verif Require Import Base ListLemmas RecordModel RecordProofs BufferModel BufferProofs
  MergeProofs ContentProofs TagProofs TagContent BufMoreModel BufMoreSpec.
Import ListNotations.

Section BMP.
Context {R : Type} {RO : RecOps R} {RL : RecLaws R}.

Record kinv (b : buffer R) (k : known R) : Prop := {
  q_len : length (b_data b) = b_cap b;
  q_hwm : b_hwm b = k_hwm k;
  q_cap : b_hwm b < b_cap b;
  q_head : hidx (b_head b) = k_head k;
  q_tail : b_tail b = k_head k + length (k_log k);
  q_room : length (k_log k) < b_cap b;
  q_cont : map bare (ring (b_data b) (k_head k) (length (k_log k))) = k_log k;
  q_ts : b_tscnt b = k_ts k;
  q_cnt : count_ts (k_log k) <= k_ts k;
  q_flt : forall r tg, In (r, true, tg) (k_log k) -> In r (b_filter b)
}.

Lemma count64 : forall b k, kinv b k -> buf_count64 b = N.of_nat (length (k_log k)).
Proof.
  intros b k []. unfold buf_count64, sub64. rewrite q_tail0, q_head0.
  destruct (Nat.leb_spec (k_head k) (k_head k + length (k_log k))); [|lia]. f_equal. lia.
Qed.

Lemma full64 : forall b k, kinv b k -> buf_is_full64 b = (k_hwm k <=? length (k_log k)).
Proof.
  intros b k I. unfold buf_is_full64. rewrite (count64 _ _ I), (q_hwm _ _ I).
  destruct (Nat.leb_spec (k_hwm k) (length (k_log k))), (N.leb_spec (N.of_nat (k_hwm k)) (N.of_nat (length (k_log k)))); auto; lia.
Qed.

Lemma create_kinv : forall lwm hwm cap b, buf_create lwm hwm cap = Ok b -> kinv b (Known 0 hwm [] 0).
Proof.
  intros lwm hwm cap b H. unfold buf_create in H.
  set (c := if cap =? 0 then 2 * hwm else cap) in *.
  destruct (Nat.ltb_spec hwm c); [|discriminate]. destruct (lwm <=? hwm); [|discriminate].
  inv H. constructor; cbn; auto; try lia. apply repeat_length.
Qed.

(** Taking a view of the current head and releasing it changes nothing. *)
Lemma view_release : forall b : buffer R, exists b1,
  buf_view b = Ok (b1, View (b_cap b) (hidx (b_head b)) (b_tail b) (b_tscnt b)) /\
  b_data b1 = b_data b /\ b_filter b1 = b_filter b /\
  (forall d, buf_release (with_data b1 d) (hidx (b_head b)) = Ok (with_data b d)) /\
  buf_release b1 (hidx (b_head b)) = Ok b.
Proof.
  intros [lw hw cap tail [hi hr] [oi orf] d tn flt]. unfold buf_view, buf_get_view, buf_get_head.
  cbn. rewrite Nat.eqb_refl.
  destruct (oi =? hi) eqn:E; cbn [bind b_cap b_tail b_tscnt].
  - eexists. split; [reflexivity|]. cbn. repeat split.
    + intros d'. unfold buf_release. cbn. rewrite Nat.eqb_refl. apply Nat.eqb_eq in E. subst. reflexivity.
    + unfold buf_release. cbn. rewrite Nat.eqb_refl. apply Nat.eqb_eq in E. subst. reflexivity.
  - eexists. split; [reflexivity|]. cbn. repeat split.
    + intros d'. unfold buf_release. cbn. rewrite E. reflexivity.
    + unfold buf_release. cbn. rewrite E. reflexivity.
Qed.

Lemma kinv_vok : forall b k, kinv b k ->
  let v := View (b_cap b) (hidx (b_head b)) (b_tail b) (b_tscnt b) in
  vok (b_data b) v /\ v_count v = length (k_log k) /\ v_head v = k_head k.
Proof.
  intros b k []. cbv zeta. unfold vok, v_count. cbn. repeat split; auto; try lia.
Qed.

Lemma tag_first_none : forall r l, has r l = false -> tag_first r l = l.
Proof.
  induction l as [|[[x ts] tg] l IH]; cbn; auto. intros H. apply orb_false_iff in H as [H1 H2].
  rewrite H1. f_equal. auto.
Qed.

Lemma tag_first_nth : forall r (l : list (wrapped R)) i w, first_match r l i w ->
  map bare (set_nth i (set_delete w) l) = tag_first r (map bare l) /\ has r (map bare l) = true.
Proof.
  intros r l. induction l as [|a l IH]; intros i w (H1 & H2 & H3).
  - destruct i; discriminate.
  - destruct i as [|i]; cbn in H1.
    + inv H1. cbn. rewrite H2. split; auto. f_equal. unfold bare.
      rewrite set_delete_wrec, is_ts_set_delete. f_equal.
      unfold is_del, set_delete. cbn. rewrite h_is_deleted_bit. unfold h_set_delete.
      rewrite N.lor_spec. replace (N.testbit 2 1) with true by reflexivity. apply orb_true_r.
    + assert (F : first_match r l i w).
      { split; [auto|]. split; auto. intros k' w' L N. apply (H3 (S k') w'); [lia|auto]. }
      destruct (IH i w F) as [E1 E2]. pose proof (H3 0 a ltac:(lia) eq_refl) as Q.
      cbn. rewrite Q. cbn. split; auto. f_equal. auto.
Qed.

Lemma no_match_has : forall r (l : list (wrapped R)), no_match r l -> has r (map bare l) = false.
Proof.
  intros r l N. unfold has. destruct (existsb _ _) eqn:E; auto. apply existsb_exists in E as (e & I & Q).
  apply in_map_iff in I as (w & <- & I). cbn in Q. rewrite (N w I) in Q. discriminate.
Qed.

Lemma tag_first_length : forall r l, length (tag_first (RO := RO) r l) = length l.
Proof. induction l as [|[[x ts] tg] l IH]; cbn; auto. destruct (req x r); cbn; auto. Qed.

Lemma tag_first_ts : forall r l, count_ts (tag_first (RO := RO) r l) = count_ts l.
Proof.
  unfold count_ts. induction l as [|[[x ts] tg] l IH]; cbn; auto.
  destruct (req x r); cbn; destruct ts; cbn; auto.
Qed.

Lemma tag_first_in : forall r l x ts tg, In (x, ts, tg) (tag_first (RO := RO) r l) ->
  exists tg', In (x, ts, tg') l.
Proof.
  induction l as [|[[y ts'] tg'] l IH]; cbn; intros x ts tg H; [contradiction|].
  destruct (req y r); cbn in H; destruct H as [H|H].
  - inv H. eauto.
  - eauto.
  - inv H. eauto.
  - apply IH in H as [t H]. eauto.
Qed.

Lemma set_slot_len : forall (d : list (wrapped R)) v r d' x, v_delete_record d v r = (d', x) -> length d' = length d.
Proof.
  intros d v r d' x EV. unfold v_delete_record in EV.
  repeat match type of EV with
  | context [match ?x with _ => _ end] => destruct x
  end; inv EV; auto using set_nth_length.
Qed.

Lemma delete_step : forall b k r, kinv b k ->
  exists b' x, buf_delete_record b r = Ok (b', x) /\ kinv b' (learn k (CDel r) (bit x)) /\
    (k_log k <> [] -> x = has r (k_log k)).
Proof.
  intros b k r I. unfold buf_delete_record. destruct (view_release b) as (b1 & E1 & E2 & E3 & E4 & _).
  rewrite E1. cbn [bind]. rewrite E2. set (v := View _ _ _ _).
  destruct (kinv_vok b k I) as (V1 & V2 & V3). fold v in V1, V2, V3.
  destruct (v_delete_record (b_data b) v r) as [d' x] eqn:EV.
  cbn [v_head]. rewrite E4. cbn [bind]. exists (with_data b d'), x. split; auto.
  pose proof (set_slot_len _ _ _ _ _ EV) as LD. destruct I.
  assert (K : map bare (ring d' (k_head k) (length (k_log k))) = tag_first r (k_log k) /\
     (k_log k <> [] -> x = has r (k_log k))).
  { destruct (k_log k) as [|e l] eqn:EK.
    - split; [reflexivity|congruence].
    - rewrite <- EK in *. assert (NE : v_head v < v_tail v).
      { unfold v_count in V2. rewrite EK in V2. cbn [length] in V2. lia. }
      pose proof (v_delete_spec (b_data b) v r V1 NE) as P. cbv zeta in P.
      rewrite V2, V3, EV in P. destruct P as [(i & w & F & E)|(N & E)]; inv E.
      + assert (IL : i < length (k_log k)).
        { destruct F as (F & _). apply nth_some_lt in F. rewrite ring_length in F. auto. }
        rewrite ring_set by lia. destruct (tag_first_nth _ _ _ _ F) as [T1 T2].
        rewrite T1, q_cont0. rewrite q_cont0 in T2. auto.
      + apply no_match_has in N. rewrite q_cont0 in N. rewrite q_cont0, tag_first_none; auto. }
  destruct K as [K1 K2]. split; auto.
  constructor; cbn [learn with_data b_data b_cap b_hwm b_tail b_head k_log k_head k_hwm k_ts b_tscnt b_filter];
    rewrite ?tag_first_length, ?tag_first_ts; auto; try lia.
  intros y tg H. apply tag_first_in in H as [t H]. eauto.
Qed.

Lemma check_ok : forall fp b k r, kinv b k -> buf_check_tombstone fp b r = Ok (b, has_ts r (k_log k)).
Proof.
  intros fp b k r I. unfold buf_check_tombstone. destruct (view_release b) as (b1 & E1 & E2 & E3 & _ & E4).
  rewrite E1. cbn [bind]. rewrite E2, E3. set (v := View _ _ _ _).
  destruct (kinv_vok b k I) as (V1 & V2 & V3). fold v in V1, V2, V3.
  assert (K : v_check64 fp (b_filter b) (b_data b) v r = Ok (has_ts r (k_log k))).
  { unfold v_check64, v_check_tombstone. destruct (existsb (req r) (b_filter b) || fp r) eqn:EF; cbn [negb].
    - destruct (Nat.ltb_spec (v_tail v) (v_head v)); [destruct V1; lia|].
      rewrite (v_records_ok _ _ V1), V2, V3. cbn [bind]. f_equal.
      transitivity (has_ts r (map bare (ring (b_data b) (k_head k) (length (k_log k))))).
      + unfold has_ts. clear. induction (ring _ _ _); cbn; auto. rewrite IHl. auto.
      + rewrite (q_cont _ _ I). auto.
    - f_equal. destruct (has_ts r (k_log k)) eqn:EX; auto. unfold has_ts in EX.
      apply existsb_exists in EX as ([[y ts] tg] & H1 & H2). cbn in H2. apply andb_true_iff in H2 as [H2 ->].
      apply (q_flt _ _ I) in H1. apply orb_false_iff in EF as [EF _].
      assert (existsb (req r) (b_filter b) = true); [|congruence].
      apply existsb_exists. exists y. split; auto. apply req_spec in H2. apply req_spec. tauto. }
  rewrite K. cbn [bind v_head]. unfold v. cbn [v_head]. rewrite E4. reflexivity.
Qed.

Lemma count_ts_app : forall l m : list (entry R), count_ts (l ++ m) = count_ts l + count_ts m.
Proof. intros. unfold count_ts. rewrite filter_app, app_length. auto. Qed.

Lemma count_ts_skip : forall n (l : list (entry R)), count_ts (skipn n l) <= count_ts l.
Proof. intros. rewrite <- (firstn_skipn n l) at 2. rewrite count_ts_app. lia. Qed.

Lemma append_step : forall b k r ts, kinv b k ->
  snd (buf_append64 b r ts) = bit (length (k_log k) <? k_hwm k) /\
  (snd (buf_append64 b r ts) = 0 -> fst (buf_append64 b r ts) = b) /\
  kinv (fst (buf_append64 b r ts)) (learn k (CApp r ts) (snd (buf_append64 b r ts))).
Proof.
  intros b k r ts I. unfold buf_append64. rewrite (full64 _ _ I).
  destruct (Nat.leb_spec (k_hwm k) (length (k_log k))), (Nat.ltb_spec (length (k_log k)) (k_hwm k)); try lia; cbn [fst snd bit].
  - auto.
  - split; auto. split; [discriminate|]. destruct I.
    constructor; cbn [learn b_data b_cap b_hwm b_tail b_head k_log k_head k_hwm k_ts b_tscnt b_filter]; auto;
      rewrite ?app_length, ?set_nth_length, ?count_ts_app; cbn [length]; try lia.
    + replace (length (k_log k) + 1) with (S (length (k_log k))) by lia.
      replace (b_tail b mod b_cap b) with ((k_head k + length (k_log k)) mod length (b_data b))
        by (rewrite q_len0; f_equal; lia).
      rewrite ring_snoc by lia. rewrite map_app, q_cont0. cbn [map]. do 2 f_equal. unfold bare.
      rewrite append_rec_del. pose proof (rt_append r ts ((k_head k + length (k_log k)) mod length (b_data b))) as P.
      unfold rt in P. rewrite P. auto.
    + destruct ts; cbn; lia.
    + destruct ts; cbn; lia.
    + intros y tg H1. apply in_app_iff in H1 as [H1|[H1|[]]].
      * destruct ts; cbn; eauto.
      * inv H1. cbn. auto.
Qed.

Lemma call_step : forall fp b k c b' x, kinv b k -> ccall fp b c = Ok (b', x) ->
  (c = CTrunc -> k_head k = 0) -> kinv b' (learn k c x) /\ x <= 1.
Proof.
  intros fp b k c b' x I H T. destruct c as [r ts|n|t|t|r|r| |n|n]; cbn [ccall] in H.
  - injection H as H. destruct (append_step b k r ts I) as (A1 & _ & A2). rewrite H in A1, A2.
    split; auto. cbn [snd] in A1. rewrite A1. destruct (length (k_log k) <? k_hwm k); cbn; lia.
  - unfold buf_advance_head in H.
    destruct (Nat.ltb_spec (hidx (b_head b)) n); [|discriminate].
    destruct (Nat.leb_spec n (b_tail b)); [|discriminate]. cbn [negb] in H.
    destruct (0 <? href (b_old b)); inv H; cbn [learn bit]; split; auto.
    destruct I.
    constructor; cbn [b_data b_cap b_hwm b_tail b_head k_log k_head k_hwm k_ts b_tscnt b_filter hidx]; auto;
      rewrite ?skipn_length; try lia.
    + rewrite <- q_cont0 at 2. unfold ring. rewrite !map_map, skipn_map. f_equal.
      assert (LL : length (k_log k) = (n - k_head k) + (length (k_log k) - (n - k_head k))) by lia.
      rewrite LL at 2. rewrite seq_app, skipn_app, seq_length, Nat.sub_diag, skipn_all2 by (rewrite seq_length; lia).
      cbn [skipn app]. f_equal. lia.
    + pose proof (count_ts_skip (n - k_head k) (k_log k)). lia.
    + intros r tg Q. apply q_flt0 with tg. rewrite <- (firstn_skipn (n - k_head k) (k_log k)).
      apply in_app_iff. auto.
  - unfold buf_get_view, buf_get_head in H.
    destruct (hidx (b_old b) =? t) eqn:E1; [|destruct (hidx (b_head b) =? t) eqn:E2; [|discriminate]]; inv H;
      destruct I; (split; [|auto]); constructor; cbn; auto.
    apply Nat.eqb_eq in E2. congruence.
  - unfold buf_release in H. destruct (hidx (b_old b) =? t);
      [destruct (href (b_old b))|destruct (href (b_head b))]; inv H; destruct I; (split; [|auto]);
      constructor; cbn; auto.
  - destruct (delete_step b k r I) as (b1 & y & E & I1 & _). rewrite E in H. inv H.
    split; auto. destruct y; cbn; lia.
  - rewrite (check_ok fp b k r I) in H. inv H. split; [exact I|]. destruct (has_ts _ _); cbn; lia.
  - inv H. specialize (T eq_refl). destruct I.
    split; [|auto]. constructor; cbn in *; auto; lia.
  - unfold buf_set_lwm in H. destruct (_ <? _); inv H. split; [|auto]. destruct I. constructor; cbn; auto.
  - unfold buf_set_hwm in H. destruct (b_lwm b <? n); [|discriminate]. destruct (Nat.ltb_spec n (b_cap b)); inv H.
    split; [|auto]. destruct I. constructor; cbn; auto.
Qed.

Lemma run_step : forall fp cs b k b' rs, kinv b k -> crun fp b cs = Ok (b', rs) ->
  trunc_first cs -> (In CTrunc cs -> k_head k = 0) -> kinv b' (replay k cs rs).
Proof.
  intros fp cs. induction cs as [|c cs IH]; intros b k b' rs I H T K; cbn [crun] in H.
  - inv H. auto.
  - destruct (ccall fp b c) as [[b1 x]|] eqn:E; [|discriminate]. cbn [bind] in H.
    destruct (crun fp b1 cs) as [[b2 xs]|] eqn:E2; inv H. cbn [replay].
    destruct (call_step fp b k c b1 x I E) as [I1 LX].
    { intros ->. apply K. left. auto. }
    apply (IH b1 _ b' xs I1 E2).
    + intros pre post n -> P. apply (T (c :: pre) post n); [auto|right; auto].
    + intros Q. specialize (K (or_intror Q)). destruct c; cbn; auto; destruct x as [|[|x]]; cbn; auto.
      exfalso. apply in_split in Q as (pre & post & ->). apply (T (CAdv n :: pre) post n); [auto|left; auto].
Qed.

Lemma run_kinv : forall fp lwm hwm cap b0 cs b rs, buf_create lwm hwm cap = Ok b0 ->
  crun fp b0 cs = Ok (b, rs) -> trunc_first cs -> kinv b (replay (Known 0 hwm [] 0) cs rs).
Proof.
  intros. eapply run_step; eauto using create_kinv.
Qed.

(** ** The statements *)

Theorem buffer_contents : forall fp lwm hwm cap b0 cs b rs,
  buf_create lwm hwm cap = Ok b0 -> crun fp b0 cs = Ok (b, rs) -> trunc_first cs ->
  let k := replay (Known 0 hwm [] 0) cs rs in
  exists b' v ws,
    buf_view b = Ok (b', v) /\ v_head v = k_head k /\ v_tail v = k_head k + length (k_log k) /\
    v_records (b_data b') v = Ok ws /\ map (fun w => (wrec w, is_ts w, is_del w)) ws = k_log k /\
    buf_count64 b = N.of_nat (length (k_log k)) /\ v_tscnt v = k_ts k /\ count_ts (k_log k) <= k_ts k.
Proof.
  intros fp lwm hwm cap b0 cs b rs H0 H T k.
  pose proof (run_kinv _ _ _ _ _ _ _ _ H0 H T) as I. fold k in I.
  destruct (view_release b) as (b1 & E1 & E2 & E3 & _ & E4).
  destruct (kinv_vok b k I) as (V1 & V2 & V3).
  exists b1. eexists. eexists. split; [exact E1|]. split; [exact V3|].
  split; [apply (q_tail _ _ I)|]. rewrite E2. split; [rewrite (v_records_ok _ _ V1), V2, V3; reflexivity|].
  split; [apply (q_cont _ _ I)|]. split; [apply count64; auto|]. split; [apply (q_ts _ _ I)|apply (q_cnt _ _ I)].
Qed.

Theorem buffer_checks : forall fp lwm hwm cap b0 cs b rs r,
  buf_create lwm hwm cap = Ok b0 -> crun fp b0 cs = Ok (b, rs) -> trunc_first cs ->
  let k := replay (Known 0 hwm [] 0) cs rs in
  ccall fp b (CChk r) = Ok (b, bit (has_ts r (k_log k))) /\
    (forall ts, exists b', ccall fp b (CApp r ts) = Ok (b', bit (length (k_log k) <? k_hwm k))).
Proof.
  intros fp lwm hwm cap b0 cs b rs r H0 H T k.
  pose proof (run_kinv _ _ _ _ _ _ _ _ H0 H T) as I. fold k in I.
  cbn [ccall]. rewrite (check_ok fp b k r I). cbn [bind]. split; auto.
  intros ts. destruct (append_step b k r ts I) as (A1 & _). exists (fst (buf_append64 b r ts)).
  rewrite <- A1. destruct (buf_append64 b r ts); auto.
Qed.

Theorem buffer_deletes : forall fp lwm hwm cap b0 cs b rs r,
  buf_create lwm hwm cap = Ok b0 -> crun fp b0 cs = Ok (b, rs) -> trunc_first cs ->
  let k := replay (Known 0 hwm [] 0) cs rs in
  exists b' x, ccall fp b (CDel r) = Ok (b', x) /\
    (k_log k <> [] -> x = bit (has r (k_log k))).
Proof.
  intros fp lwm hwm cap b0 cs b rs r H0 H T k.
  pose proof (run_kinv _ _ _ _ _ _ _ _ H0 H T) as I. fold k in I. cbn [ccall].
  destruct (delete_step b k r I) as (b1 & x & E & _ & X). rewrite E. cbn [bind].
  exists b1, (bit x). split; auto. intros N. rewrite (X N). auto.
Qed.

Lemma no_advance_head : forall cs rs (k : known R), (forall n, ~ In (CAdv n) cs) ->
  k_head (replay k cs rs) = k_head k.
Proof.
  induction cs as [|c cs IH]; intros [|x rs] k N; cbn [replay]; auto.
  rewrite IH by (intros n Q; apply (N n); right; auto).
  destruct c; cbn; auto; destruct x as [|[|x]]; auto. exfalso. apply (N n). left. auto.
Qed.

Theorem buffer_truncates : forall fp lwm hwm cap b0 cs b rs r ts,
  buf_create lwm hwm cap = Ok b0 -> crun fp b0 cs = Ok (b, rs) -> (forall n, ~ In (CAdv n) cs) ->
  let k := replay (Known 0 hwm [] 0) cs rs in
  exists b1 b2,
    ccall fp b CTrunc = Ok (b1, 1) /\ buf_count64 b1 = 0%N /\ b_tscnt b1 = 0 /\
    ccall fp b1 (CChk r) = Ok (b1, 0) /\
    ccall fp b1 (CApp r ts) = Ok (b2, bit (0 <? k_hwm k)).
Proof.
  intros fp lwm hwm cap b0 cs b rs r ts H0 H N k.
  assert (T : trunc_first cs).
  { intros pre post n -> Q. apply (N n). apply in_or_app. auto. }
  pose proof (run_kinv _ _ _ _ _ _ _ _ H0 H T) as I. fold k in I.
  destruct (call_step fp b k CTrunc (buf_truncate b) 1 I eq_refl) as [I1 _].
  { intros _. unfold k. rewrite no_advance_head; auto. }
  exists (buf_truncate b), (fst (buf_append64 (buf_truncate b) r ts)). split; [reflexivity|].
  split; [apply (count64 _ _ I1)|]. split; [reflexivity|]. cbn [ccall].
  rewrite (check_ok fp _ _ r I1). cbn [bind learn k_log has_ts existsb bit]. split; auto.
  destruct (append_step _ _ r ts I1) as (A1 & _). cbn [learn k_log length k_hwm] in A1.
  rewrite <- A1. destruct (buf_append64 (buf_truncate b) r ts); auto.
Qed.

(** Truncating a buffer whose head has moved leaves it refusing every append. *)
Theorem truncate_bad : forall b : buffer R, 0 < hidx (b_head b) ->
  (N.of_nat (hidx (b_head b)) + N.of_nat (b_hwm b) <= 2 ^ 64)%N ->
  buf_count64 (buf_truncate b) = (2 ^ 64 - N.of_nat (hidx (b_head b)))%N /\
  forall r ts, buf_append64 (buf_truncate b) r ts = (buf_truncate b, 0).
Proof.
  intros b H L. assert (E : buf_count64 (buf_truncate b) = (2 ^ 64 - N.of_nat (hidx (b_head b)))%N).
  { unfold buf_count64, sub64. cbn [buf_truncate b_tail b_head].
    destruct (Nat.leb_spec (hidx (b_head b)) 0); [lia|]. rewrite Nat.sub_0_r. auto. }
  split; auto. intros r ts. unfold buf_append64, buf_is_full64. rewrite E. cbn [buf_truncate b_hwm].
  destruct (N.leb_spec (N.of_nat (b_hwm b)) (2 ^ 64 - N.of_nat (hidx (b_head b)))); auto. lia.
Qed.

End BMP.

(** Serial histories, in the vocabulary of Spec.v. *)
From Coq Require Import List Arith ZArith NArith Lia Bool Permutation Sorted.
From Verif Require Import Base ListLemmas RecordModel RecordProofs BufferModel BufferProofs
  MergeModel MergeProofs StructModel ExtModel StructProofs StructTotal SortedProofs ExtProofs ContentProofs
  QueryModel Spec QueryProofs.
Import ListNotations.

Section SP.
Context {R : Type} {RO : RecOps R} {RL : RecLaws R}.
Variable qlt : qorder R.
Context {QO : QOrder qlt}.
Variable C : cfg.
Hypothesis V : valid_cfg C.

Local Lemma LW : 1 <= c_lwm C. Proof. destruct V as (? & ? & ? & ?). auto. Qed.
Local Lemma WM : c_lwm C <= c_hwm C. Proof. destruct V as (? & ? & ? & ?). auto. Qed.
Local Lemma SF : 1 <= c_sf C. Proof. destruct V as (? & ? & ? & ?). auto. Qed.
Local Lemma B2 : c_layout C = BSM -> c_sf C = 2. Proof. destruct V as (? & ? & ? & ?). auto. Qed.

Local Hint Resolve LW WM SF B2 : core.

(** ** Logs *)

Lemma insert_only_plain : forall ops : list (op R), insert_only ops ->
  forall x, In x (map oplog ops) -> snd x = false.
Proof.
  intros ops H x Hx. apply in_map_iff in Hx as (o & <- & Ho). apply H in Ho as (r & ->). auto.
Qed.

Lemma insert_only_appends : forall ops : list (op R), insert_only ops -> Forall (appends C) ops.
Proof.
  intros. apply Forall_forall. intros o Ho. apply H in Ho as (r & ->). right. auto.
Qed.

Lemma tomb_appends : forall ops : list (op R), c_del C = TOMBSTONE -> Forall (appends C) ops.
Proof. intros. apply Forall_forall. intros. left. auto. Qed.

Lemma inserted_log : forall ops : list (op R), insert_only ops -> inserted ops = map fst (map oplog ops).
Proof.
  induction ops; simpl; intros; auto. destruct (H a) as [r ->]; [simpl; auto|]. simpl. f_equal.
  apply IHops. intros o Ho. apply H. simpl. auto.
Qed.

Lemma mostly_blocks : forall n (ops : list (op R)), mostly_inserts n ops -> blocks_pos n (map oplog ops).
Proof.
  intros n ops H k L. rewrite map_length in L. specialize (H k L).
  rewrite skipn_map, firstn_map. set (b := firstn n (skipn (k * n) ops)) in *. simpl in H.
  assert (E : forall b : list (op R), countb (fun x => negb (snd x)) (map oplog b) = countb is_insert b /\
                      countb snd (map oplog b) = countb is_erase b).
  { clear. induction b as [|o b [E1 E2]]; simpl; auto.
    rewrite E1, E2. destruct o; simpl; auto. }
  destruct (E b) as [E1 E2]. unfold net. rewrite E1, E2. lia.
Qed.

Lemma insert_only_blocks : forall ops : list (op R), insert_only ops -> blocks_pos (c_lwm C) (map oplog ops).
Proof. intros. apply (plain_blocks C SF LW WM); auto using LW. apply insert_only_plain. auto. Qed.

(** ** The stored records *)

Lemma stored_eq : forall e st win pos tsn, einv C e st win pos tsn ->
  Permutation (stored e) (sdata (age st) ++ win) /\ buffer_records e = win.
Proof.
  intros e st win pos tsn I. pose proof LW as HL. pose proof WM as HW.
  destruct I. assert (EB : buffer_records e = win).
  { unfold buffer_records. rewrite i_head, i_tail, i_cap. cbn [hidx].
    replace (pos + length win - pos) with (length win) by lia.
    transitivity (ring (b_data (e_buf e)) pos (length win)); auto.
    unfold ring. clear - i_len HL HW. rewrite <- i_len.
    induction (seq pos (length win)); simpl; auto. rewrite IHl.
    assert (a mod length (b_data (e_buf e)) < length (b_data (e_buf e))).
    { apply Nat.mod_upper_bound. lia. }
    destruct (nth_error (b_data (e_buf e)) (a mod length (b_data (e_buf e)))) eqn:E.
    - simpl. f_equal. symmetry. apply nth_error_nth. auto.
    - apply nth_error_None in E. lia. }
  split; auto. unfold stored. rewrite EB. apply Permutation_app_tail.
  unfold shard_records. rewrite i_cur. simpl. unfold age.
  change (concat (map s_data (concat (map lv_shards (st_levels st)))))
    with (sdata (concat (map lv_shards (st_levels st)))).
  unfold sdata. apply concat_perm. apply Permutation_map. unfold AGE.
  rewrite map_rev. induction (map lv_shards (st_levels st)); simpl; auto.
  rewrite concat_app. simpl. rewrite app_nil_r. rewrite Permutation_app_comm.
  apply Permutation_app_tail. auto.
Qed.

Lemma shards_nonempty : forall e st win pos tsn, einv C e st win pos tsn ->
  (forall ls d, In ls (levels_of e) -> In d ls -> d <> []) <-> Forall nonempty (age st).
Proof.
  intros e st win pos tsn I. destruct I. unfold levels_of. rewrite i_cur. rewrite Forall_forall. split.
  - intros H s Hs. rewrite <- (query_shards_perm st) in Hs. unfold query_shards in Hs.
    apply in_concat in Hs as (ss & H1 & H2). apply in_map_iff in H1 as (l & <- & Hl).
    unfold nonempty. eapply H; [|apply in_map; exact H2]. apply in_map_iff. eauto.
  - intros H ls d H1 H2. apply in_map_iff in H1 as (l & <- & Hl). apply in_map_iff in H2 as (s & <- & Hs).
    apply H. rewrite <- (query_shards_perm st). unfold query_shards. apply in_concat.
    exists (lv_shards l). split; auto. apply in_map. auto.
Qed.

Lemma safe_ok : forall ops, bsm_safe qlt C ops -> bsm_ok qlt C ops.
Proof.
  intros ops B Q pre post e rs st win pos tsn E Rn I _.
  apply (shards_nonempty _ _ _ _ _ I). eapply B; eauto.
Qed.
Lemma blocks_ok : forall ops, blocks_pos (c_lwm C) (map oplog ops) -> bsm_ok qlt C ops.
Proof.
  intros ops B Q pre post e rs st win pos tsn E Rn I HH. subst ops. rewrite map_app in B.
  destruct (hist_pos qlt C SF LW WM _ B _ _ _ _ _ eq_refl HH) as [P _].
  eapply Forall_impl; [|exact P]. apply pos_nonempty.
Qed.
Lemma insert_only_ok : forall ops, insert_only ops -> bsm_ok qlt C ops.
Proof. intros. apply blocks_ok, insert_only_blocks. auto. Qed.

(** Everything a finished run tells us. *)
Lemma run_facts : forall ops e rs,
  Forall (appends C) ops -> bsm_ok qlt C ops ->
  run_new qlt C ops = Ok (e, rs) ->
  exists st win pos, einv C e st win pos (countb snd (map oplog ops)) /\ sinv C shard_ok st /\
    hist qlt C (map oplog ops) (age st) win pos /\ rs = repeat 1 (length ops) /\
    (blocks_pos (c_lwm C) (map oplog ops) -> Forall pos_shard (age st)).
Proof.
  intros ops e rs AP B H.
  destruct (run_hist qlt C SF LW WM ops e rs B AP H) as (-> & st & win & pos & I & S & HH).
  exists st, win, pos. repeat (split; auto). intros BP.
  eapply (hist_pos qlt C SF LW WM _ BP _ []); eauto. rewrite app_nil_r. auto.
Qed.

(** ** C01, C42 *)

Theorem run_ok : forall ops, Forall (appends C) ops -> blocks_pos (c_lwm C) (map oplog ops) ->
  exists e, run_new qlt C ops = Ok (e, repeat 1 (length ops)).
Proof. intros. apply (run_total qlt C); auto. apply blocks_never_empty; auto. Qed.

Theorem inserts_succeed : forall ops, insert_only ops ->
  exists e, run_new qlt C ops = Ok (e, repeat 1 (length ops)).
Proof.
  intros. apply run_ok; [apply insert_only_appends; auto|apply insert_only_blocks; auto].
Qed.

(** ** Counts *)

Lemma record_count_stored : forall e st win pos tsn, einv C e st win pos tsn -> Forall shard_ok (age st) ->
  get_record_count e = Ok (e, length (stored e)).
Proof.
  intros e st win pos tsn I S. unfold get_record_count. rewrite (with_epoch_eq C _ _ _ _ _ _ I).
  simpl. do 2 f_equal. rewrite (bview_count C SF LW WM), st_reccnt_len by auto.
  rewrite (Permutation_length (proj1 (stored_eq _ _ _ _ _ I))), app_length. lia.
Qed.

Theorem record_count_exact : forall ops e rs, insert_only ops -> run_new qlt C ops = Ok (e, rs) ->
  get_record_count e = Ok (e, length ops).
Proof.
  intros ops e rs IO H.
  destruct (run_facts ops e rs (insert_only_appends _ IO) (insert_only_ok _ IO) H)
    as (st & win & pos & I & S & HH & _ & _).
  rewrite (record_count_stored _ _ _ _ _ I (s_ok _ _ S)). do 2 f_equal.
  destruct (hist_plain qlt C _ _ _ _ HH (insert_only_plain _ IO)) as (P & _).
  apply Permutation_length in P. rewrite !map_length in P.
  rewrite (Permutation_length (proj1 (stored_eq _ _ _ _ _ I))). auto.
Qed.

(** ** C05 *)

Lemma countb_map : forall {A B} (f : A -> B) p l, countb p (map f l) = countb (fun x => p (f x)) l.
Proof. induction l; simpl; auto. Qed.

Lemma req_swap : forall a b r : R, req a b = true -> req r a = req r b.
Proof.
  intros. destruct (req r a) eqn:E, (req r b) eqn:F; auto.
  - rewrite <- F. symmetry. eapply req_trans; eauto.
  - rewrite <- E. eapply req_trans; [exact F|]. apply req_spec. apply req_spec in H. tauto.
Qed.

Definition lplain (r : R) (l : list (R * bool)) := countb (fun x => req r (fst x) && negb (snd x)) l.
Definition ltomb (r : R) (l : list (R * bool)) := countb (fun x => req r (fst x) && snd x) l.

Lemma cancel_balance : forall l l' ps, cancel_of l l' ps -> forall r, exists k,
  lplain r l = lplain r l' + k /\ ltomb r l = ltomb r l' + k.
Proof.
  intros l l' ps [P F] r. exists (countb (fun p => req r (fst p)) ps).
  unfold lplain, ltomb. rewrite (countb_perm _ _ _ P).
  rewrite (countb_perm (fun x => req r (fst x) && snd x) _ _ P).
  rewrite !countb_app, !countb_map. cbn [fst snd negb].
  assert (countb (fun x : R * R => req r (fst x) && true) ps = countb (fun p => req r (fst p)) ps /\
          countb (fun x : R * R => req r (snd x) && false) ps = 0 /\
          countb (fun x : R * R => req r (fst x) && false) ps = 0 /\
          countb (fun x : R * R => req r (snd x) && true) ps = countb (fun p => req r (fst p)) ps).
  { clear P. induction F; simpl; auto. destruct IHF as (F1 & F2 & F3 & F4).
    rewrite F1, F2, F3, F4, !andb_true_r, !andb_false_r, (req_swap _ _ r H). auto. }
  lia.
Qed.

Lemma n_plain_rt : forall r ws, n_plain r ws = lplain r (map rt ws).
Proof. intros. unfold n_plain, lplain. rewrite countb_map. auto. Qed.
Lemma n_tomb_rt : forall r ws, n_tomb r ws = ltomb r (map rt ws).
Proof. intros. unfold n_tomb, ltomb. rewrite countb_map. auto. Qed.
Lemma n_ins_log : forall r (ops : list (op R)), n_ins r ops = lplain r (map oplog ops).
Proof.
  intros. unfold n_ins, lplain. rewrite countb_map. apply countb_ext. intros [x|x]; simpl.
  - rewrite andb_true_r. auto.
  - rewrite andb_false_r. auto.
Qed.
Lemma n_del_log : forall r (ops : list (op R)), n_del r ops = ltomb r (map oplog ops).
Proof.
  intros. unfold n_del, ltomb. rewrite countb_map. apply countb_ext. intros [x|x]; simpl.
  - rewrite andb_false_r. auto.
  - rewrite andb_true_r. auto.
Qed.

Lemma stored_balance : forall ops e rs, c_del C = TOMBSTONE ->
  bsm_safe qlt C ops ->
  run_new qlt C ops = Ok (e, rs) ->
  forall r, exists k, n_ins r ops = n_plain r (stored e) + k /\ n_del r ops = n_tomb r (stored e) + k.
Proof.
  intros ops e rs TB BM H r.
  destruct (run_facts ops e rs (tomb_appends _ TB) (safe_ok _ BM) H)
    as (st & win & pos & I & S & HH & _ & _).
  destruct (hist_cancel qlt C _ _ _ _ HH) as (_ & ps & K).
  destruct (cancel_balance _ _ _ K r) as (k & E1 & E2). exists k.
  rewrite n_plain_rt, n_tomb_rt, n_ins_log, n_del_log.
  pose proof (Permutation_map rt (proj1 (stored_eq _ _ _ _ _ I))) as P.
  unfold lplain, ltomb in *. rewrite (countb_perm _ _ _ P).
  rewrite (countb_perm (fun x => req r (fst x) && snd x) _ _ P). auto.
Qed.

Theorem net_balance : forall ops e rs, c_del C = TOMBSTONE ->
  bsm_safe qlt C ops ->
  run_new qlt C ops = Ok (e, rs) ->
  forall r, n_plain r (stored e) + n_del r ops = n_tomb r (stored e) + n_ins r ops.
Proof.
  intros ops e rs TB BM H r. destruct (stored_balance ops e rs TB BM H r) as (k & E1 & E2). lia.
Qed.

(** ** C04 *)

Lemma static_plain : forall ops e rs, insert_only ops -> run_new qlt C ops = Ok (e, rs) ->
  exists s, create_static_structure qlt e = Ok (e, s) /\
    Permutation (map wrec (s_data s)) (inserted ops) /\ sorted (s_data s) /\
    Forall (fun w => is_ts w = false /\ is_del w = false) (s_data s) /\
    s_reccnt s = length ops /\ s_tscnt s = 0.
Proof.
  intros ops e rs IO H.
  destruct (run_facts ops e rs (insert_only_appends _ IO) (insert_only_ok _ IO) H)
    as (st & win & pos & I & S & HH & _ & PO).
  specialize (PO (insert_only_blocks _ IO)).
  destruct (static_total qlt C SF LW WM _ _ _ _ _ _ I S HH PO) as (s & E).
  { intros NW. destruct (hist_plain qlt C _ _ _ _ HH (insert_only_plain _ IO)) as (_ & _ & T).
    apply Forall_app in T as [_ T]. destruct win as [|w win]; [congruence|].
    assert (TW : forall x, In x (map rt (w :: win)) -> snd x = false).
    { intros x Hx. apply in_map_iff in Hx as (y & <- & Hy). rewrite Forall_forall in T. apply T in Hy. auto. }
    clear - TW. revert TW. generalize (map rt win). cbn [map]. generalize (rt w). intros x l TW.
    unfold net.
    rewrite (countb_false snd) by (intros; apply TW; auto).
    cbn [countb]. rewrite (TW x) by (simpl; auto). cbn [negb]. lia. }
  exists s. split; auto.
  destruct (static_cancel qlt C SF LW WM _ _ _ _ _ _ _ _ I S HH E) as (ND & (O1 & O2 & O3) & ps & K).
  destruct (cancel_of_plain _ _ _ (insert_only_plain _ IO) K) as (_ & P).
  assert (T : Forall (fun w => is_ts w = false) (s_data s)).
  { apply Forall_forall. intros w Hw.
    apply (insert_only_plain _ IO (rt w)). apply (Permutation_in _ (Permutation_sym P)).
    apply in_map. auto. }
  split. { rewrite (inserted_log _ IO). rewrite (Permutation_map fst P). rewrite map_map. auto. }
  split; auto. split.
  { rewrite Forall_forall in *. intros w Hw. split; auto. apply ND. auto. }
  split.
  { rewrite O1. apply Permutation_length in P. rewrite !map_length in P. auto. }
  rewrite O2. unfold ts_count. apply countb_false. rewrite Forall_forall in T. auto.
Qed.

(** ** Range queries *)

Context {KO : KeyOps R} {KL : KeyLaws R}.
Variable lbf : list (wrapped R) -> Z -> res nat.
Hypothesis LB : lb_sound lbf.

Lemma mrun_plain : forall cs evs, mrun qlt cs evs ->
  Forall (fun w => is_ts w = false) (concat cs) -> emits evs = emits evs /\ Permutation (concat cs) (emits evs).
Proof.
  intros cs evs M F. split; auto. pose proof (mrun_perm qlt _ _ M) as P.
  pose proof (mrun_cancelled qlt _ _ M) as K. destruct (cancelled evs) as [|p ps].
  - simpl in P. rewrite app_nil_r in P. auto.
  - exfalso. inv K. unfold cancels in H1. apply andb_true_iff in H1 as [_ T].
    rewrite Forall_forall in F. rewrite F in T; [discriminate|].
    apply (Permutation_in _ (Permutation_sym P)). rewrite !in_app_iff. simpl. auto.
Qed.

Theorem range_query_exact : forall ops e rs l u, insert_only ops -> run_new qlt C ops = Ok (e, rs) ->
  exists out, range_query qlt lbf e l u = Ok (e, out) /\
    Permutation out (filter (key_in l u) (inserted ops)).
Proof.
  intros ops e rs l u IO H.
  destruct (run_facts ops e rs (insert_only_appends _ IO) (insert_only_ok _ IO) H)
    as (st & win & pos & I & S & HH & _ & PO).
  specialize (PO (insert_only_blocks _ IO)).
  assert (NE : Forall nonempty (age st)) by (eapply Forall_impl; [|exact PO]; apply pos_nonempty).
  destruct (range_query_ok qlt C SF LW WM lbf LB _ _ _ _ _ l u I (s_ok _ _ S) NE) as (evs & M & E).
  eexists. split; [exact E|].
  destruct (hist_plain qlt C _ _ _ _ HH (insert_only_plain _ IO)) as (P & _ & T).
  pose proof (range_inputs st win l u) as RI.
  assert (TI : Forall (fun w => is_ts w = false) (filter (inr l u) (sdata (age st) ++ win))).
  { apply Forall_forall. intros w Hw. apply filter_In in Hw as [Hw _]. rewrite Forall_forall in T. auto. }
  destruct (mrun_plain _ _ M) as [_ PM].
  { rewrite Forall_forall in *. intros w Hw. apply TI. apply (Permutation_in _ RI). auto. }
  rewrite filter_all.
  2:{ intros w Hw. rewrite Forall_forall in TI. rewrite TI; auto.
      apply (Permutation_in _ RI). apply (Permutation_in _ (Permutation_sym PM)). auto. }
  rewrite <- PM, RI. rewrite (inserted_log _ IO).
  eapply Permutation_trans; [|apply Permutation_filter; apply Permutation_map; apply Permutation_sym; exact P].
  rewrite map_map. unfold rt. cbn [fst]. apply Permutation_refl'. clear.
  induction (sdata (age st) ++ win); simpl; auto.
  unfold inr at 1, in_range, key_in at 1. destruct (_ && _); simpl; rewrite IHl0; auto.
Qed.

Lemma rq_local_inv : forall l u s x, shard_ok s -> rq_local lbf l u s = Ok x ->
  x = filter (inr l u) (s_data s).
Proof.
  intros l u s x O H. destruct (s_data s) as [|w d] eqn:ED.
  - unfold rq_local, local_slice in H. rewrite ED in H. mon H. mon E.
    destruct O as [O1 _]. rewrite ED in O1. simpl in O1. rewrite O1 in E.
    destruct (Nat.eqb_spec a0 0); inv E; inv H; auto.
  - rewrite (rq_local_ok lbf LB l u s O) in H by (unfold nonempty; rewrite ED; discriminate).
    inv H. rewrite ED. auto.
Qed.

(** Any range query that does not fault. *)
Lemma rq_on_run : forall st d v win l u out, Forall shard_ok (age st) -> v_records d v = Ok win ->
  rq_on qlt lbf l u st d v = Ok out ->
  exists evs,
    mrun qlt (rev (filter (inr l u) win ::
                   map (fun s => filter (inr l u) (s_data s)) (query_shards st))) evs /\
    out = map wrec (filter (fun w => negb (is_ts w)) (emits evs)).
Proof.
  intros st d v win l u out S VR H. unfold rq_on, rq_local_buffer in H. rewrite VR in H. cbn [bind] in H.
  mon H. rename a into a0.
  assert (EA : a0 = map (fun s => filter (inr l u) (s_data s)) (query_shards st)).
  { apply map_res_ok in E. assert (O : Forall shard_ok (query_shards st)).
    { rewrite (query_shards_perm st). auto. }
    clear -E O LB KL RL. revert O. induction E; intros O; simpl; auto. inv O.
    f_equal; auto. apply rq_local_inv; auto. }
  rewrite EA in H. change (fun w => in_range l u (wrec w)) with (inr l u) in H.
  destruct (rq_combine_ok qlt (filter (inr l u) win ::
     map (fun s => filter (inr l u) (s_data s)) (query_shards st))) as (evs & M & EC).
  rewrite EC in H. inv H. exists evs. auto.
Qed.

Lemma range_query_run : forall e st win pos tsn l u e' out, einv C e st win pos tsn -> Forall shard_ok (age st) ->
  range_query qlt lbf e l u = Ok (e', out) ->
  e' = e /\ exists evs,
    mrun qlt (rev (filter (inr l u) win ::
                   map (fun s => filter (inr l u) (s_data s)) (query_shards st))) evs /\
    out = map wrec (filter (fun w => negb (is_ts w)) (emits evs)).
Proof.
  intros e st win pos tsn l u e' out I S H. unfold range_query in H.
  rewrite (with_epoch_eq C _ _ _ _ _ _ I) in H.
  destruct (einv_records C SF LW WM _ _ _ _ _ I) as [VR _].
  mon H. inv H. split; auto. eapply rq_on_run; eauto.
Qed.

Lemma range_query_inv : forall e st win pos tsn l u e' out, einv C e st win pos tsn -> Forall shard_ok (age st) ->
  range_query qlt lbf e l u = Ok (e', out) ->
  e' = e /\ exists cs evs, mrun qlt cs evs /\
    Permutation (concat cs) (filter (inr l u) (sdata (age st) ++ win)) /\
    out = map wrec (filter (fun w => negb (is_ts w)) (emits evs)).
Proof.
  intros e st win pos tsn l u e' out I S H.
  destruct (range_query_run _ _ _ _ _ _ _ _ _ I S H) as (-> & evs & M & ->).
  split; auto. eexists. exists evs. split; [exact M|]. split; auto. apply range_inputs.
Qed.

(** What the merge of the in-range records [ws] emits of a record. *)
Lemma merge_counts : forall cs evs ws l u r, mrun qlt cs evs -> Permutation (concat cs) (filter (inr l u) ws) ->
  let out := map wrec (filter (fun w => negb (is_ts w)) (emits evs)) in
  if key_in l u r then occ r out <= n_plain r ws /\ n_plain r ws <= occ r out + n_tomb r ws else occ r out = 0.
Proof.
  intros cs evs ws l u r M P out. subst out.
  pose proof (Permutation_trans (Permutation_sym (mrun_perm qlt _ _ M)) P) as PT.
  pose proof (mrun_cancelled qlt _ _ M) as CA.
  assert (EO : occ r (map wrec (filter (fun w => negb (is_ts w)) (emits evs))) = n_plain r (emits evs)).
  { unfold occ, n_plain. rewrite countb_map. clear. induction (emits evs); simpl; auto.
    destruct (is_ts a); simpl; rewrite ?andb_false_r, ?andb_true_r, IHl; auto. }
  rewrite EO.
  assert (NF : n_plain r (filter (inr l u) ws) = if key_in l u r then n_plain r ws else 0).
  { clear P PT. unfold n_plain. induction ws as [|w ws IH]; simpl; [destruct key_in; auto|].
    assert (KE : req r (wrec w) = true -> inr l u w = key_in l u r).
    { intro RQ. unfold inr, in_range, key_in. rewrite (rkey_eq _ _ RQ). auto. }
    destruct (req r (wrec w)) eqn:RQ.
    - rewrite (KE eq_refl). destruct (key_in l u r); simpl; rewrite ?RQ, ?IH; auto.
    - destruct (inr l u w); simpl; rewrite ?RQ, IH; destruct (key_in l u r); auto. }
  assert (TF : n_tomb r (filter (inr l u) ws) <= n_tomb r ws).
  { unfold n_tomb. clear. induction ws as [|w ws IH]; simpl; auto.
    destruct (inr l u w); simpl; lia. }
  assert (EP : n_plain r (filter (inr l u) ws) =
               n_plain r (emits evs) + countb (fun p => req r (wrec (fst p))) (cancelled evs) /\
               countb (fun p => req r (wrec (fst p))) (cancelled evs) <= n_tomb r (filter (inr l u) ws)).
  { unfold n_plain, n_tomb. rewrite <- (countb_perm _ _ _ PT).
    rewrite <- (countb_perm (fun w => req r (wrec w) && is_ts w) _ _ PT).
    rewrite !countb_app, !countb_map. clear -CA RL.
    assert (countb (fun x => req r (wrec (fst x)) && negb (is_ts (fst x))) (cancelled evs) =
            countb (fun p => req r (wrec (fst p))) (cancelled evs) /\
            countb (fun x => req r (wrec (snd x)) && negb (is_ts (snd x))) (cancelled evs) = 0 /\
            countb (fun x => req r (wrec (snd x)) && is_ts (snd x)) (cancelled evs) =
            countb (fun p => req r (wrec (fst p))) (cancelled evs)).
    { induction CA; simpl; auto. destruct IHCA as (F1 & F2 & F3). rewrite F1, F2, F3.
      unfold cancels in H. apply andb_true_iff in H as [H T]. apply andb_true_iff in H as [H Q].
      apply negb_true_iff in H. rewrite H, T. cbn [negb]. rewrite !andb_true_r, andb_false_r.
      rewrite (req_swap _ _ r Q). auto. }
    lia. }
  destruct EP as [EP1 EP2]. rewrite NF in EP1. destruct (key_in l u r); lia.
Qed.

Theorem range_query_bounds : forall ops e rs l u e' out, c_del C = TOMBSTONE ->
  bsm_safe qlt C ops ->
  run_new qlt C ops = Ok (e, rs) -> range_query qlt lbf e l u = Ok (e', out) ->
  forall r, if key_in l u r then n_ins r ops <= occ r out + n_del r ops /\ occ r out <= n_ins r ops
            else occ r out = 0.
Proof.
  intros ops e rs l u e' out TB BM H Q r.
  destruct (stored_balance ops e rs TB BM H r) as (k & E1 & E2).
  destruct (run_facts ops e rs (tomb_appends _ TB) (safe_ok _ BM) H)
    as (st & win & pos & I & S & HH & _ & _).
  destruct (range_query_inv _ _ _ _ _ _ _ _ _ I (s_ok _ _ S) Q) as (_ & cs & evs & M & P & ->).
  pose proof (merge_counts _ _ _ l u r M P) as MC.
  pose proof (proj1 (stored_eq _ _ _ _ _ I)) as PS.
  unfold n_plain, n_tomb in *. rewrite !(countb_perm _ _ _ PS) in *. cbv zeta in MC.
  destruct (key_in l u r); lia.
Qed.

Theorem tombstone_runs_ok : forall ops, c_del C = TOMBSTONE -> mostly_inserts (c_lwm C) ops ->
  exists e, run_new qlt C ops = Ok (e, repeat 1 (length ops)) /\
    (forall l u, exists out, range_query qlt lbf e l u = Ok (e, out)) /\
    get_record_count e = Ok (e, length (stored e)).
Proof.
  intros ops TB MI. destruct (run_ok ops (tomb_appends _ TB) (mostly_blocks _ _ MI)) as [e E].
  exists e. split; auto.
  destruct (run_facts ops e _ (tomb_appends _ TB) (blocks_ok _ (mostly_blocks _ _ MI)) E)
    as (st & win & pos & I & S & HH & _ & PO).
  split.
  - intros l u. specialize (PO (mostly_blocks _ _ MI)).
    assert (NE : Forall nonempty (age st)) by (eapply Forall_impl; [|exact PO]; apply pos_nonempty).
    destruct (range_query_ok qlt C SF LW WM lbf LB _ _ _ _ _ l u I (s_ok _ _ S) NE) as (evs & M & EQ). eauto.
  - eapply record_count_stored; eauto. apply S.
Qed.

End SP.

(** The counting lower bound meets the contract. *)
Lemma lb_isam_sound : forall {R} {RO : RecOps R} {RL : RecLaws R} {KO : KeyOps R} {KL : KeyLaws R},
  lb_sound (lb_isam (R := R)).
Proof.
  intros R RO RL KO KL d k NE SS. exists (countb (fun w => (rkey (wrec w) <? k)%Z) d).
  split; [destruct d; [congruence|reflexivity]|]. split; [apply countb_le|].
  clear NE. induction SS; simpl; [tauto|].
  destruct (Z.ltb_spec (rkey (wrec a)) k).
  - simpl. intros w [<-|Hw]; auto.
  - rewrite countb_false; [simpl; tauto|]. intros w Hw. rewrite Forall_forall in H.
    specialize (H w Hw). apply wle_key in H. apply Z.ltb_ge. lia.
Qed.

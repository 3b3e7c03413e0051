(** Range queries and point lookups after deletes. *)
From Coq Require Import List Arith ZArith NArith Lia Bool Permutation Sorted.
From Verif Require Import Base ListLemmas RecordModel RecordProofs BufferModel BufferProofs
  MergeModel MergeProofs StructModel ExtModel StructProofs StructTotal SortedProofs ExtProofs ContentProofs
  QueryModel Spec QueryProofs SerialProofs LevelProofs SizeProofs HeaderProofs WordProofs.
Import ListNotations.

Section QW.
Context {R : Type} {RO : RecOps R} {RL : RecLaws R} {KO : KeyOps R} {KL : KeyLaws R}.
Variable C : cfg.
Hypothesis V : valid_cfg C.
Local Lemma LW : 1 <= c_lwm C. Proof. destruct V as (? & ? & ? & ?). auto. Qed.
Local Lemma WM : c_lwm C <= c_hwm C. Proof. destruct V as (? & ? & ? & ?). auto. Qed.
Local Lemma SF : 1 <= c_sf C. Proof. destruct V as (? & ? & ? & ?). auto. Qed.

(** With one shard per level, queries visit the shards newest first. *)
Lemma single_rev : forall ls : list (level R), (forall l, In l ls -> length (lv_shards l) <= 1) ->
  rev (concat (map lv_shards ls)) = AGE ls.
Proof.
  induction ls as [|l ls IH]; simpl; intros H; auto.
  rewrite rev_app_distr, AGE_cons, IH by auto. f_equal.
  specialize (H l (or_introl eq_refl)). destruct (lv_shards l) as [|x [|y t]]; auto. simpl in H. lia.
Qed.

Lemma query_order (qlt : qorder R) {QO : QOrder qlt} : forall ops e rs st win pos tsn,
  c_del C = TOMBSTONE -> bsm_safe qlt C ops -> c_layout C <> TIERING ->
  run_new qlt C ops = Ok (e, rs) -> einv C e st win pos tsn -> rev (query_shards st) = age st.
Proof.
  intros ops e rs st win pos tsn TB BM NT H I. unfold query_shards, age. apply single_rev.
  intros l Hl. apply In_nth_error in Hl as (i & Hi).
  assert (N : nth_error (levels_of e) i = Some (map s_data (lv_shards l))).
  { rewrite (levels_of_eq C _ _ _ _ _ I), nth_error_map, (lvs_nth _ _ _ Hi). auto. }
  assert (L : length (map s_data (lv_shards l)) <= 1).
  { destruct (c_layout C) eqn:LY; [|congruence|].
    - apply (leveling_capacity qlt C V ops e rs i _ LY H N).
    - assert (NL : c_layout C <> LEVELING) by congruence.
      destruct (level_capacity qlt C V ops e rs i _ BM NL H N) as [_ L].
      unfold max_shards in L. rewrite LY in L. auto. }
  rewrite map_length in L. auto.
Qed.

Lemma wd_range : forall r l u (ws : list (wrapped R)), key_in l u r = true ->
  wd r (filter (inr l u) ws) = wd r ws.
Proof.
  induction ws as [|w ws IH]; intros K; simpl; auto. specialize (IH K).
  destruct (req r (wrec w)) eqn:E.
  - assert (Q : inr l u w = true).
    { unfold inr, in_range, key_in in *. rewrite <- (rkey_eq _ _ E). auto. }
    rewrite Q, !wd_cons, E, IH. auto.
  - rewrite wd_cons, E. destruct (inr l u w); auto. rewrite wd_cons, E. auto.
Qed.

Lemma wd_increasing : forall r (ws : list (wrapped R)),
  StronglySorted (fun a b => rlt (wrec a) (wrec b) = true) ws -> nf (wd r ws) = true.
Proof.
  induction 1; auto. rewrite wd_cons. destruct (req r (wrec a)) eqn:E; auto.
  replace (wd r l) with (@nil bool).
  - simpl. rewrite orb_true_r. auto.
  - symmetry. apply wd_nil. intros w Hw. rewrite Forall_forall in H0. specialize (H0 w Hw).
    simpl in H0. destruct (req r (wrec w)) eqn:E2; auto.
    assert (Q : req (wrec a) (wrec w) = true).
    { rewrite <- E2. symmetry. apply (req_congr r (wrec a)). auto. }
    apply req_spec in Q as [Q1 Q2]. congruence.
Qed.

Variable lbf : list (wrapped R) -> Z -> res nat.
Hypothesis LB : lb_sound lbf.

Theorem range_live : forall ops e rs l u e' out r, c_del C = TOMBSTONE -> c_layout C <> TIERING ->
  bsm_safe by_version C ops ->
  never_doubled ops -> no_wrap C (length ops) -> (N.of_nat (2 * c_hwm C) <= 2 ^ 29)%N ->
  run_new by_version C ops = Ok (e, rs) -> buffer_increasing l u e ->
  range_query by_version lbf e l u = Ok (e', out) ->
  occ r out = if key_in l u r then occ r (live ops) else 0.
Proof.
  intros ops e rs l u e' out r TB NT BM ND NW B H BI Q.
  pose proof (range_query_bounds by_version C V lbf LB ops e rs l u e' out TB BM H Q r) as RB.
  destruct (key_in l u r) eqn:K; auto.
  destruct (run_facts by_version C V ops e rs (tomb_appends C _ TB) (safe_ok by_version C _ BM) H)
    as (st & win & pos & I & S & HH & _ & _).
  pose proof (query_order by_version ops e rs st win pos _ TB BM NT H I) as QO.
  destruct (range_query_run by_version C V lbf LB _ _ _ _ _ _ _ _ _ I (s_ok _ _ S) Q) as (_ & evs & M & ->).
  destruct (live_word r ops ND) as [NI LV].
  assert (LO : length (map oplog ops) <= length ops) by (rewrite map_length; auto).
  destruct (hist_word r C V _ _ _ _ _ HH NW LO B NI) as [R1 F1].
  destruct (red_keeps _ _ R1 NI) as [K1 K2].
  simpl rev in M. rewrite <- map_rev, QO in M.
  assert (EB : buffer_records e = win) by (apply (stored_eq C V _ _ _ _ _ I)).
  unfold buffer_increasing in BI. rewrite EB in BI.
  change (fun w : wrapped R => key_in l u (wrec w)) with (inr (R := R) l u) in BI.
  assert (EW : wd r (concat (map (fun s => filter (inr l u) (s_data s)) (age st) ++ [filter (inr l u) win]))
               = wd r (sdata (age st) ++ win)).
  { rewrite concat_app. simpl. rewrite app_nil_r, filter_concat_map, !wd_app.
    unfold sdata. rewrite !wd_range by auto. auto. }
  destruct (mrun_word r _ _ M) as [R2 F2].
  - apply Forall_app. split.
    + apply Forall_forall. intros c Hc. apply in_map_iff in Hc as (s & <- & Hs).
      apply StronglySorted_filter. pose proof (s_ok _ _ S) as OK. rewrite Forall_forall in OK.
      apply (OK s Hs).
    + constructor; auto. apply (StronglySorted_mono _ wle) in BI; auto. intros a b X. apply rlt_asym. auto.
  - apply Forall_app. split.
    + apply Forall_forall. intros c Hc. apply in_map_iff in Hc as (s & <- & Hs).
      rewrite wd_range by auto. rewrite Forall_forall in F1. apply (F1 s Hs).
    + constructor; auto. apply wd_increasing. auto.
  - rewrite EW. auto.
  - rewrite EW in R2. destruct (red_keeps _ _ R2 K1) as [K3 K4].
    rewrite LV, <- K2, <- K4, <- nf_count by auto. rewrite <- n_plain_word.
    unfold occ, n_plain. rewrite countb_map. clear. induction (emits evs); simpl; auto.
    destruct (is_ts a); simpl; rewrite ?andb_false_r, ?andb_true_r, IHl; auto.
Qed.

(** ** Point lookup *)

Variable r : R.
Variable hit : R -> bool.
Variable plf : list (wrapped R) -> res (option (wrapped R)).
Hypothesis PL : pl_sound hit plf.

Lemma history_word : forall ops : list (op R),
  wdo r (map oplog ops) = map is_erase (history_of r ops).
Proof.
  induction ops as [|o ops IH]; simpl; auto. unfold wdo in *. destruct o; simpl;
  destruct (req r r0); simpl; rewrite IH; auto.
Qed.

Lemma live_app : forall (a b : list (op R)), live (a ++ b) = fold_left (fun l o => match o with
  Ins x => l ++ [x] | Del x => filter (fun y => negb (req x y)) l end) b (live a).
Proof. intros. unfold live. apply fold_left_app. Qed.

Lemma live_history : forall ops : list (op R), occ r (live ops) = occ r (live (history_of r ops)).
Proof.
  induction ops as [|o ops IH] using rev_ind; auto.
  unfold history_of in *. rewrite filter_app. cbn [filter]. rewrite live_app.
  destruct o as [x|x]; cbn [op_rec fold_left]; destruct (req r x) eqn:E; rewrite ?app_nil_r.
  - rewrite live_app. cbn [fold_left]. unfold occ in *. rewrite !countb_app. auto.
  - unfold occ in *. rewrite countb_app. cbn [countb]. rewrite E. lia.
  - rewrite live_app. cbn [fold_left].
    assert (Z : forall l, occ r (filter (fun y => negb (req x y)) l) = 0).
    { intros. apply countb_false. intros y Hy. apply filter_In in Hy as [_ Hy].
      apply negb_true_iff in Hy. rewrite <- Hy. apply req_congr. auto. }
    rewrite !Z. auto.
  - rewrite <- IH. unfold occ. generalize (live ops). clear -E RL. induction l as [|y l IH]; simpl; auto.
    destruct (req x y) eqn:EX; simpl.
    + rewrite IH. assert (req r y = false) by (rewrite <- E; symmetry; apply req_congr_r; auto).
      rewrite H. auto.
    + rewrite IH. auto.
Qed.

Definition nohit (ws : list (wrapped R)) : Prop := forall w, In w ws -> hit (wrec w) = false.

(** The answer is decided by the first array, in query order, with the key. *)
Lemma pl_results_ok : forall ss, Forall shard_ok ss -> Forall nonempty ss ->
  exists rs, pl_results plf ss = Ok rs /\
    ((nohit (sdata ss) /\ pl_combine rs = []) \/
     exists a s b w, ss = a ++ s :: b /\ nohit (sdata a) /\ In w (s_data s) /\ hit (wrec w) = true /\
       pl_combine rs = if is_del w || is_ts w then [] else [wrec w]).
Proof.
  induction ss as [|s ss IH]; intros OK NE.
  - exists []. split; auto. left. split; auto. intros w [].
  - inv OK. inv NE. destruct (IH H2 H4) as (rs & E & D). cbn [pl_results]. unfold pl_local.
    pose proof (PL (s_data s) H3 (proj2 (proj2 H1))) as P.
    destruct (plf (s_data s)) as [[w|]|]; [| |contradiction]; cbn [bind].
    + exists [[w]]. split; auto. right. exists [], s, ss, w. destruct P.
      repeat (split; auto). intros x [].
    + rewrite E. cbn [bind]. exists ([] :: rs). split; auto. destruct D as [[N D]|(a & s' & b & w & -> & N & IW & HW & D)].
      * left. split; auto. intros w Hw. unfold sdata in Hw. simpl in Hw.
        apply in_app_or in Hw as [Hw|Hw]; [apply P|apply N]; auto.
      * right. exists (s :: a), s', b, w. split; auto. split; [|auto].
        intros x Hx. unfold sdata in Hx. simpl in Hx.
        apply in_app_or in Hx as [Hx|Hx]; [apply P|apply N]; auto.
Qed.

Lemma nohit_wd : forall ws : list (wrapped R), (forall w, In w ws -> hit (wrec w) = req r (wrec w)) ->
  nohit ws -> wd r ws = [].
Proof. intros ws H N. apply wd_nil. intros w Hw. rewrite <- H; auto. Qed.

Lemma wd_in : forall (ws : list (wrapped R)) w, In w ws -> req r (wrec w) = true -> In (is_ts w) (wd r ws).
Proof.
  intros ws w Hw E. unfold wd, wdo. apply in_map_iff. exists (rt w). split; auto.
  apply filter_In. split; auto. apply in_map. auto.
Qed.

(** The result of a lookup on a finished run, in terms of the words of the arrays. *)
Lemma lookup_word (qlt : qorder R) {QO : QOrder qlt} : forall ops e rs st win pos,
  selects hit r ops ->
  run_new qlt C ops = Ok (e, rs) ->
  einv C e st win pos (countb snd (map oplog ops)) -> sinv C shard_ok st ->
  hist qlt C (map oplog ops) (age st) win pos -> Forall nonempty (age st) ->
  exists out, point_lookup_query hit plf e = Ok (e, out) /\
    let cs := win :: map s_data (query_shards st) in
    ((wd r (concat cs) = [] /\ out = []) \/
     exists a c b w, cs = a ++ c :: b /\ wd r (concat a) = [] /\ In w c /\ req r (wrec w) = true /\
       out = if is_ts w then [] else [wrec w]).
Proof.
  intros ops e rs st win pos SE H I S HH NE.
  destruct (hist_cancel qlt C _ _ _ _ HH) as (ND & ps & K & _).
  assert (PQ : Permutation (sdata (query_shards st)) (sdata (age st))).
  { unfold sdata. apply concat_perm. apply Permutation_map. apply query_shards_perm. }
  assert (HR : forall w, In w (sdata (age st) ++ win) -> hit (wrec w) = req r (wrec w)).
  { intros w Hw. assert (IL : In (rt w) (map oplog ops)).
    { apply (Permutation_in _ (Permutation_sym K)). apply in_or_app. left. apply in_map. auto. }
    apply in_map_iff in IL as (o & EO & Ho). specialize (SE o Ho).
    assert (EX : op_rec o = wrec w) by (unfold rt, oplog in EO; destruct o; inv EO; auto).
    rewrite EX in SE. auto. }
  assert (HQ : forall w, In w (sdata (query_shards st)) -> hit (wrec w) = req r (wrec w)).
  { intros w Hw. apply HR. apply in_or_app. left. apply (Permutation_in _ PQ). auto. }
  assert (HWn : forall w, In w win -> hit (wrec w) = req r (wrec w)).
  { intros w Hw. apply HR. apply in_or_app. auto. }
  assert (DL : forall w, In w (sdata (age st) ++ win) -> is_del w = false).
  { rewrite Forall_forall in ND. exact ND. }
  assert (OK : Forall shard_ok (query_shards st)) by (rewrite (query_shards_perm st); apply S).
  assert (NQ : Forall nonempty (query_shards st)) by (rewrite (query_shards_perm st); auto).
  unfold point_lookup_query, pl_on. rewrite (with_epoch_eq C _ _ _ _ _ _ I).
  destruct (einv_records C SF LW WM _ _ _ _ _ I) as [VR _].
  unfold pl_local_buffer. rewrite VR. cbn [bind].
  destruct (filter (fun w => hit (wrec w)) win) as [|w ws] eqn:EF.
  - destruct (pl_results_ok _ OK NQ) as (rs' & E & D). rewrite E. cbn [bind].
    eexists. split; [reflexivity|]. set (cs := win :: map s_data (query_shards st)). cbv zeta.
    assert (NW : wd r win = []).
    { apply nohit_wd; auto. intros w Hw. destruct (hit (wrec w)) eqn:EH; auto.
      assert (In w []) by (rewrite <- EF; apply filter_In; auto). contradiction. }
    destruct D as [[N ->]|(a & s & b & w & EQ & N & IW & HW & ->)].
    + left. split; auto. unfold cs. simpl. rewrite wd_app, NW. apply nohit_wd; auto.
    + right. exists (win :: map s_data a), (s_data s), (map s_data b), w.
      assert (IN : In w (sdata (query_shards st))).
      { rewrite EQ, sdata_app. apply in_or_app. right. unfold sdata. simpl. apply in_or_app. auto. }
      split; [unfold cs; rewrite EQ, map_app; auto|]. split; [|split; auto; split].
      * simpl. rewrite wd_app, NW. apply nohit_wd; auto. intros x Hx. apply HQ.
        rewrite EQ, sdata_app. apply in_or_app. auto.
      * rewrite <- HQ; auto.
      * rewrite DL; auto. apply in_or_app. left. apply (Permutation_in _ PQ). auto.
  - eexists. split; [reflexivity|]. cbv zeta. right. exists [], win, (map s_data (query_shards st)), w.
    assert (IW : In w win /\ hit (wrec w) = true).
    { apply (filter_In (fun w => hit (wrec w))). rewrite EF. simpl. auto. }
    destruct IW as [IW HW]. split; auto. split; auto. split; auto. split; [rewrite <- HWn; auto|].
    simpl. rewrite DL; auto. apply in_or_app. auto.
Qed.

(** A key that is never erased. *)
Theorem lookup_kept (qlt : qorder R) {QO : QOrder qlt} : forall ops e rs,
  c_del C = TOMBSTONE -> shards_never_empty qlt C ops -> selects hit r ops ->
  run_new qlt C ops = Ok (e, rs) ->
  (history_of r ops = [] \/ exists x, history_of r ops = [Ins x]) ->
  exists out, point_lookup_query hit plf e = Ok (e, out) /\
    length out = occ r (live ops) /\ Forall (fun x => req r x = true) out.
Proof.
  intros ops e rs TB MI SE H HO.
  destruct (run_facts qlt C V ops e rs (tomb_appends C _ TB) (safe_ok qlt C _ (fun _ => MI)) H)
    as (st & win & pos & I & S & HH & _ & PO).
  assert (NE : Forall nonempty (age st)).
  { apply (shards_nonempty C _ _ _ _ _ I). eapply MI; eauto. symmetry. apply app_nil_r. }
  destruct (lookup_word qlt ops e rs st win pos SE H I S HH NE) as (out & E & D).
  exists out. split; auto.
  destruct (stored_balance qlt C V ops e rs TB (fun _ => MI) H r) as (k & B1 & B2).
  destruct (stored_eq C V _ _ _ _ _ I) as [PS _].
  set (cs := win :: map s_data (query_shards st)) in *.
  assert (PC : Permutation (stored e) (concat cs)).
  { rewrite PS. unfold cs. simpl. rewrite Permutation_app_comm. apply Permutation_app_head.
    unfold sdata. apply concat_perm. apply Permutation_map. symmetry. apply query_shards_perm. }
  assert (ND : n_del r ops = 0 /\ n_ins r ops = length (history_of r ops)).
  { assert (G : n_del r ops + n_ins r ops = length (history_of r ops) /\
               n_del r ops = countb is_erase (history_of r ops)).
    { clear. unfold n_del, n_ins. induction ops as [|[x|x] ops IH]; simpl; auto;
        destruct (req r x); simpl; lia. }
    destruct HO as [HO|[x HO]]; rewrite HO in *; simpl in *; lia. }
  assert (NT : forall w, In w (concat cs) -> req r (wrec w) = true -> is_ts w = false).
  { intros w Hw RQ. destruct (is_ts w) eqn:T; auto.
    assert (Z : n_tomb r (concat cs) = 0).
    { unfold n_tomb in *. rewrite <- (countb_perm _ _ _ PC). lia. }
    unfold n_tomb in Z. apply (countb_false_inv _ _ Z) in Hw. rewrite RQ, T in Hw. discriminate. }
  assert (NP : n_plain r (concat cs) = n_ins r ops).
  { unfold n_plain in *. rewrite <- (countb_perm _ _ _ PC). lia. }
  assert (LV : occ r (live ops) = length (history_of r ops)).
  { rewrite live_history. destruct HO as [HO|[x HO]]; rewrite HO; auto.
    assert (RX : req r x = true).
    { assert (In (Ins x) (history_of r ops)) by (rewrite HO; simpl; auto).
      apply filter_In in H0. tauto. }
    unfold live, occ. simpl. rewrite RX. auto. }
  destruct D as [[WZ ->]|(a & c & b & w & EC & WA & IW & RW & ->)].
  - split; auto. rewrite n_plain_word, WZ in NP. simpl in *. lia.
  - assert (IC : In w (concat cs)).
    { rewrite EC, concat_app. apply in_or_app. right. simpl. apply in_or_app. auto. }
    rewrite (NT w IC RW). split; [|constructor; auto].
    assert (1 <= n_plain r (concat cs)).
    { rewrite n_plain_word. pose proof (wd_in _ _ IC RW) as WI. rewrite (NT w IC RW) in WI.
      clear -WI. induction (wd r (concat cs)) as [|x l IH]; [destruct WI|].
      destruct WI as [->|WI]; simpl; [lia|]. specialize (IH WI). destruct x; simpl; lia. }
    assert (length (history_of r ops) <= 1) by (destruct HO as [->|[x ->]]; simpl; lia).
    simpl. lia.
Qed.

(** A key that may have been erased: one shard per level, and at most one record
    with the key in the buffer. *)
Theorem lookup_erased : forall ops e rs,
  c_del C = TOMBSTONE -> c_layout C <> TIERING -> shards_never_empty by_version C ops -> selects hit r ops ->
  no_wrap C (length ops) -> (N.of_nat (2 * c_hwm C) <= 2 ^ 29)%N ->
  run_new by_version C ops = Ok (e, rs) ->
  (exists x y, history_of r ops = [Ins x; Del y]) ->
  countb (fun w => hit (wrec w)) (buffer_records e) <= 1 ->
  point_lookup_query hit plf e = Ok (e, []).
Proof.
  intros ops e rs TB NT MI SE NW B H (x & y & HO) BC.
  destruct (run_facts by_version C V ops e rs (tomb_appends C _ TB) (safe_ok by_version C _ (fun _ => MI)) H)
    as (st & win & pos & I & S & HH & _ & PO).
  assert (NE : Forall nonempty (age st)).
  { apply (shards_nonempty C _ _ _ _ _ I). eapply MI; eauto. symmetry. apply app_nil_r. }
  destruct (lookup_word by_version ops e rs st win pos SE H I S HH NE) as (out & E & D).
  rewrite E. repeat f_equal.
  pose proof (query_order by_version ops e rs st win pos _ TB (fun _ => MI) NT H I) as QO.
  assert (EW : wdo r (map oplog ops) = [false; true]) by (rewrite history_word, HO; auto).
  assert (NI : nii (wdo r (map oplog ops)) = true) by (rewrite EW; auto).
  assert (LO : length (map oplog ops) <= length ops) by (rewrite map_length; auto).
  destruct (hist_word r C V _ _ _ _ _ HH NW LO B NI) as [R1 F1]. rewrite EW in R1.
  assert (LT : last (wd r (sdata (age st) ++ win)) true = true).
  { apply red_keeps in R1; auto. tauto. }
  assert (EB : buffer_records e = win) by (apply (stored_eq C V _ _ _ _ _ I)).
  destruct (hist_cancel by_version C _ _ _ _ HH) as (_ & ps & K & _).
  assert (NWN : nf (wd r win) = true).
  { rewrite EB in BC.
    assert (L : length (wd r win) <= 1).
    { unfold wd, wdo. rewrite map_length, <- countb_filter, countb_map. eapply Nat.le_trans; [|exact BC].
      apply Nat.eq_le_incl. apply countb_ext. intros w Hw. simpl. symmetry.
      assert (IL : In (rt w) (map oplog ops)).
      { apply (Permutation_in _ (Permutation_sym K)). apply in_or_app. left. apply in_map.
        apply in_or_app. auto. }
      apply in_map_iff in IL as (o & EO & Ho). specialize (SE o Ho).
      assert (EX : op_rec o = wrec w) by (unfold rt, oplog in EO; destruct o; inv EO; auto).
      rewrite EX in SE. auto. }
    destruct (wd r win) as [|b [|b' l]]; simpl in *; auto; [rewrite orb_true_r; auto|lia]. }
  set (cs := win :: map s_data (query_shards st)) in *.
  assert (NFC : Forall (fun c => nf (wd r c) = true) cs).
  { constructor; auto. apply Forall_forall. intros c Hc. apply in_map_iff in Hc as (s & <- & Hs).
    rewrite Forall_forall in F1. apply (F1 s). apply (Permutation_in _ (query_shards_perm st)). auto. }
  assert (EC : sdata (age st) ++ win = concat (rev cs)).
  { unfold cs. simpl. rewrite <- map_rev, QO, concat_app. simpl. rewrite app_nil_r. auto. }
  destruct D as [[_ ->]|(a & c & b & w & EA & WA & IW & RW & ->)]; auto.
  assert (TW : is_ts w = true).
  { rewrite EC, EA, rev_app_distr in LT. simpl in LT. rewrite !concat_app in LT. simpl in LT.
    rewrite app_nil_r, <- app_assoc, !wd_app in LT.
    assert (WR : wd r (concat (rev a)) = []).
    { apply wd_nil. intros w' Hw'. apply (proj1 (wd_nil r (concat a)) WA).
      apply in_concat in Hw' as (c' & H1 & H2). apply in_concat. exists c'. split; auto. apply in_rev. auto. }
    rewrite WR, app_nil_r in LT.
    assert (NC : nf (wd r c) = true).
    { rewrite Forall_forall in NFC. apply NFC. rewrite EA. apply in_or_app. simpl. auto. }
    pose proof (wd_in _ _ IW RW) as WI. clear -LT NC WI.
    revert LT. generalize (wd r (concat (rev b))). intros p LT.
    assert (LC : last (wd r c) true = true).
    { destruct (wd r c) as [|z l]; [destruct WI|]. clear -LT. induction p as [|q p IH]; auto.
      apply IH. cbn [app last] in LT. destruct p; auto. }
    clear LT p. induction (wd r c) as [|z l IH]; [destruct WI|].
    simpl in NC. apply andb_true_iff in NC as [N1 N2]. destruct l as [|z' l].
    - simpl in LC. subst. destruct WI as [<-|[]]; auto.
    - destruct WI as [<-|WI]; [destruct z; auto|]. apply IH; auto. }
  rewrite TW. auto.
Qed.

End QW.

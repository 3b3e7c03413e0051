(** Level sizes, heights and counters of serial histories. *)
From Coq Require Import List Arith ZArith NArith Lia Bool Permutation Sorted.
From Verif Require Import Base ListLemmas RecordModel RecordProofs BufferModel BufferProofs
  MergeModel MergeProofs StructModel ExtModel StructProofs StructTotal SortedProofs ExtProofs ContentProofs
  TagProofs ExecProofs LevelProofs QueryModel Spec QueryProofs SerialProofs TagContent.
Import ListNotations.

Section ZP.
Context {R : Type} {RO : RecOps R} {RL : RecLaws R}.
Variable qlt : qorder R.
Context {QO : QOrder qlt}.
Variable C : cfg.
Hypothesis V : valid_cfg C.

Local Lemma LW : 1 <= c_lwm C. Proof. destruct V as (? & ? & ? & ?). auto. Qed.
Local Lemma WM : c_lwm C <= c_hwm C. Proof. destruct V as (? & ? & ? & ?). auto. Qed.
Local Lemma SF : 1 <= c_sf C. Proof. destruct V as (? & ? & ? & ?). auto. Qed.

Local Arguments set_nth : simpl never.
Local Arguments nth_error : simpl never.

(** ** Executions keep the structure well-formed *)

Lemma exec_sinv : forall ops rs st win pos tsn,
  exec qlt C ops rs st win pos tsn -> sinv C shard_ok st.
Proof.
  intros ops rs st win pos tsn H. induction H; auto using empty_sinv.
  - eapply (sinv_flush qlt C V); eauto.
  - destruct (tagged_shape C _ _ _ H1) as (T1 & T2 & T3 & _). destruct IHexec. constructor; auto.
Qed.

Lemma exec_hist : forall ops rs st win pos tsn,
  exec qlt C ops rs st win pos tsn -> Forall (appends C) ops ->
  hist qlt C (map oplog ops) (age st) win pos.
Proof.
  intros ops rs st win pos tsn H.
  assert (DEL : forall (ops : list (op R)) r, c_del C = TAGGING -> Forall (appends C) (ops ++ [Del r]) -> False).
  { intros ops' r TG F. apply Forall_app in F as [_ F]. inv F. destruct H2; simpl in *; congruence. }
  induction H; intros AP; try solve [exfalso; eauto].
  - constructor.
  - rewrite map_app in *. simpl in *. rewrite H1 in *. apply Forall_app in AP as [AP _].
    constructor; auto.
  - apply Forall_app in AP as [AP _]. pose proof (exec_sinv _ _ _ _ _ _ H) as S.
    destruct (sinv_flush qlt C V _ _ _ _ _ _ _ S H3 H4 H5 H7 H6) as [J1 J2].
    rewrite map_app. simpl. rewrite H1. eapply h_flush; eauto. rewrite built_sorted. auto.
Qed.

(** What [bsm_safe] and [few_erases] give. *)
Lemma safe_fine : forall ops, bsm_safe qlt C ops -> bsm_fine qlt C ops.
Proof.
  intros ops B Q pre post e rs st win pos tsn E Rn I _.
  apply (shards_nonempty C _ _ _ _ _ I). eapply B; eauto.
Qed.

Lemma few_nonempty : forall full ops rs st win pos tsn post, few_erases C full ->
  exec qlt C ops rs st win pos tsn -> full = ops ++ post -> Forall nonempty (age st).
Proof.
  intros full ops rs st win pos tsn post B H E.
  assert (K : Forall (appends C) full -> blocks_pos (c_lwm C) (map oplog full) ->
     Forall nonempty (age st)).
  { intros AP BL. subst full. rewrite map_app in BL. apply Forall_app in AP as [AP _].
    pose proof (exec_hist _ _ _ _ _ _ H AP) as HH.
    destruct (hist_pos qlt C SF LW WM _ BL _ _ _ _ _ eq_refl HH) as [P _].
    eapply Forall_impl; [|exact P]. apply pos_nonempty. }
  destruct B as [IO|[(TB & MI)|(TG & SV)]].
  - apply K; [apply insert_only_appends; auto|apply insert_only_blocks; auto].
  - apply K; [apply tomb_appends; auto|apply mostly_blocks; auto].
  - destruct (exec_tagged qlt C V full _ _ _ _ _ _ TG H _ E).
    eapply Forall_impl; [|exact (tg_shards SV)]. apply kept_nonempty.
Qed.

(** A decidable form, for concrete histories. *)
Lemma never_empty_bool : forall ops,
  forallb (fun n => match run_new qlt C (firstn n ops) with
                    | Ok (e, _) => forallb (forallb (fun d => negb (length d =? 0))) (levels_of e)
                    | Fail _ => true end) (seq 0 (S (length ops))) = true ->
  shards_never_empty qlt C ops.
Proof.
  intros ops H pre post e rs E Rn ls d H1 H2 N. rewrite forallb_forall in H.
  specialize (H (length pre)). rewrite E, firstn_app, Nat.sub_diag, firstn_all in H.
  simpl firstn in H. rewrite app_nil_r, Rn in H.
  assert (I : In (length pre) (seq 0 (S (length (pre ++ post))))) by (apply in_seq; rewrite app_length; lia).
  specialize (H I). rewrite forallb_forall in H. specialize (H _ H1).
  rewrite forallb_forall in H. specialize (H _ H2). subst d. discriminate.
Qed.

Theorem few_never_empty : forall ops, few_erases C ops -> shards_never_empty qlt C ops.
Proof.
  intros ops F pre post e rs E Rn.
  assert (B : bsm_fine qlt C pre).
  { intros _ pre' post' e' rs' st win pos tsn E' _ _ X. subst pre. rewrite <- app_assoc in E.
    eapply few_nonempty; eauto. }
  destruct (run_exec qlt C SF LW WM pre e rs B Rn) as (st & win & pos & tsn & I & _ & X).
  apply (shards_nonempty C _ _ _ _ _ I). eapply few_nonempty; eauto.
Qed.

(** ** Size invariants along executions *)

Definition zinv (k : nat) (st : structure R) : Prop :=
  match c_layout C with
  | TIERING => tinv C (c_lwm C) k st
  | LEVELING => linv C (k * c_lwm C) st
  | BSM => (st_levels st = [] /\ k = 0) \/ binv (c_lwm C) k st
  end.

Lemma lvs_rel : forall st st' : structure R,
  map (fun l => map s_reccnt (lv_shards l)) (st_levels st') =
  map (fun l => map s_reccnt (lv_shards l)) (st_levels st) ->
  map (map s_reccnt) (lvs st') = map (map s_reccnt) (lvs st).
Proof. intros. unfold lvs. rewrite !map_map. auto. Qed.

Lemma lvs_rel_nth : forall (l l' : list (list (shard R))) i ss,
  map (map s_reccnt) l' = map (map s_reccnt) l -> nth_error l' i = Some ss ->
  exists ss0, nth_error l i = Some ss0 /\ map s_reccnt ss = map s_reccnt ss0.
Proof.
  intros l l' i ss E H.
  assert (Q : nth_error (map (map s_reccnt) l) i = Some (map s_reccnt ss)).
  { rewrite <- E, nth_error_map, H. auto. }
  rewrite nth_error_map in Q. destruct (nth_error l i); inv Q. eauto.
Qed.

Lemma reccnt_in : forall (ss ss0 : list (shard R)) s, map s_reccnt ss = map s_reccnt ss0 -> In s ss ->
  exists s0, In s0 ss0 /\ s_reccnt s = s_reccnt s0.
Proof.
  intros ss ss0 s E H. apply (in_map s_reccnt) in H. rewrite E in H.
  apply in_map_iff in H as (s0 & H1 & H2). eauto.
Qed.

Lemma zinv_tag : forall k r st st', tagged_delete r st = Some st' ->
  zinv k st -> zinv k st'.
Proof.
  intros k r st st' T Z. destruct (tagged_shape C _ _ _ T) as (_ & _ & _ & _ & E).
  apply lvs_rel in E.
  assert (LL : length (lvs st') = length (lvs st)).
  { apply (f_equal (@length _)) in E. rewrite !map_length in E. auto. }
  unfold zinv in *. destruct (c_layout C).
  - destruct Z as [B T' H]. constructor.
    + intros i ss Hss. destruct (lvs_rel_nth _ _ _ _ E Hss) as (ss0 & Q1 & Q2).
      unfold recs. rewrite Q2. apply (B i ss0). auto.
    + eapply Nat.le_trans; [|exact T']. apply Nat.eq_le_incl.
      rewrite (recs_age C SF st'), (recs_age C SF st).
      rewrite (wsum_ext (fun _ ss => recs ss) (fun _ l => sum_list l) (map s_reccnt)) by auto.
      rewrite (wsum_ext (fun _ ss => recs ss) (fun _ l => sum_list l) (map s_reccnt) (lvs st)) by auto.
      rewrite E. auto.
    + rewrite LL. auto.
  - destruct Z as [W S T']. constructor.
    + rewrite <- W. unfold weight.
      rewrite (wsum_ext (fun i (ss : list (shard R)) => length ss * c_sf C ^ i)
        (fun i (l : list nat) => length l * c_sf C ^ i) (map s_reccnt)) by (intros; rewrite map_length; auto).
      rewrite (wsum_ext (fun i (ss : list (shard R)) => length ss * c_sf C ^ i)
        (fun i (l : list nat) => length l * c_sf C ^ i) (map s_reccnt) (lvs st)) by (intros; rewrite map_length; auto).
      rewrite E. auto.
    + intros i ss s Hss Hs. destruct (lvs_rel_nth _ _ _ _ E Hss) as (ss0 & Q1 & Q2).
      destruct (reccnt_in _ _ _ Q2 Hs) as (s0 & Q3 & ->). eauto.
    + intros ss Hss. rewrite LL in Hss. destruct (lvs_rel_nth _ _ _ _ E Hss) as (ss0 & Q1 & Q2).
      intros ->. destruct ss0; [|discriminate]. apply (T' [] Q1). auto.
  - destruct Z as [(Z & ->)|[W S T' L0]].
    + left. split; auto. unfold lvs in LL. rewrite !map_length, Z in LL.
      destruct (st_levels st'); [auto|discriminate].
    + right. constructor.
      * rewrite <- W. unfold bwt.
        rewrite (wsum_ext (fun i (ss : list (shard R)) => length ss * bw i)
          (fun i (l : list nat) => length l * bw i) (map s_reccnt)) by (intros; rewrite map_length; auto).
        rewrite (wsum_ext (fun i (ss : list (shard R)) => length ss * bw i)
          (fun i (l : list nat) => length l * bw i) (map s_reccnt) (lvs st)) by (intros; rewrite map_length; auto).
        rewrite E. auto.
      * intros i ss Hss. destruct (lvs_rel_nth _ _ _ _ E Hss) as (ss0 & Q1 & Q2).
        destruct (S i ss0 Q1) as [->|(s0 & -> & B0)].
        -- left. destruct ss; [auto|discriminate].
        -- right. destruct ss as [|s [|]]; simpl in Q2; inv Q2. exists s. split; auto. lia.
      * intros ss Hss. rewrite LL in Hss. destruct (lvs_rel_nth _ _ _ _ E Hss) as (ss0 & Q1 & Q2).
        intros ->. destruct ss0; [|discriminate]. apply (T' [] Q1). auto.
      * intros ss Hss. destruct (lvs_rel_nth _ _ _ _ E Hss) as (ss0 & Q1 & Q2).
        intros ->. destruct ss0; [|discriminate]. apply (L0 [] Q1). auto.
Qed.

Lemma bsm_first : forall d v st', c_layout C = BSM -> vok d v -> v_count v <= c_lwm C ->
  reconstruct_struct qlt C (@st_empty R) d v = Ok st' -> binv (c_lwm C) 1 st'.
Proof.
  intros d v st' LY VO VN H. unfold reconstruct_struct, st_empty in H.
  mon H. destruct a as [x ts]. mon H. rename a into st1.
  apply (get_tasks_spec C) in E as [(-> & D)|(D & b & T & ET)]; auto.
  - assert (st1 = st_empty) by (unfold exec_tasks in E0; rewrite LY in E0; inv E0; auto). subst st1.
    eapply (binv_flush qlt C SF st_empty d v st' (c_lwm C) 0); eauto.
    + apply (s_shape (ok := shard_ok) _ _ (empty_sinv C)).
    + intros i ss Hss. destruct i; discriminate.
    + intros ss Hss. discriminate.
  - destruct T as (s0 & E & _). discriminate.
  - exact SF.
  - apply (s_shape (ok := shard_ok) _ _ (empty_sinv C)).
Qed.

Lemma exec_zinv : forall ops rs st win pos tsn, exec qlt C ops rs st win pos tsn ->
  exists k, pos = k * c_lwm C /\ zinv k st /\ (0 < pos -> win <> []).
Proof.
  intros ops rs st win pos tsn H.
  induction H.
  - exists 0. split; auto. split; [|lia]. unfold zinv. destruct (c_layout C).
    + constructor; simpl; auto; try lia. intros i ss Hss. destruct i; discriminate.
    + constructor; simpl; auto; intros i; try intros ss; try intros s Hss; try destruct i; discriminate.
    + left. auto.
  - destruct IHexec as (k & -> & Z & W).
    exists k. split; auto. split; auto. intros _. destruct win; discriminate.
  - destruct IHexec as (k & -> & Z & W).
    destruct (exec_sinv _ _ _ _ _ _ H) as [S1 S2 S3].
    exists (S k). split; [simpl; lia|]. split; [|discriminate].
    set (v := bview C win (k * c_lwm C) tsn) in *.
    assert (VC : v_count v = c_lwm C).
    { unfold v. rewrite (bview_count C SF LW WM). auto. }
    unfold zinv in *. destruct (c_layout C) eqn:LY.
    + pose proof (linv_step qlt C SF _ _ _ _ _ LY S1 S2 S3 H3 Z H6) as Q. rewrite VC in Q.
      simpl. rewrite Nat.add_comm. auto.
    + eapply (tier_step qlt C SF); eauto; lia.
    + right. destruct Z as [(Z1 & ->)|Z].
      * destruct st as [ls state]. simpl in Z1. subst ls.
        assert (state = []) by (destruct S1 as [L _]; destruct state; [auto|discriminate]).
        subst state. eapply bsm_first; eauto. lia.
      * eapply (binv_step qlt C SF); eauto; lia.
  - destruct IHexec as (k & -> & Z & W).
    exists k. split; auto. split; auto. eapply zinv_tag; eauto.
  - destruct IHexec as (k & -> & Z & W).
    exists k. split; auto. split; auto. intros P Q. apply (f_equal (@length _)) in Q.
    rewrite set_nth_length in Q. apply (W P). destruct win; [auto|discriminate].
  - destruct IHexec as (k & -> & Z & W).
    exists k. auto.
Qed.

Theorem run_sizes : forall ops e rs, bsm_safe qlt C ops -> run_new qlt C ops = Ok (e, rs) ->
  exists st win pos tsn k, einv C e st win pos tsn /\ sinv C shard_ok st /\
    exec qlt C ops rs st win pos tsn /\ pos = k * c_lwm C /\ zinv k st /\ (0 < pos -> win <> []).
Proof.
  intros ops e rs B H.
  destruct (run_exec qlt C SF LW WM ops e rs (safe_fine _ B) H) as (st & win & pos & tsn & I & S & X).
  destruct (exec_zinv ops rs st win pos tsn X)
    as (k & K1 & K2 & K3); auto.
  exists st, win, pos, tsn, k. auto 10.
Qed.

(** ** Conclusions *)

Lemma levels_of_eq : forall e st win pos tsn, einv C e st win pos tsn ->
  levels_of e = map (map s_data) (lvs st).
Proof. intros. destruct H. unfold levels_of, lvs. rewrite i_cur, map_map. auto. Qed.

Lemma recs_length : forall (ss : list (shard R)), Forall shard_ok ss ->
  length (concat (map s_data ss)) = recs ss.
Proof.
  induction 1; simpl; auto. rewrite app_length, IHForall. unfold recs. simpl.
  destruct H as (-> & _). auto.
Qed.

Lemma lvs_ok : forall st i ss, sinv C shard_ok st -> nth_error (lvs st) i = Some ss -> Forall shard_ok ss.
Proof.
  intros st i ss [_ _ S] H. apply lvs_nth_inv in H as (l & H & <-).
  apply Forall_forall. intros x Hx. rewrite Forall_forall in S. apply S. eapply lv_in_age; eauto.
Qed.

Lemma level_of : forall e st win pos tsn i ls, einv C e st win pos tsn -> sinv C shard_ok st ->
  nth_error (levels_of e) i = Some ls ->
  exists ss, nth_error (lvs st) i = Some ss /\ length ls = length ss /\
    length (concat ls) = recs ss.
Proof.
  intros e st win pos tsn i ls I S H. rewrite (levels_of_eq _ _ _ _ _ I), nth_error_map in H.
  destruct (nth_error (lvs st) i) as [ss|] eqn:E; inv H. exists ss.
  rewrite map_length, recs_length by (eapply lvs_ok; eauto). auto.
Qed.

Theorem level_capacity : forall ops e rs i ls, bsm_safe qlt C ops -> c_layout C <> LEVELING ->
  run_new qlt C ops = Ok (e, rs) -> nth_error (levels_of e) i = Some ls ->
  length (concat ls) <= c_lwm C * c_sf C ^ (i + 1) /\ length ls <= max_shards C.
Proof.
  intros ops e rs i ls B NL H N.
  destruct (run_sizes _ _ _ B H) as (st & win & pos & tsn & k & I & S & X & _ & Z & _).
  destruct (level_of _ _ _ _ _ _ _ I S N) as (ss & N1 & -> & ->).
  unfold zinv in Z. unfold max_shards. destruct (c_layout C) eqn:LY; [congruence| |].
  - apply lvs_nth_inv in N1 as (l & N1 & <-).
    destruct (shape_level C _ _ _ (s_shape _ _ S) N1) as (s & Es & OK).
    unfold lsok in OK. rewrite LY in OK. unfold lv_count in OK.
    assert (CN : length (lv_shards l) <= c_sf C) by tauto. split; [|auto].
    pose proof (recs_small C SF (c_lwm C) (lv_shards l) i) as RS.
    eapply Nat.le_trans; [apply RS|].
    + intros x Hx. apply (ti_small _ _ _ _ Z i (lv_shards l)); auto. apply lvs_nth. auto.
    + replace (i + 1) with (Datatypes.S i) by lia. cbn [Nat.pow].
      rewrite (Nat.mul_comm (c_sf C)). rewrite Nat.mul_comm, Nat.mul_assoc.
      apply Nat.mul_le_mono_l. auto.
  - destruct V as (_ & _ & _ & B2). rewrite (B2 LY).
    destruct Z as [(Z & _)|Z].
    { unfold lvs in N1. rewrite Z in N1. destruct i; discriminate. }
    destruct (bi_small _ _ _ Z _ _ N1) as [->|(s & -> & BD)].
    + split; [apply Nat.le_0_l|simpl; lia].
    + split; [|simpl; lia]. unfold recs, sum_list. simpl. rewrite Nat.add_0_r.
      eapply Nat.le_trans; [exact BD|]. apply Nat.mul_le_mono_l.
      destruct i; simpl; [lia|]. replace (i + 1) with (Datatypes.S i) by lia. cbn [Nat.pow]. lia.
Qed.

Theorem leveling_capacity : forall ops e rs i ls, c_layout C = LEVELING ->
  run_new qlt C ops = Ok (e, rs) -> nth_error (levels_of e) i = Some ls ->
  length ls <= 1 /\
  (i <= 1 -> length (concat ls) <= c_hwm C * c_sf C ^ (i + 1)) /\
  (2 <= c_sf C -> length (concat ls) <= 2 * (c_hwm C * c_sf C ^ (i + 1))).
Proof.
  intros ops e rs i ls LY H N.
  assert (B : bsm_safe qlt C ops) by (intro; congruence).
  destruct (run_sizes _ _ _ B H) as (st & win & pos & tsn & k & I & S & X & _ & Z & _).
  destruct (level_of _ _ _ _ _ _ _ I S N) as (ss & N1 & -> & ->).
  unfold zinv in Z. rewrite LY in Z.
  pose proof (li_bound _ _ _ Z _ _ N1) as BD.
  split; [|split].
  - apply lvs_nth_inv in N1 as (l & N1 & <-).
    destruct (shape_level C _ _ _ (s_shape _ _ S) N1) as (s & Es & OK).
    unfold lsok in OK. rewrite LY in OK. unfold lv_count in OK. tauto.
  - intros L. fold (level_cap C i). destruct i as [|[|]]; [auto|auto|lia].
  - intros S2. fold (level_cap C i). pose proof (lbound_twice C SF S2 i). lia.
Qed.

Theorem height_bound : forall ops e rs h, bsm_safe qlt C ops ->
  run_new qlt C ops = Ok (e, rs) -> get_height e = Ok (e, h) ->
  match c_layout C with
  | TIERING => 1 <= h -> c_lwm C * c_sf C ^ (h - 1) < length ops
  | BSM => 2 <= h -> c_lwm C * (2 ^ (h - 2) + 1) < length ops
  | LEVELING => 3 <= h -> c_hwm C * c_sf C ^ (h - 1) < length ops
  end.
Proof.
  intros ops e rs h B H G.
  destruct (run_sizes _ _ _ B H) as (st & win & pos & tsn & k & I & S & X & -> & Z & W).
  unfold get_height in G. rewrite (with_epoch_eq C _ _ _ _ _ _ I) in G.
  simpl in G. inv G. unfold st_height.
  destruct (exec_pos qlt C LW _ _ _ _ _ _ X) as (_ & _ & LO).
  pose proof LW as L1.
  assert (WL : 0 < k -> 1 <= length win).
  { intros P. destruct win; [|simpl; lia]. exfalso. apply W; auto. nia. }
  unfold zinv in Z. rewrite <- (lvs_length st). destruct (c_layout C) eqn:LY; intros Hh.
  - pose proof (li_height _ _ _ Z Hh). lia.
  - assert (NE : lvs st <> []) by (destruct (lvs st); simpl in *; [lia|discriminate]).
    pose proof (tinv_height C SF _ _ _ Z NE) as K.
    assert (0 < c_sf C ^ (length (lvs st) - 1)) by (apply Nat.neq_0_lt_0, Nat.pow_nonzero; pose proof SF; lia).
    specialize (WL ltac:(lia)). nia.
  - destruct Z as [(Z & _)|Z]; [rewrite lvs_length, Z in Hh; simpl in Hh; lia|].
    pose proof (binv_height C SF _ _ _ Z Hh) as K. specialize (WL ltac:(lia)). nia.
Qed.

(** ** Tombstones *)

Lemma validate_true : forall (ls : list (level R)) i,
  (forall j l, nth_error ls j = Some l -> lv_tscnt l <= level_cap C (i + j)) ->
  validate_from C i ls = true.
Proof.
  induction ls; intros i H; simpl; auto.
  destruct (Nat.ltb_spec (level_cap C i) (lv_tscnt a)).
  - specialize (H 0 a eq_refl). rewrite Nat.add_0_r in H. lia.
  - apply IHls. intros j l Hl. specialize (H (Datatypes.S j) l Hl). rewrite <- plus_n_Sm in H. auto.
Qed.

Lemma ts_le_rec : forall (ss : list (shard R)), Forall shard_ok ss ->
  sum_list (map s_tscnt ss) <= recs ss.
Proof.
  unfold recs, sum_list. induction 1; simpl; auto. destruct H as (-> & -> & _).
  pose proof (countb_le is_ts (s_data x)). unfold ts_count. lia.
Qed.

End ZP.

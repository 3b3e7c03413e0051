(** Level sizes, heights and the planner's counts for any kind of shards. *)
From Coq Require Import List Arith ZArith NArith Lia Bool Permutation Sorted.
From Verif Require Import Base ListLemmas RecordModel RecordProofs BufferModel BufferProofs
  MergeModel MergeProofs StructModel ExtModel StructProofs StructTotal SortedProofs ExtProofs ContentProofs
  TagProofs ExecProofs TagContent LevelProofs QueryModel Spec QueryProofs SerialProofs SizeProofs CountProofs
  FlushModel FlushSpec FlushProofs KindModel KindSpec KindProofs KindTag FlushMore.
Import ListNotations.

Section KS.
Context {R : Type} {RO : RecOps R}.
Variable BD : builders R.
Context {ok : shard R -> Prop} {SL : ShardLaws BD ok}.
Variable C : cfg.
Hypothesis V : valid_cfg C.

Local Lemma ZLW : 1 <= c_lwm C. Proof. destruct V as (? & ? & ? & ?). auto. Qed.
Local Lemma ZWM : c_lwm C <= c_hwm C. Proof. destruct V as (? & ? & ? & ?). auto. Qed.
Local Lemma ZSF : 1 <= c_sf C. Proof. destruct V as (? & ? & ? & ?). auto. Qed.
Local Lemma ZB2 : c_layout C = BSM -> c_sf C = 2. Proof. destruct V as (? & ? & ? & ?). auto. Qed.
Local Hint Resolve ZLW ZWM ZSF ZB2 : core.
Local Arguments set_nth : simpl never.

(** ** What the size invariant says *)

Lemma ok_recs : forall ss : list (shard R), Forall ok ss -> length (concat (map s_data ss)) = recs ss.
Proof.
  induction 1; simpl; auto. rewrite app_length, IHForall. unfold recs. simpl. rewrite (ok_count _ H). auto.
Qed.

Lemma level_ok : forall st i ss, sinv C ok st -> nth_error (lvs st) i = Some ss -> Forall ok ss.
Proof.
  intros st i ss [_ _ S] H. apply lvs_nth_inv in H as (l & H & <-).
  apply Forall_forall. intros x Hx. rewrite Forall_forall in S. apply S. eapply lv_in_age; eauto.
Qed.

Lemma ginv_sizes : forall n k p st i ss, n <= c_hwm C -> sinv C ok st -> ginv C n k p st ->
  nth_error (lvs st) i = Some ss ->
  length ss <= max_shards C /\
  match c_layout C with
  | LEVELING => (i <= 1 -> recs ss <= c_hwm C * c_sf C ^ (i + 1)) /\
                (2 <= c_sf C -> recs ss <= 2 * (c_hwm C * c_sf C ^ (i + 1)))
  | _ => recs ss <= n * c_sf C ^ (i + 1)
  end.
Proof.
  intros n k p st i ss NH S Z N1. unfold ginv in Z. unfold max_shards. destruct (c_layout C) eqn:LY.
  - pose proof (li_bound _ _ _ Z _ _ N1) as BB. split; [|split].
    + apply lvs_nth_inv in N1 as (l & N1 & <-).
      destruct (shape_level C _ _ _ (s_shape _ _ S) N1) as (s & Es & OK).
      unfold lsok in OK. rewrite LY in OK. unfold lv_count in OK. tauto.
    + intros I. fold (level_cap C i). destruct i as [|[|]]; [auto|auto|lia].
    + intros S2. fold (level_cap C i). pose proof (lbound_twice C ZSF S2 i). lia.
  - pose proof N1 as N2. apply lvs_nth_inv in N2 as (l & N2 & EL).
    destruct (shape_level C _ _ _ (s_shape _ _ S) N2) as (s & Es & OK).
    unfold lsok in OK. rewrite LY in OK. unfold lv_count in OK. rewrite EL in OK.
    assert (CN : length ss <= c_sf C) by tauto. split; [auto|].
    eapply Nat.le_trans; [apply (recs_small C ZSF n ss i)|].
    + intros x Hx. apply (ti_small _ _ _ _ Z i ss); auto.
    + replace (i + 1) with (Datatypes.S i) by lia. cbn [Nat.pow].
      rewrite (Nat.mul_comm (c_sf C)). rewrite Nat.mul_comm, Nat.mul_assoc.
      apply Nat.mul_le_mono_l. auto.
  - rewrite (ZB2 LY). destruct Z as [(Z & _)|Z].
    { unfold lvs in N1. rewrite Z in N1. destruct i; discriminate. }
    destruct (bi_small _ _ _ Z _ _ N1) as [->|(s & -> & BB)].
    + split; [simpl; lia|apply Nat.le_0_l].
    + split; [simpl; lia|]. unfold recs, sum_list. simpl. rewrite Nat.add_0_r.
      eapply Nat.le_trans; [exact BB|]. apply Nat.mul_le_mono_l.
      destruct i; simpl; [lia|]. replace (i + 1) with (Datatypes.S i) by lia. cbn [Nat.pow]. lia.
Qed.

Lemma ginv_height : forall n k p (st : structure R), ginv C n k p st ->
  let h := length (lvs st) in
  match c_layout C with
  | TIERING => 1 <= h -> c_sf C ^ (h - 1) <= k
  | BSM => 2 <= h -> 2 ^ (h - 2) + 1 <= k
  | LEVELING => 3 <= h -> c_hwm C * c_sf C ^ (h - 1) < p
  end.
Proof.
  intros n k p st Z h. unfold ginv in Z. subst h. destruct (c_layout C) eqn:LY; intros Hh.
  - exact (li_height _ _ _ Z Hh).
  - assert (NE : lvs st <> []) by (destruct (lvs st); simpl in *; [lia|discriminate]).
    exact (tinv_height C ZSF _ _ _ Z NE).
  - destruct Z as [(Z & _)|Z]; [rewrite lvs_length, Z in Hh; simpl in Hh; lia|].
    exact (binv_height C ZSF _ _ _ Z Hh).
Qed.

(** ** Histories *)

Hypothesis tagging_ok : forall s i w, ok s -> nth_error (s_data s) i = Some w -> ok (tagged_at s i w).

Record gstate (ops : list (op R)) (e : ext R) (st : structure R) (win : list (wrapped R)) (pos tsn k : nat) : Prop := {
  g_e : einv C e st win pos tsn;
  g_s : sinv C ok st;
  g_pos : pos = k * c_lwm C;
  g_size : ginv C (c_lwm C) k pos st;
  g_win : 0 < pos -> win <> [];
  g_len : pos + length win <= length ops
}.

Lemma g_append : forall ops e st win pos tsn k o r ts e' n, gstate ops e st win pos tsn k ->
  (c_layout C = BSM -> Forall nonempty (age st)) -> internal_append BD C e r ts = Ok (e', n) ->
  exists st' win' pos' tsn' k', gstate (ops ++ [o]) e' st' win' pos' tsn' k'.
Proof.
  intros ops e st win pos tsn k o r ts e' n [I S P Z W L] NE H.
  destruct (Nat.eq_dec (length win) (c_lwm C)) as [E|E].
  - pose proof (append_flush BD C ZSF ZLW ZWM e st win pos tsn r ts I (s_shape _ _ S) E) as X.
    destruct (reconstruct_struct _ _ _ _ _) as [st'|] eqn:ER; [|congruence].
    destruct X as (e'' & A' & I'). rewrite H in A'. inv A'.
    pose proof (einv_vok C ZSF ZLW ZWM _ _ _ _ _ I) as VO.
    destruct (recon_ok BD C ZSF _ _ _ _ (s_shape _ _ S) VO (s_ok _ _ S) NE ER) as (T1 & T2 & _ & s & T3 & T4).
    assert (VC : v_count (bview C win (k * c_lwm C) tsn) = c_lwm C) by (rewrite (bview_count C ZSF ZLW ZWM); auto).
    eexists st', _, _, _, (Datatypes.S k). constructor; [exact I'| | | | |].
    + constructor; auto. apply (seg_steps_ok BD _ _ T4). apply Forall_app. split; [apply S|].
      constructor; auto. exact (proj1 (view_ok _ _ _ VO T3)).
    + simpl. lia.
    + replace (length win) with (v_count (bview C win (k * c_lwm C) tsn)) by lia. eapply (ginv_step BD C V); eauto. lia.
    + discriminate.
    + rewrite app_length. simpl. lia.
  - assert (E' : length win < c_lwm C) by (destruct I; lia).
    destruct (append_room BD C ZSF ZLW ZWM e st win pos tsn r ts I E') as (e'' & A' & I').
    rewrite H in A'. inv A'. eexists st, _, _, _, k. constructor; [exact I'|auto|auto|auto| |].
    + intros _ Q. destruct win; discriminate.
    + rewrite !app_length. simpl. lia.
Qed.

Lemma g_tag : forall k r st st', sinv C ok st -> ginv C (c_lwm C) k (k * c_lwm C) st ->
  tagged_delete r st = Some st' -> sinv C ok st' /\ ginv C (c_lwm C) k (k * c_lwm C) st'.
Proof.
  intros k r st st' [S1 S2 S3] Z H. destruct (tagged_shape C _ _ _ H) as (T1 & T2 & _).
  destruct (tag_age _ _ _ H) as (a & s & b & i & w' & EA & EA' & F1 & F2 & _).
  split; [|exact (zinv_tag C V k r st st' H Z)].
  constructor; auto. rewrite EA in S3. rewrite EA'.
  apply Forall_app in S3 as [G1 G2]. inv G2. apply Forall_app. split; auto.
Qed.

Lemma g_step : forall ops e st win pos tsn k o e' n, gstate ops e st win pos tsn k ->
  (c_layout C = BSM -> Forall nonempty (age st)) -> step BD C e o = Ok (e', n) ->
  exists st' win' pos' tsn' k', gstate (ops ++ [o]) e' st' win' pos' tsn' k'.
Proof.
  intros ops e st win pos tsn k o e' n G NE H.
  assert (D : c_del C = TAGGING \/ c_del C = TOMBSTONE) by (destruct (c_del C); auto).
  destruct o as [r|r]; simpl in H; [unfold insert in H; eapply g_append; eauto|].
  destruct D as [TG|TB]; [|unfold erase in H; rewrite TB in H; eapply g_append; eauto].
  destruct G as [I S P Z W L].
  destruct (erase_any by_version C ZSF ZLW ZWM e st win pos tsn r I TG) as (e1 & n1 & st' & win' & X & I' & Y).
  assert (X' : erase BD C e r = Ok (e1, n1)) by (rewrite <- X; unfold erase; rewrite TG; auto).
  rewrite H in X'. inv X'. exists st', win', (k * c_lwm C), tsn, k.
  assert (LL : length (ops ++ [Del r]) = length ops + 1) by (rewrite app_length; auto).
  destruct Y as [(K1 & -> & ->)|[(K1 & -> & -> & i & w & K2 & ->)|(K1 & -> & -> & K2 & K3 & K4)]].
  - destruct (g_tag _ _ _ _ S Z K1). constructor; auto. lia.
  - constructor; auto; [|rewrite set_nth_length; lia].
    intros Q1 Q2. apply (f_equal (@length _)) in Q2. rewrite set_nth_length in Q2.
    apply (W Q1). destruct win; [auto|discriminate].
  - constructor; auto. lia.
Qed.

Lemma g_run : forall full, bsm_safe BD C full -> forall post ops e rs0 st win pos tsn k e' rs,
  run_new BD C ops = Ok (e, rs0) -> gstate ops e st win pos tsn k -> full = ops ++ post ->
  run BD C e post = Ok (e', rs) ->
  exists st' win' pos' tsn' k', gstate full e' st' win' pos' tsn' k'.
Proof.
  intros full BS. induction post as [|o post IH]; intros ops e rs0 st win pos tsn k e' rs Rp G E Rn; simpl in Rn.
  - inv Rn. rewrite app_nil_r. eauto 10.
  - mon Rn. destruct a as [e1 n]. mon Rn. destruct a as [e2 ns]. inv Rn.
    destruct (g_step ops e st win pos tsn k o e1 n G) as (st1 & win1 & pos1 & tsn1 & k1 & G1); auto.
    { intros Q. apply (shards_nonempty C _ _ _ _ _ (g_e _ _ _ _ _ _ _ G)). intros ls d. eapply (BS Q ops); eauto. }
    eapply (IH (ops ++ [o])); eauto.
    + eapply run_new_snoc; eauto.
    + rewrite <- app_assoc. auto.
Qed.

Theorem g_facts : forall ops e rs, bsm_safe BD C ops -> run_new BD C ops = Ok (e, rs) ->
  exists st win pos tsn k, gstate ops e st win pos tsn k.
Proof.
  intros ops e rs BS H. unfold run_new in H. mon H. rename a into e0.
  assert (N : run_new BD C [] = Ok (e0, [])) by (unfold run_new; rewrite E; auto).
  apply (new_einv C ZSF ZLW ZWM) in E.
  eapply (g_run ops BS ops [] e0 [] st_empty [] 0 0 0); eauto.
  constructor; auto; [apply empty_sinv|apply (ginv_empty C)|lia].
Qed.

Theorem kind_sizes : forall ops e rs i ls, bsm_safe BD C ops -> run_new BD C ops = Ok (e, rs) ->
  nth_error (levels_of e) i = Some ls ->
  length ls <= max_shards C /\
  match c_layout C with
  | LEVELING => (i <= 1 -> length (concat ls) <= c_hwm C * c_sf C ^ (i + 1)) /\
                (2 <= c_sf C -> length (concat ls) <= 2 * (c_hwm C * c_sf C ^ (i + 1)))
  | _ => length (concat ls) <= c_lwm C * c_sf C ^ (i + 1)
  end.
Proof.
  intros ops e rs i ls BS H N. destruct (g_facts _ _ _ BS H) as (st & win & pos & tsn & k & [I S P Z _ _]).
  rewrite (levels_of_eq C _ _ _ _ _ I), nth_error_map in N.
  destruct (nth_error (lvs st) i) as [ss|] eqn:E; inv N. rewrite map_length, ok_recs by (eapply level_ok; eauto).
  eapply ginv_sizes; eauto.
Qed.

Theorem kind_height : forall ops e rs h, bsm_safe BD C ops -> run_new BD C ops = Ok (e, rs) ->
  get_height e = Ok (e, h) ->
  match c_layout C with
  | TIERING => 1 <= h -> c_lwm C * c_sf C ^ (h - 1) < length ops
  | BSM => 2 <= h -> c_lwm C * (2 ^ (h - 2) + 1) < length ops
  | LEVELING => 3 <= h -> c_hwm C * c_sf C ^ (h - 1) < length ops
  end.
Proof.
  intros ops e rs h BS H G. destruct (g_facts _ _ _ BS H) as (st & win & pos & tsn & k & [I S P Z W L]).
  unfold get_height in G. rewrite (with_epoch_eq C _ _ _ _ _ _ I) in G. simpl in G. inv G. unfold st_height.
  pose proof (ginv_height _ _ _ _ Z) as Q. cbv zeta in Q. rewrite lvs_length in Q. pose proof ZLW as L1.
  assert (WL : 0 < k -> 1 <= length win).
  { intros P. destruct win; [|simpl; lia]. exfalso. apply W; auto. nia. }
  destruct (c_layout C) eqn:LY; intros Hh; specialize (Q Hh).
  - lia.
  - assert (0 < c_sf C ^ (length (st_levels st) - 1)) by (apply Nat.neq_0_lt_0, Nat.pow_nonzero; pose proof ZSF; lia).
    specialize (WL ltac:(lia)). nia.
  - specialize (WL ltac:(lia)). nia.
Qed.

Theorem kind_bookkeeping : forall ops e rs, bsm_safe BD C ops -> run_new BD C ops = Ok (e, rs) ->
  planned_counts e = map (fun ls => (length (concat ls), length ls)) (levels_of e).
Proof.
  intros ops e rs BS H. destruct (g_facts _ _ _ BS H) as (st & win & pos & tsn & k & [I S _ _ _ _]).
  assert (E : planned_counts e = map (fun s => (ls_rec s, ls_cnt s)) (st_state st)).
  { destruct I. unfold planned_counts. rewrite i_cur. auto. }
  rewrite E. rewrite (levels_of_eq C _ _ _ _ _ I). unfold lvs. rewrite !map_map.
  destruct S as [[LN SH] _ OK].
  apply nth_error_ext; [rewrite !map_length; auto|].
  intros i Hi. rewrite map_length in Hi. rewrite !nth_error_map.
  destruct (nth_error (st_levels st) i) as [l|] eqn:EL.
  2:{ apply nth_error_None in EL. lia. }
  destruct (nth_error (st_state st) i) as [s|] eqn:ES.
  2:{ apply nth_error_None in ES. lia. }
  simpl. destruct (SH i l s EL ES) as (O1 & O2 & _). rewrite O1, O2, map_length.
  rewrite ok_recs; auto.
  apply Forall_forall. intros x Hx. rewrite Forall_forall in OK. apply OK. eapply lv_in_age; eauto.
Qed.

(** ** Flushes of any size *)

Context {adm : wrapped R -> Prop} {KL : KeepLaws BD ok adm}.

Lemma kept_safe : forall ops, Forall (appends C) ops -> admitted (adm := adm) (map oplog ops) -> bsm_safe BD C ops.
Proof.
  intros ops AP A _ pre post e rs E H ls d L D. subst ops. apply Forall_app in AP as [AP _].
  rewrite map_app in A. apply admitted_prefix in A.
  destruct (kept_facts BD C V _ _ _ AP A H) as (st & win & pos & I & _ & _ & _ & N).
  rewrite (levels_of_eq C _ _ _ _ _ I) in L. apply in_map_iff in L as (ss & <- & L).
  apply in_map_iff in D as (s & <- & D). unfold lvs in L. apply in_map_iff in L as (l & <- & L).
  apply In_nth_error in L as (i & L). rewrite Forall_forall in N. apply N. eapply lv_in_age; eauto.
Qed.

Theorem keep_flush_sizes : forall bs runs st i ls, Forall2 shows bs runs -> Forall (Forall adm) runs ->
  Forall (run_size (c_hwm C)) runs -> flush_all BD C st_empty bs = Ok st ->
  nth_error (st_runs st) i = Some ls ->
  length ls <= max_shards C /\
  match c_layout C with
  | LEVELING => (i <= 1 -> length (concat ls) <= c_hwm C * c_sf C ^ (i + 1)) /\
                (2 <= c_sf C -> length (concat ls) <= 2 * (c_hwm C * c_sf C ^ (i + 1)))
  | _ => length (concat ls) <= c_hwm C * c_sf C ^ (i + 1)
  end.
Proof.
  intros bs runs st i ls F M L H N. destruct (keep_flush_inv BD C V bs runs F M L) as (st' & E & S & Z & _).
  rewrite H in E. inv E. unfold st_runs in N. rewrite nth_error_map in N.
  destruct (nth_error (st_levels st') i) as [l|] eqn:EL; inv N.
  pose proof (lvs_nth _ _ _ EL) as NL. rewrite map_length, ok_recs by (eapply level_ok; eauto).
  exact (ginv_sizes _ _ _ _ _ _ (le_n _) S Z NL).
Qed.

Theorem keep_flush_height : forall bs runs st, Forall2 shows bs runs -> Forall (Forall adm) runs ->
  Forall (run_size (c_hwm C)) runs -> flush_all BD C st_empty bs = Ok st ->
  let h := length (st_runs st) in
  match c_layout C with
  | TIERING => 1 <= h -> c_sf C ^ (h - 1) <= length runs
  | BSM => 2 <= h -> 2 ^ (h - 2) + 1 <= length runs
  | LEVELING => 3 <= h -> c_hwm C * c_sf C ^ (h - 1) < length (concat runs)
  end.
Proof.
  intros bs runs st F M L H h. destruct (keep_flush_inv BD C V bs runs F M L) as (st' & E & S & Z & _).
  rewrite H in E. inv E. pose proof (ginv_height _ _ _ _ Z) as Q. cbv zeta in Q. rewrite lvs_length in Q.
  unfold h, st_runs. rewrite map_length. exact Q.
Qed.

End KS.

(** ** VPTree *)

Section VPZ.
Context {R : Type} {RO : RecOps R}.
Variable C : cfg.
Hypothesis V : valid_cfg C.

Lemma vp_tagging_ok : forall (s : shard R) i w, vp_ok s -> nth_error (s_data s) i = Some w -> vp_ok (tagged_at s i w).
Proof. exact (tag_ok (BD := vp_shards) (adm := plain)). Qed.

Theorem vp_sizes : forall (ops : list (op R)) e rs i ls, bsm_safe vp_shards C ops -> run_new vp_shards C ops = Ok (e, rs) ->
  nth_error (levels_of e) i = Some ls ->
  length ls <= max_shards C /\
  match c_layout C with
  | LEVELING => (i <= 1 -> length (concat ls) <= c_hwm C * c_sf C ^ (i + 1)) /\
                (2 <= c_sf C -> length (concat ls) <= 2 * (c_hwm C * c_sf C ^ (i + 1)))
  | _ => length (concat ls) <= c_lwm C * c_sf C ^ (i + 1)
  end.
Proof. exact (kind_sizes vp_shards C V vp_tagging_ok). Qed.

Theorem vp_safe {RL : RecLaws R} : forall ops : list (op R),
  appending C ops \/ (c_del C = TAGGING /\ survivors (c_lwm C) ops) -> bsm_safe vp_shards C ops.
Proof.
  intros ops [A|[TG SV]].
  - apply (kept_safe vp_shards C V (adm := nodel)); [apply appending_appends; auto|apply log_admitted].
  - exact (survivors_safe vp_shards C V TG ops (vp_fine _) SV).
Qed.
End VPZ.

(** ** Tries *)

Section TZ.
Variable qlt : qorder crec.
Context {QO : QOrder qlt}.
Variable literal : nat.
Variable C : cfg.
Hypothesis V : valid_cfg C.

Lemma trie_tagging_ok : forall s i w, trie_ok s -> nth_error (s_data s) i = Some w -> trie_ok (tagged_at s i w).
Proof. exact (tag_ok (TagLaws := trie_tags qlt literal)). Qed.

Theorem trie_sizes : forall ops e rs i ls, bsm_safe (trie_shards qlt literal) C ops ->
  run_new (trie_shards qlt literal) C ops = Ok (e, rs) -> nth_error (levels_of e) i = Some ls ->
  length ls <= max_shards C /\
  match c_layout C with
  | LEVELING => (i <= 1 -> length (concat ls) <= c_hwm C * c_sf C ^ (i + 1)) /\
                (2 <= c_sf C -> length (concat ls) <= 2 * (c_hwm C * c_sf C ^ (i + 1)))
  | _ => length (concat ls) <= c_lwm C * c_sf C ^ (i + 1)
  end.
Proof. exact (kind_sizes (trie_shards qlt literal) C V trie_tagging_ok). Qed.

Theorem trie_height : forall ops e rs h, bsm_safe (trie_shards qlt literal) C ops ->
  run_new (trie_shards qlt literal) C ops = Ok (e, rs) -> get_height e = Ok (e, h) ->
  match c_layout C with
  | TIERING => 1 <= h -> c_lwm C * c_sf C ^ (h - 1) < length ops
  | BSM => 2 <= h -> c_lwm C * (2 ^ (h - 2) + 1) < length ops
  | LEVELING => 3 <= h -> c_hwm C * c_sf C ^ (h - 1) < length ops
  end.
Proof. exact (kind_height (trie_shards qlt literal) C V trie_tagging_ok). Qed.

Theorem trie_safe : forall ops, insert_only ops -> no_blank literal ops -> bsm_safe (trie_shards qlt literal) C ops.
Proof.
  intros ops IO NB. apply (kept_safe (trie_shards qlt literal) C V (adm := trie_adm literal)); [|apply trie_admitted; auto].
  apply appending_appends. right. auto.
Qed.

Theorem trie_flush_sizes : forall bs runs st i ls, Forall2 shows bs runs ->
  Forall (Forall (trie_plain literal)) runs -> Forall (run_size (c_hwm C)) runs ->
  flush_all (trie_shards qlt literal) C st_empty bs = Ok st -> nth_error (st_runs st) i = Some ls ->
  length ls <= max_shards C /\
  match c_layout C with
  | LEVELING => (i <= 1 -> length (concat ls) <= c_hwm C * c_sf C ^ (i + 1)) /\
                (2 <= c_sf C -> length (concat ls) <= 2 * (c_hwm C * c_sf C ^ (i + 1)))
  | _ => length (concat ls) <= c_hwm C * c_sf C ^ (i + 1)
  end.
Proof. intros bs runs st i ls F M. exact (keep_flush_sizes (trie_shards qlt literal) C V bs runs st i ls F (fit_runs _ _ M)). Qed.

Theorem trie_flush_height : forall bs runs st, Forall2 shows bs runs ->
  Forall (Forall (trie_plain literal)) runs -> Forall (run_size (c_hwm C)) runs ->
  flush_all (trie_shards qlt literal) C st_empty bs = Ok st ->
  let h := length (st_runs st) in
  match c_layout C with
  | TIERING => 1 <= h -> c_sf C ^ (h - 1) <= length runs
  | BSM => 2 <= h -> 2 ^ (h - 2) + 1 <= length runs
  | LEVELING => 3 <= h -> c_hwm C * c_sf C ^ (h - 1) < length (concat runs)
  end.
Proof. intros bs runs st F M. exact (keep_flush_height (trie_shards qlt literal) C V bs runs st F (fit_runs _ _ M)). Qed.

Variable search : list (list N) -> list N -> option nat.
Hypothesis SE : search_exact search.

Lemma trie_tag_safe : forall ops, c_del C = TAGGING -> no_blank literal ops -> distinct_keys ops ->
  survivors (c_lwm C) ops ->
  trie_run_new qlt literal search C ops = run_new (trie_shards qlt literal) C ops /\
  bsm_safe (trie_shards qlt literal) C ops.
Proof.
  intros ops TG NB DK SV. split; [exact (trie_run_eq qlt literal C V TG search SE ops NB DK SV)|].
  exact (survivors_safe (trie_shards qlt literal) C V TG ops (trie_fine literal ops NB) SV).
Qed.

Theorem trie_tag_sizes : forall ops e rs i ls, c_del C = TAGGING -> no_blank literal ops -> distinct_keys ops ->
  survivors (c_lwm C) ops -> trie_run_new qlt literal search C ops = Ok (e, rs) ->
  nth_error (levels_of e) i = Some ls ->
  length ls <= max_shards C /\
  match c_layout C with
  | LEVELING => (i <= 1 -> length (concat ls) <= c_hwm C * c_sf C ^ (i + 1)) /\
                (2 <= c_sf C -> length (concat ls) <= 2 * (c_hwm C * c_sf C ^ (i + 1)))
  | _ => length (concat ls) <= c_lwm C * c_sf C ^ (i + 1)
  end.
Proof.
  intros ops e rs i ls TG NB DK SV H. destruct (trie_tag_safe ops TG NB DK SV) as [E BS]. rewrite E in H.
  exact (trie_sizes ops e rs i ls BS H).
Qed.

Theorem trie_tag_height : forall ops e rs h, c_del C = TAGGING -> no_blank literal ops -> distinct_keys ops ->
  survivors (c_lwm C) ops -> trie_run_new qlt literal search C ops = Ok (e, rs) -> get_height e = Ok (e, h) ->
  match c_layout C with
  | TIERING => 1 <= h -> c_lwm C * c_sf C ^ (h - 1) < length ops
  | BSM => 2 <= h -> c_lwm C * (2 ^ (h - 2) + 1) < length ops
  | LEVELING => 3 <= h -> c_hwm C * c_sf C ^ (h - 1) < length ops
  end.
Proof.
  intros ops e rs h TG NB DK SV H. destruct (trie_tag_safe ops TG NB DK SV) as [E BS]. rewrite E in H.
  exact (trie_height ops e rs h BS H).
Qed.

End TZ.

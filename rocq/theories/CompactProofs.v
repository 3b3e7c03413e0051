(** Proofs about tombstone queries of a level and about compactions. *)
From Coq Require Import List Arith ZArith NArith Lia Bool Permutation Sorted.
From Verif Require Import Base ListLemmas RecordModel RecordProofs BufferModel BufferProofs
  MergeModel MergeProofs StructModel ExtModel StructProofs StructTotal ExtProofs ContentProofs Spec
  SerialProofs SizeProofs CountProofs BsmProofs QueryProofs CompactModel CompactSpec.
Import ListNotations.

Section LV.
Context {R : Type} {RO : RecOps R}.

Lemma check_down_spec : forall find (r : R) ss, (forall s, In s ss -> finds find r (s_data s)) ->
  exists x, check_down find r ss = Ok x /\
    (x = true -> exists s, In s ss /\ tombstoned r (s_data s)) /\
    ((forall s, In s ss -> one_sort r (s_data s)) ->
     (exists s, In s ss /\ tombstoned r (s_data s)) -> x = true).
Proof.
  intros find r ss F. induction ss as [|s ss IH]; cbn [check_down].
  - exists false. split; auto. split; [discriminate|]. intros _ (s & [] & _).
  - destruct (F s (or_introl eq_refl)) as (o & E & A). rewrite E. cbn [bind].
    destruct IH as (x & Ex & X1 & X2); [intros s' I; apply F; right; auto|].
    destruct o as [i|]; cbn [answers] in A.
    + destruct A as (w & Nw & Qw). unfold nth_res. rewrite Nw. cbn [bind].
      assert (Iw : In w (s_data s)) by (eapply nth_error_In; eauto).
      destruct (is_ts w) eqn:T.
      * exists true. split; auto. split; auto. intros _. exists s. split; [left; auto|]. exists w. auto.
      * exists x. split; auto. split.
        { intros Hx. destruct (X1 Hx) as (s' & I & H). exists s'. split; [right; auto|auto]. }
        intros O (s' & [<-|I] & T').
        { destruct T' as (w' & I' & Q' & T'). pose proof (O s (or_introl eq_refl) w w' Iw I' Qw Q'). congruence. }
        apply X2; eauto. intros s0 I0. apply O. right. auto.
    + exists x. split; auto. split.
      { intros Hx. destruct (X1 Hx) as (s' & I & H). exists s'. split; [right; auto|auto]. }
      intros O (s' & [<-|I] & T').
      { destruct T' as (w' & I' & Q' & T'). rewrite (A w' I') in Q'. discriminate. }
      apply X2; eauto. intros s0 I0. apply O. right. auto.
Qed.

Theorem level_check : forall find stop (r : R) l,
  (forall s, In s (skipn stop (lv_shards l)) -> finds find r (s_data s)) ->
  exists x, lv_check_tombstone find stop r l = Ok x /\
    (x = true -> exists s, In s (skipn stop (lv_shards l)) /\ tombstoned r (s_data s)) /\
    ((forall s, In s (skipn stop (lv_shards l)) -> one_sort r (s_data s)) ->
     (exists s, In s (skipn stop (lv_shards l)) /\ tombstoned r (s_data s)) -> x = true).
Proof.
  intros find stop r l F. unfold lv_check_tombstone.
  destruct (check_down_spec find r (rev (skipn stop (lv_shards l)))) as (x & E & X1 & X2).
  { intros s I. apply F. apply in_rev. auto. }
  exists x. split; auto. split.
  - intros H. destruct (X1 H) as (s & I & T). exists s. split; auto. apply in_rev. auto.
  - intros O (s & I & T). apply X2.
    + intros s' I'. apply O. apply in_rev. auto.
    + exists s. split; auto. rewrite <- in_rev. auto.
Qed.

End LV.

Section CP.
Context {R : Type} {RO : RecOps R} {RL : RecLaws R}.
Variable qlt : qorder R.
Context {QO : QOrder qlt}.
Variable C : cfg.
Hypothesis V : valid_cfg C.

Lemma violation_none : forall mx (ls : list (level R)) i,
  violation C mx i ls = None <->
  (forall j l, nth_error ls j = Some l -> level_within C mx (i + j) l = true).
Proof.
  intros mx. induction ls as [|l ls IH]; intros i; cbn [violation].
  - split; auto. intros _ [|j] l H; discriminate.
  - destruct (level_within C mx i l) eqn:E.
    + rewrite IH. split.
      * intros H [|j] l' N; cbn in N; [inv N; rewrite Nat.add_0_r; auto|].
        replace (i + S j) with (S i + j) by lia. auto.
      * intros H j l' N. replace (S i + j) with (i + S j) by lia. apply H. auto.
    + split; [discriminate|]. intros H. specialize (H 0 l eq_refl). rewrite Nat.add_0_r in H. congruence.
Qed.

Lemma violation_lt : forall mx (ls : list (level R)) i v, violation C mx i ls = Some v -> i <= v < i + length ls.
Proof.
  intros mx. induction ls as [|l ls IH]; intros i v H; cbn [violation] in H; [discriminate|].
  cbn [length]. destruct (level_within C mx i l); [apply IH in H; lia|inv H; lia].
Qed.

Lemma find_loop_le : forall n i inc state t, find_target_loop C i n inc state = Some t -> i <= t.
Proof.
  induction n; intros i inc state t H; cbn in H; [discriminate|].
  destruct (can_reconstruct_with C i inc state); [inv H; auto|apply IHn in H; lia].
Qed.

(** No tasks exactly when no level is beyond the bound. *)
Lemma tasks_nil : forall mx st, compaction_tasks C mx st = Ok [] <-> violation C mx 0 (st_levels (R := R) st) = None.
Proof.
  intros mx st. unfold compaction_tasks. split; [|intros ->; auto].
  destruct (violation C mx 0 (st_levels st)) as [v|] eqn:E; auto. intros H. exfalso.
  apply violation_lt in E. unfold find_target in H.
  destruct ((v =? 0) && (length (st_state st) =? 0)); cbn [bind] in H.
  - unfold grow in H. destruct (length (st_levels st)) eqn:EL; [lia|]. cbn [compaction_loop] in H.
    destruct (nth_res n (st_levels st)); [|discriminate]. cbn [bind] in H.
    match type of H with (do _ <- ?x; _) = _ => destruct x; [|discriminate] end. cbn [bind] in H.
    destruct (compaction_loop C st _ n); discriminate.
  - destruct (nth_error (st_state st) v); [|discriminate]. cbn [bind] in H.
    destruct (find_target_loop C (S v) _ _ _) as [t|] eqn:EF.
    + apply find_loop_le in EF. destruct t; [lia|]. cbn [compaction_loop] in H.
      destruct (nth_res t (st_levels st)); [|discriminate]. cbn [bind] in H.
      match type of H with (do _ <- ?x; _) = _ => destruct x; [|discriminate] end. cbn [bind] in H.
      destruct (compaction_loop C st _ t); discriminate.
    + unfold grow in H. destruct (length (st_levels st)) eqn:EL; [lia|]. cbn [compaction_loop] in H.
      destruct (nth_res n (st_levels st)); [|discriminate]. cbn [bind] in H.
      match type of H with (do _ <- ?x; _) = _ => destruct x; [|discriminate] end. cbn [bind] in H.
      destruct (compaction_loop C st _ n); discriminate.
Qed.

Lemma shards_ts : forall ss : list (shard R), Forall shard_ok ss ->
  sum_list (map s_tscnt ss) = countb is_ts (concat (map s_data ss)).
Proof.
  induction 1 as [|s ss (_ & E & _) _ IH]; auto.
  cbn [map concat]. rewrite countb_app, <- IH. change (countb is_ts (s_data s)) with (ts_count (s_data s)). rewrite <- E. auto.
Qed.

Lemma shards_rec : forall ss : list (shard R), Forall shard_ok ss ->
  sum_list (map s_reccnt ss) = length (concat (map s_data ss)).
Proof.
  induction 1 as [|s ss (E & _) _ IH]; auto.
  cbn [map concat]. rewrite app_length, <- IH, <- E. auto.
Qed.

Lemma within_iff : forall mx st, Forall shard_ok (age st) ->
  (violation C mx 0 (st_levels (R := R) st) = None <-> within C mx (contents st)).
Proof.
  intros mx st OK. rewrite violation_none. unfold within, contents. split.
  - intros H i ls N. rewrite nth_error_map in N. destruct (nth_error (st_levels st) i) as [l|] eqn:E; inv N.
    specialize (H _ _ E). unfold level_within in H. apply Nat.leb_le in H. unfold lv_tscnt, level_cap in H.
    rewrite shards_ts in H; auto. apply Forall_forall. intros x Hx. rewrite Forall_forall in OK. apply OK.
    eapply lv_in_age; eauto.
  - intros H i l N. specialize (H i (map s_data (lv_shards l))). rewrite nth_error_map, N in H. specialize (H eq_refl).
    unfold level_within, lv_tscnt, level_cap. apply Nat.leb_le. rewrite shards_ts; auto.
    apply Forall_forall. intros x Hx. rewrite Forall_forall in OK. apply OK. eapply lv_in_age; eauto.
Qed.

Lemma structure_eq : forall e st win pos tsn, einv C e st win pos tsn -> structure_of e = st.
Proof. intros e st win pos tsn I. destruct I. unfold structure_of. rewrite i_cur. auto. Qed.

Theorem idle_iff : forall mx ops e rs, run_new qlt C ops = Ok (e, rs) ->
  (compaction_tasks C mx (structure_of e) = Ok [] <-> within C mx (contents (structure_of e))).
Proof.
  intros mx ops e rs H. destruct (run_any qlt C V _ _ _ H) as (st & win & pos & tsn & k & A).
  rewrite (structure_eq _ _ _ _ _ (as_e _ _ _ _ _ _ _ _ A)), tasks_nil.
  apply within_iff. apply (as_ok _ _ _ _ _ _ _ _ A).
Qed.

Lemma all_records_age : forall st : structure R, Permutation (all_records st) (sdata (age st)).
Proof.
  intros st. unfold all_records, contents. rewrite <- map_map with (g := map s_data).
  assert (E : concat (map (map s_data) (map lv_shards (st_levels st))) =
              map s_data (concat (map lv_shards (st_levels st)))) by (rewrite concat_map; auto).
  rewrite E.
  unfold sdata. apply concat_perm. apply Permutation_map. apply (query_shards_perm st).
Qed.

Lemma pair_below : forall st st' i, reconstruct_pair qlt C st 1 0 = Ok st' -> 2 <= i ->
  nth_error (st_levels (R := R) st') i = nth_error (st_levels st) i.
Proof.
  intros st st' i H L. unfold reconstruct_pair in H.
  destruct (if length (st_levels st) <=? 1 then _ else _) as [levels state] eqn:EX.
  assert (K : nth_error levels i = nth_error (st_levels st) i).
  { destruct (Nat.leb_spec (length (st_levels st)) 1); inv EX; auto.
    rewrite (proj2 (nth_error_None (st_levels st) i)) by lia. apply nth_error_None.
    rewrite app_length. cbn. lia. }
  mon H. mon H. mon H. inv H. rewrite <- K.
  destruct levels as [|x [|y levels]]; destruct i as [|[|i]]; try lia; auto.
Qed.

Theorem compact_first : forall mx ops e rs, c_del C = TOMBSTONE ->
  run_new qlt C ops = Ok (e, rs) ->
  let st := structure_of e in
  (forall ls d, In ls (contents st) -> In d ls -> d <> []) ->
  ~ within C mx (firstn 1 (contents st)) -> room_below C (contents st) ->
  exists st', compact_once qlt C mx st = Ok st' /\
    nth_error (contents st') 0 = Some [] /\
    (forall i, 2 <= i -> nth_error (contents st') i = nth_error (contents st) i) /\
    forall r, n_plain r (all_records st') + n_tomb r (all_records st) =
              n_plain r (all_records st) + n_tomb r (all_records st').
Proof.
  intros mx ops e rs TB H st NE NW RB.
  assert (NB : c_layout C <> BSM).
  { intros Q. unfold room_below in RB. rewrite Q in RB. auto. }
  assert (SF : 1 <= c_sf C) by apply V.
  destruct (run_facts qlt C V ops e rs (tomb_appends C _ TB) (safe_ok qlt C _ (fun Q => False_ind _ (NB Q))) H)
    as (st0 & win & pos & I & S & HH & _ & _).
  assert (ES : st = st0) by (apply (structure_eq _ _ _ _ _ I)). rewrite ES in *. clear ES st.
  rename st0 into st. pose proof (s_shape _ _ S) as SH. pose proof (s_ok _ _ S) as OK.
  destruct (hist_cancel qlt C _ _ _ _ HH) as (N & _). rewrite Forall_app in N. destruct N as [N _].
  assert (G : Forall (good shard_ok) (age st)).
  { apply Forall_forall. intros s Hs. split; [rewrite Forall_forall in OK; auto|].
    apply (Permutation_in _ (Permutation_sym (query_shards_perm st))) in Hs. unfold query_shards in Hs.
    apply in_concat in Hs as (ss & H1 & H2). apply in_map_iff in H1 as (l & <- & Hl).
    apply (NE (map s_data (lv_shards l))); [apply in_map_iff; eauto|apply in_map; auto]. }
  (* the first level is beyond the bound *)
  destruct (st_levels st) as [|l0 ls] eqn:EL.
  { unfold room_below, contents in RB. rewrite EL in RB. destruct (c_layout C); contradiction. }
  assert (LW0 : level_within C mx 0 l0 = false).
  { destruct (level_within C mx 0 l0) eqn:E; auto. exfalso. apply NW. unfold contents. rewrite EL. cbn [map firstn].
    intros [|i] x Hx; cbn in Hx; [|destruct i; discriminate]. inv Hx.
    unfold level_within in E. apply Nat.leb_le in E. unfold lv_tscnt, level_cap in E.
    rewrite shards_ts in E; auto. apply Forall_forall. intros x Hx. rewrite Forall_forall in OK. apply OK.
    eapply lv_in_age; [|exact Hx]. rewrite EL. instantiate (1 := 0). reflexivity. }
  assert (EV : violation C mx 0 (st_levels st) = Some 0) by (rewrite EL; cbn; rewrite LW0; auto).
  assert (N0 : nth_error (st_levels st) 0 = Some l0) by (rewrite EL; auto).
  destruct (shape_level C _ _ _ SH N0) as (s0 & ES0 & OK0).
  assert (TK : exists n, compaction_tasks C mx st = Ok [Task [0] 1 n] /\ room C st 1).
  { unfold compaction_tasks. rewrite EV. unfold find_target.
    rewrite <- (proj1 SH), EL. cbn [length Nat.eqb andb]. rewrite ES0. cbn [bind].
    rewrite Nat.sub_succ, Nat.sub_0_r.
    assert (LO : forall l, In l (st_levels st) -> lv_reccnt l = length (concat (map s_data (lv_shards l)))).
    { intros l Il. apply shards_rec. apply Forall_forall. intros x Hx. rewrite Forall_forall in OK. apply OK.
      apply In_nth_error in Il as (i & Il). eapply lv_in_age; eauto. }
    assert (R0 : nth_res 0 (st_levels st) = Ok l0) by (unfold nth_res; rewrite N0; auto).
    unfold room_below, contents in RB. rewrite EL in RB.
    destruct ls as [|l1 ls]; cbn [map] in RB.
    - destruct (c_layout C) eqn:LY; try contradiction. cbn [length find_target_loop].
      unfold grow. rewrite EL. cbn [length compaction_loop]. rewrite R0, LY. cbn [bind Nat.sub].
      eexists. split; [reflexivity|]. split; [rewrite EL; cbn; lia|].
      intros _ l Nl. rewrite EL in Nl. discriminate.
    - assert (N1 : nth_error (st_levels st) 1 = Some l1) by (rewrite EL; auto).
      destruct (shape_level C _ _ _ SH N1) as (s1 & ES1 & OK1). cbn [length find_target_loop].
      assert (CR : can_reconstruct_with C 1 (ls_rec s0) (st_state st) = true).
      { unfold can_reconstruct_with. rewrite ES1. destruct OK0 as (A1 & _), OK1 as (B1 & B2 & _ & B3).
        destruct (c_layout C) eqn:LY.
        - destruct B3 as (_ & _ & B3 & _). apply Nat.leb_le. rewrite A1, B1, B3, !LO by (rewrite EL; cbn; auto).
          unfold level_cap. rewrite Nat.add_comm. exact RB.
        - destruct B3 as (_ & B3 & _). apply Nat.ltb_lt. rewrite B2, B3. rewrite map_length in RB. exact RB.
        - contradiction. }
      assert (R1 : nth_res 1 (st_levels st) = Ok l1) by (unfold nth_res; rewrite N1; auto).
      rewrite CR. cbn [compaction_loop]. rewrite R0, R1. cbn [bind Nat.sub].
      destruct (c_layout C) eqn:LY; [| |congruence].
      + destruct (can_reconstruct_with C 1 (lv_reccnt l0) (st_state st)); cbn [bind]; eexists;
          (split; [reflexivity|]; split; [rewrite EL; cbn; lia|]; intros; congruence).
      + cbn [bind]. eexists. split; [reflexivity|]. split; [rewrite EL; cbn; lia|].
        intros _ l Nl. rewrite N1 in Nl. inv Nl. rewrite map_length in RB. exact RB. }
  destruct TK as (n & TK & RM).
  assert (LEN : 0 < length (st_levels st)) by (rewrite EL; cbn; lia).
  destruct (reconstruct_pair_total qlt C SF st 0 SH NB LEN RM) as (st' & EP).
  { intros j l J Nl. eapply age_good; eauto. }
  { intros Q lb Nl NEb. split; [eapply age_good; eauto|]. intros i li Ei Nli. inv Ei.
    rewrite N0 in Nli. inv Nli. intros Z.
    unfold level_within, lv_tscnt in LW0. rewrite Z in LW0. cbn in LW0. discriminate. }
  exists st'. unfold compact_once. rewrite TK. cbn [bind].
  assert (EE : exec_tasks qlt C [Task [0] 1 n] st = Ok st').
  { unfold exec_tasks. destruct (c_layout C); [| |congruence]; cbn [exec_pairs t_sources t_target nth_res nth_error bind];
      rewrite EP; auto. }
  split; auto.
  destruct (reconstruct_pair_ok qlt C SF _ _ _ SH NB LEN RM EP) as (SH' & SS & LEN' & (l & Nl & Zl) & _).
  unfold contents. rewrite nth_error_map, Nl. cbn. rewrite Zl. split; auto. split.
  { intros i Li. rewrite !nth_error_map, (pair_below _ _ _ EP Li). auto. }
  intros r. destruct (seg_steps_cancel qlt _ _ SS N) as (_ & ps & K).
  destruct (cancel_balance _ _ _ K r) as (k & E1 & E2). rewrite !n_plain_rt, !n_tomb_rt.
  pose proof (Permutation_map rt (all_records_age st)) as P1.
  pose proof (Permutation_map rt (all_records_age st')) as P2.
  unfold lplain, ltomb in *.
  assert (X1 := fun p => countb_perm p _ _ P1). assert (X2 := fun p => countb_perm p _ _ P2).
  rewrite !X1, !X2. lia.
Qed.

Lemma rounds_fix : forall (B : builders R) mx st st1 n, compact_once B C mx st = Ok st1 ->
  compact_once B C mx st1 = Ok st1 -> rounds B C mx (S n) st = Ok st1.
Proof.
  intros B mx st st1 n E F. cbn [rounds]. rewrite E. cbn [bind].
  induction n; cbn [rounds]; auto. rewrite F. auto.
Qed.

End CP.

(** Counts, the static structure and the queries, relative to the stored records. *)
From Coq Require Import List Arith ZArith NArith Lia Bool Permutation Sorted.
From Verif Require Import Base ListLemmas RecordModel RecordProofs BufferModel BufferProofs
  MergeModel MergeProofs StructModel ExtModel StructProofs StructTotal SortedProofs ExtProofs ContentProofs
  QueryModel Spec.
Import ListNotations.

Section QP.
Context {R : Type} {RO : RecOps R} {RL : RecLaws R}.
Variable qlt : qorder R.
Context {QO : QOrder qlt}.

(** ** Counts *)

Lemma lv_reccnt_len : forall l : level R, Forall shard_ok (lv_shards l) ->
  lv_reccnt l = length (sdata (lv_shards l)).
Proof.
  intros. unfold lv_reccnt, sdata. induction H; auto. simpl. rewrite app_length.
  destruct H as [H _]. unfold sum_list in *. simpl. lia.
Qed.

Lemma lv_tscnt_len : forall l : level R, Forall shard_ok (lv_shards l) ->
  lv_tscnt l = ts_count (sdata (lv_shards l)).
Proof.
  intros. unfold lv_tscnt, sdata, ts_count. induction H; auto. simpl. rewrite countb_app.
  destruct H as [_ [H _]]. unfold ts_count in H. unfold sum_list in *. simpl. lia.
Qed.

Lemma st_reccnt_len : forall st : structure R, Forall shard_ok (age st) ->
  st_reccnt st = length (sdata (age st)).
Proof.
  intros [ls state]. unfold age, st_reccnt. simpl. induction ls; intros; auto.
  rewrite AGE_cons, sdata_app, app_length in *. simpl. apply Forall_app in H as [H1 H2].
  rewrite lv_reccnt_len by auto. unfold sum_list in *. simpl. rewrite IHls by auto. lia.
Qed.

Lemma st_tscnt_len : forall st : structure R, Forall shard_ok (age st) ->
  st_tscnt st = ts_count (sdata (age st)).
Proof.
  intros [ls state]. unfold age, st_tscnt. simpl. induction ls; intros; auto.
  rewrite AGE_cons, sdata_app in *. unfold ts_count in *. rewrite countb_app.
  apply Forall_app in H as [H1 H2]. fold (ts_count (sdata (lv_shards a))).
  simpl. rewrite <- lv_tscnt_len by auto. unfold sum_list in *. simpl. rewrite IHls by auto. lia.
Qed.

Lemma query_shards_perm : forall st : structure R, Permutation (query_shards st) (age st).
Proof.
  intros [ls state]. unfold query_shards, age. simpl. induction ls; simpl; auto.
  rewrite AGE_cons, IHls. apply Permutation_app_comm.
Qed.

(** ** The static structure *)

Lemma combined_steps : forall ls ss, combined_shards qlt ls = Ok ss ->
  Forall shard_ok (concat (map lv_shards ls)) ->
  seg_steps qlt (concat (map lv_shards ls)) ss.
Proof.
  induction ls; simpl; intros ss H OK; [inv H; constructor|].
  apply Forall_app in OK as [O1 O2].
  destruct (Nat.ltb_spec 0 (lv_reccnt a)).
  - mon H. destruct a0 as [s|]; [|discriminate]. mon H. inv H.
    unfold lv_combined in E. destruct (Nat.eqb_spec (lv_count a) 0); [discriminate|].
    mon E. inv E. eapply sst_step.
    + apply (ss_merge qlt [] (lv_shards a) (concat (map lv_shards ls)) s); auto.
      unfold lv_count in n. destruct (lv_shards a); [simpl in n; congruence|discriminate].
    + simpl. specialize (IHls _ E0 O2). clear -IHls.
      change (s :: concat (map lv_shards ls)) with ([s] ++ concat (map lv_shards ls)).
      change (s :: a0) with ([s] ++ a0). induction IHls; [constructor|].
      econstructor; [|eauto]. inv H.
      * rewrite (app_assoc [s] a0 (m ++ b0)), (app_assoc [s] a0 (s0 :: b0)). apply ss_merge; auto.
      * rewrite (app_assoc [s] a0 (m ++ b0)), (app_assoc [s] a0 b0). apply ss_drop; auto.
  - eapply sst_step; [|apply IHls; auto].
    apply (ss_drop qlt [] (lv_shards a) (concat (map lv_shards ls))).
    rewrite lv_reccnt_len in H0 by auto. unfold sdata in H0.
    clear -H0. induction (lv_shards a); constructor; simpl in H0; rewrite app_length in H0.
    + destruct (s_data a0); auto. simpl in H0. lia.
    + apply IHl. lia.
Qed.

Lemma combined_total : forall ls,
  Forall pos_shard (concat (map lv_shards ls)) -> Forall shard_ok (concat (map lv_shards ls)) ->
  Forall nodel (sdata (concat (map lv_shards ls))) ->
  exists ss, combined_shards qlt ls = Ok ss /\ Forall pos_shard ss /\ Forall shard_ok ss.
Proof.
  induction ls; simpl; intros P OK N; [eauto|].
  apply Forall_app in OK as [O1 O2]. apply Forall_app in P as [P1 P2].
  rewrite sdata_app in N. apply Forall_app in N as [N1 N2].
  destruct (IHls P2 O2 N2) as (ss & E & PS & OS).
  destruct (Nat.ltb_spec 0 (lv_reccnt a)); [|eauto].
  unfold lv_combined. destruct (Nat.eqb_spec (lv_count a) 0).
  { unfold lv_count in e. unfold lv_reccnt in H. destruct (lv_shards a); [simpl in H; lia|discriminate]. }
  destruct (sfs_total qlt (lv_shards a)) as [s Es]; auto.
  { eapply Forall_impl; [|exact P1]. apply pos_nonempty. }
  simpl from_shards. rewrite Es. simpl. rewrite E. simpl. eexists. split; [reflexivity|].
  split; constructor; auto.
  - destruct (sfs_cancel qlt _ _ Es N1) as (_ & ps & CN). unfold pos_shard.
    rewrite <- (net_cancel _ _ _ CN). apply sum_pos; auto.
    unfold lv_count in n. destruct (lv_shards a); [simpl in n; congruence|discriminate].
  - eapply sfs_shard_ok; eauto.
Qed.

Variable C : cfg.
Hypothesis SF : 1 <= c_sf C.
Hypothesis LW : 1 <= c_lwm C.
Hypothesis WM : c_lwm C <= c_hwm C.

(** What create_static_structure computes. *)
Lemma static_eq : forall e st win pos tsn, einv C e st win pos tsn ->
  create_static_structure qlt e =
  do s <- (do ss <- combined_shards qlt (rev (st_levels st));
           do bs <- (if 0 <? length win then do s <- shard_of win; Ok [s] else Ok []);
           shard_from_shards qlt (ss ++ bs));
  Ok (e, s).
Proof.
  intros e st win pos tsn I. unfold create_static_structure, static_on.
  rewrite (with_epoch_eq C _ _ _ _ _ _ I). rewrite bview_count by auto.
  destruct (einv_records C SF LW WM _ _ _ _ _ I) as [_ V].
  simpl from_view. rewrite (sfv_shard_of _ _ _ V). auto.
Qed.

Lemma static_ok : forall e st win pos tsn e' s, einv C e st win pos tsn -> sinv C shard_ok st ->
  create_static_structure qlt e = Ok (e', s) ->
  e' = e /\ exists m ss, m = ss ++ match win with [] => [] | _ =>
       match shard_of win with Ok b => [b] | Fail _ => [] end end /\
    seg_steps qlt (age st) ss /\ shard_from_shards qlt m = Ok s /\ shard_ok s.
Proof.
  intros e st win pos tsn e' s I [S1 S2 S3] H. rewrite (static_eq _ _ _ _ _ I) in H.
  mon H. inv H. split; auto. mon E. mon E.
  assert (SS : seg_steps qlt (age st) a) by (apply combined_steps; auto).
  assert (EB : a0 = match win with [] => [] | _ =>
       match shard_of win with Ok b => [b] | Fail _ => [] end end).
  { destruct win; simpl in E1; [inv E1; auto|]. 
    destruct (shard_of (w :: win)); inv E1; auto. }
  exists (a ++ a0), a. rewrite EB. split; auto. split; auto. rewrite <- EB. split; auto.
  eapply sfs_shard_ok; eauto. apply Forall_app. split; [eapply (seg_steps_ok qlt); eauto|].
  rewrite EB. destruct win; auto. destruct (shard_of (w :: win)) eqn:EO; auto.
  apply shard_of_ok in EO as (_ & _ & _ & ?). auto.
Qed.

Lemma static_cancel : forall e st win pos tsn e' s ops, einv C e st win pos tsn -> sinv C shard_ok st ->
  hist qlt C ops (age st) win pos ->
  create_static_structure qlt e = Ok (e', s) ->
  Forall nodel (s_data s) /\ shard_ok s /\ exists ps, cancel_of ops (map rt (s_data s)) ps.
Proof.
  intros e st win pos tsn e' s ops I S H E.
  destruct (static_ok _ _ _ _ _ _ _ I S E) as (_ & m & ss & Em & G & F & OK).
  destruct (hist_cancel qlt C _ _ _ _ H) as (N & ps & K). apply Forall_app in N as [N1 N2].
  destruct (seg_steps_cancel qlt _ _ G N1) as (N3 & qs & K2).
  assert (KB : exists us, cancel_of (map rt win)
     (map rt (sdata (match win with [] => [] | _ =>
       match shard_of win with Ok b => [b] | Fail _ => [] end end))) us /\
     Forall nodel (sdata (match win with [] => [] | _ =>
       match shard_of win with Ok b => [b] | Fail _ => [] end end))).
  { destruct win as [|w win].
    - exists []. split; [apply cancel_of_refl|constructor].
    - destruct (shard_of_total (w :: win)) as [b Eb]. rewrite Eb.
      destruct (shard_of_cancel _ _ Eb N2) as (N4 & us & K4). exists us.
      unfold sdata. simpl. rewrite app_nil_r. auto. }
  destruct KB as (us & KB & NB).
  destruct (sfs_cancel qlt _ _ F) as (N5 & vs & K5).
  { rewrite Em, sdata_app. apply Forall_app. auto. }
  split; auto. split; auto.
  exists (ps ++ (qs ++ us) ++ vs).
  eapply cancel_of_trans; [exact K|]. eapply cancel_of_trans; [|exact K5].
  rewrite Em, sdata_app, !map_app. apply cancel_of_app; auto.
Qed.

Lemma static_total : forall e st win pos tsn ops, einv C e st win pos tsn -> sinv C shard_ok st ->
  hist qlt C ops (age st) win pos -> Forall pos_shard (age st) ->
  (win <> [] -> (0 < net (map rt win))%Z) ->
  exists s, create_static_structure qlt e = Ok (e, s).
Proof.
  intros e st win pos tsn ops I S H P W. rewrite (static_eq _ _ _ _ _ I).
  destruct (hist_cancel qlt C _ _ _ _ H) as (N & _). apply Forall_app in N as [N1 N2].
  destruct (combined_total (rev (st_levels st)) P (s_ok _ _ S) N1) as (ss & E & PS & OS).
  rewrite E. cbn [bind].
  destruct win as [|w win].
  - simpl. rewrite app_nil_r. destruct (sfs_total qlt ss) as [s ->]; auto; [|simpl; eauto].
    eapply Forall_impl; [|exact PS]. apply pos_nonempty.
  - cbn [length]. rewrite (proj2 (Nat.ltb_lt 0 (Datatypes.S (length win)))) by lia.
    destruct (shard_of_total (w :: win)) as [b Eb]. rewrite Eb. cbn [bind].
    destruct (shard_of_cancel _ _ Eb N2) as (N4 & us & K4).
    assert (PB : pos_shard b).
    { unfold pos_shard. rewrite <- (net_cancel _ _ _ K4). apply W. discriminate. }
    destruct (sfs_total qlt (ss ++ [b])) as [s ->]; [| |simpl; eauto].
    + apply Forall_app. split; [eapply Forall_impl; [|exact PS]; apply pos_nonempty|].
      constructor; auto. apply pos_nonempty. auto.
    + apply Forall_app. split; auto. constructor; auto.
      apply shard_of_ok in Eb as (_ & _ & _ & ?). auto.
Qed.

(** ** Range queries *)

Context {KO : KeyOps R} {KL : KeyLaws R}.

Variable lbf : list (wrapped R) -> Z -> res nat.
Hypothesis LB : lb_sound lbf.

Definition inr (l u : Z) (w : wrapped R) : bool := in_range l u (wrec w).

Lemma wle_key : forall a b : wrapped R, wle a b -> (rkey (wrec a) <= rkey (wrec b))%Z.
Proof.
  clear SF LW WM.
  intros a b H. destruct (rle_cases _ _ H).
  - apply rkey_mono. auto.
  - rewrite (rkey_eq _ _ H0). lia.
Qed.

Lemma filter_inr_le : forall l u d, StronglySorted wle d ->
  (forall w, In w d -> (l <= rkey (wrec w))%Z) -> take_le u d = filter (inr l u) d.
Proof.
  clear SF LW WM.
  induction 1; intros HL; simpl; auto. unfold inr at 1, in_range.
  assert (l <= rkey (wrec a))%Z by (apply HL; simpl; auto).
  rewrite (proj2 (Z.leb_le _ _) H1). simpl.
  destruct (Z.leb_spec (rkey (wrec a)) u).
  - f_equal. apply IHStronglySorted. intros. apply HL. simpl. auto.
  - symmetry. apply filter_none. intros x Hx. rewrite Forall_forall in H0.
    specialize (H0 x Hx). apply wle_key in H0. unfold inr, in_range.
    apply andb_false_iff. right. apply Z.leb_gt. lia.
Qed.

Lemma roll_take : forall l u d, StronglySorted wle d ->
  take_le u (roll l d) = filter (inr l u) d.
Proof.
  clear SF LW WM.
  induction 1; simpl; auto. unfold inr at 1, in_range.
  destruct (Z.ltb_spec (rkey (wrec a)) l).
  - rewrite (proj2 (Z.leb_gt _ _)) by lia. simpl. auto.
  - assert (K : take_le u (a :: l0) = filter (inr l u) (a :: l0)).
    { apply filter_inr_le; [constructor; auto|]. intros w [<-|Hw]; auto.
      rewrite Forall_forall in H0. specialize (H0 w Hw). apply wle_key in H0. lia. }
    rewrite K. simpl. unfold inr at 1, in_range. auto.
Qed.

Lemma slice_ok : forall l u s, shard_ok s -> nonempty s ->
  exists o, local_slice lbf l u s = Ok o /\
    match o with Some x => x | None => [] end = filter (inr l u) (s_data s) /\
    (o = None <-> (forall w, In w (s_data s) -> (rkey (wrec w) < l)%Z) /\
                   lbf (s_data s) l = Ok (length (s_data s))).
Proof.
  clear SF LW WM.
  intros l u s (O1 & _ & O3) NE. unfold local_slice.
  destruct (LB (s_data s) l NE O3) as (i & -> & L & K). simpl. rewrite O1.
  destruct (Nat.eqb_spec i (length (s_data s))).
  - eexists. split; [reflexivity|]. rewrite e, firstn_all in K. split.
    + symmetry. apply filter_none. intros w Hw. apply K in Hw. unfold inr, in_range.
      apply andb_false_iff. left. apply Z.leb_gt. lia.
    + subst. tauto.
  - destruct (Nat.leb_spec (length (s_data s)) i); [lia|].
    eexists. split; [reflexivity|]. split.
    + rewrite roll_take.
      * rewrite <- (firstn_skipn i (s_data s)) at 2. rewrite filter_app.
        rewrite (filter_none _ (firstn i (s_data s))); auto.
        intros w Hw. apply K in Hw. unfold inr, in_range.
        apply andb_false_iff. left. apply Z.leb_gt. lia.
      * rewrite <- (firstn_skipn i (s_data s)) in O3. apply StronglySorted_app_inv in O3. tauto.
    + split; [discriminate|]. intros [_ Q]. inv Q. lia.
Qed.

Lemma rq_local_ok : forall l u s, shard_ok s -> nonempty s ->
  rq_local lbf l u s = Ok (filter (inr l u) (s_data s)).
Proof.
  clear SF LW WM.
  intros. destruct (slice_ok l u s H H0) as (o & E & F & _). unfold rq_local. rewrite E. simpl.
  rewrite F. auto.
Qed.

Lemma rq_fold : forall l (out : list R),
  fold_left (fun x w => rq_act w x) l out = rev (map wrec (filter (fun w => negb (is_ts w)) l)) ++ out.
Proof.
  induction l; simpl; intros; auto. rewrite IHl. unfold rq_act.
  destruct (is_ts a); simpl; auto. rewrite <- app_assoc. auto.
Qed.

(** Output of the combine step. *)
Lemma rq_combine_ok : forall rs, exists evs, mrun qlt (rev rs) evs /\
  rq_combine qlt rs = Ok (map wrec (filter (fun w => negb (is_ts w)) (emits evs))).
Proof.
  clear SF LW WM.
  intros. unfold rq_combine.
  destruct (merge_loop_run qlt rq_act (S (length (concat (rev rs)))) (rev rs) (heads_from 0 (rev rs)) []
              (heads_qok (rev rs)) (Nat.lt_succ_diag_r _)) as (evs & M & EQ).
  exists evs. split; auto.
  destruct (Nat.eqb_spec (length (concat (rev rs))) 0).
  - pose proof (emits_len _ _ _ M). destruct (emits evs); [auto|simpl in H; lia].
  - rewrite EQ. simpl. rewrite rq_fold, app_nil_r, rev_involutive. auto.
Qed.

(** A range query on non-empty shards does not fault and merges the in-range
    records of the buffer and of every shard. *)
Lemma rq_on_ok : forall st d v win l u, Forall shard_ok (age st) -> Forall nonempty (age st) ->
  v_records d v = Ok win ->
  exists evs, mrun qlt (rev (filter (inr l u) win ::
                         map (fun s => filter (inr l u) (s_data s)) (query_shards st))) evs /\
    rq_on qlt lbf l u st d v = Ok (map wrec (filter (fun w => negb (is_ts w)) (emits evs))).
Proof.
  intros st d v win l u S NE V. unfold rq_on, rq_local_buffer. rewrite V. cbn [bind].
  rewrite (map_res_total _ (fun s => filter (inr l u) (s_data s))).
  - cbn [bind]. change (fun w => in_range l u (wrec w)) with (inr l u).
    destruct (rq_combine_ok (filter (inr l u) win ::
       map (fun s => filter (inr l u) (s_data s)) (query_shards st))) as (evs & M & E).
    exists evs. split; auto.
  - intros s Hs. assert (HA : In s (age st)) by (apply (Permutation_in _ (query_shards_perm st)); auto).
    apply rq_local_ok.
    + rewrite Forall_forall in S. auto.
    + rewrite Forall_forall in NE. auto.
Qed.

Lemma range_query_ok : forall e st win pos tsn l u, einv C e st win pos tsn -> Forall shard_ok (age st) ->
  Forall nonempty (age st) ->
  exists evs, mrun qlt (rev (filter (inr l u) win ::
                         map (fun s => filter (inr l u) (s_data s)) (query_shards st))) evs /\
    range_query qlt lbf e l u = Ok (e, map wrec (filter (fun w => negb (is_ts w)) (emits evs))).
Proof.
  intros e st win pos tsn l u I S NE. unfold range_query.
  rewrite (with_epoch_eq C _ _ _ _ _ _ I).
  destruct (einv_records C SF LW WM _ _ _ _ _ I) as [V _].
  destruct (rq_on_ok st _ _ win l u S NE V) as (evs & M & E). exists evs. split; auto. rewrite E. auto.
Qed.

Lemma filter_concat_map : forall {B} (f : B -> list (wrapped R)) p (xs : list B),
  concat (map (fun x => filter p (f x)) xs) = filter p (concat (map f xs)).
Proof. induction xs; simpl; auto. rewrite filter_app, IHxs. auto. Qed.

Lemma concat_perm : forall (a b : list (list (wrapped R))), Permutation a b -> Permutation (concat a) (concat b).
Proof.
  induction 1; simpl; auto.
  - apply Permutation_app_head. auto.
  - rewrite !app_assoc. apply Permutation_app_tail. apply Permutation_app_comm.
  - eapply Permutation_trans; eauto.
Qed.

(** The merged records are the in-range stored records. *)
Lemma range_inputs : forall (st : structure R) win l u,
  Permutation (concat (rev (filter (inr l u) win ::
                map (fun s => filter (inr l u) (s_data s)) (query_shards st))))
              (filter (inr l u) (sdata (age st) ++ win)).
Proof.
  intros. rewrite <- (concat_perm _ _ (Permutation_rev _)). simpl.
  rewrite filter_app, filter_concat_map. rewrite Permutation_app_comm.
  apply Permutation_app_tail. apply Permutation_filter.
  unfold sdata. apply concat_perm. apply Permutation_map. apply query_shards_perm.
Qed.

End QP.

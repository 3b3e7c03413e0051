(** Reconstructions with any number of tombstones: whatever they and the reads after them
    return comes from what was flushed. *)
From Coq Require Import List Arith ZArith NArith Lia Bool Permutation.
From Verif Require Import Base ListLemmas RecordModel RecordProofs BufferModel BufferProofs
  MergeModel MergeProofs StructModel ExtModel QueryModel StructProofs StructTotal SortedProofs ExtProofs ContentProofs
  Spec QueryProofs SerialProofs ExecProofs LevelProofs SizeProofs CountProofs BsmProofs FlushModel FlushSpec FlushProofs.
Import ListNotations.

Section FA.
Context {R : Type} {RO : RecOps R} {RL : RecLaws R}.
Variable qlt : qorder R.
Context {QO : QOrder qlt}.
Variable C : cfg.
Hypothesis V : valid_cfg C.

Local Lemma SF' : 1 <= c_sf C. Proof. destruct V as (? & ? & ? & ?). auto. Qed.
Local Arguments set_nth : simpl never.
Local Arguments nth_error : simpl never.

(** ** Parts *)

Lemma part_refl : forall a : list (wrapped R), part_of a a.
Proof. intros. exists []. rewrite app_nil_r. auto. Qed.

Lemma part_trans : forall a b c : list (wrapped R), part_of a b -> part_of b c -> part_of a c.
Proof.
  intros a b c [x X] [y Y]. exists (x ++ y). rewrite Y, X, <- app_assoc. auto.
Qed.

Lemma part_app : forall a b x y : list (wrapped R), part_of a b -> part_of x y -> part_of (a ++ x) (b ++ y).
Proof.
  intros a b x y [p P] [q Q]. exists (p ++ q). rewrite !map_app, P, Q, <- !app_assoc. apply Permutation_app_head.
  rewrite !app_assoc. apply Permutation_app_tail. apply Permutation_app_comm.
Qed.

Lemma part_nil : forall a : list (wrapped R), part_of [] a.
Proof. intros. exists (map rt a). auto. Qed.

Lemma part_left : forall a b : list (wrapped R), part_of a (a ++ b).
Proof. intros. exists (map rt b). rewrite map_app. auto. Qed.

Lemma part_perm : forall a b : list (wrapped R), Permutation a b -> part_of a b.
Proof. intros a b P. exists []. rewrite app_nil_r. apply Permutation_map. symmetry. auto. Qed.

Lemma part_rt : forall a b : list (wrapped R), map rt a = map rt b -> part_of a b.
Proof. intros a b P. exists []. rewrite app_nil_r. change (Permutation (map rt b) (map rt a)). rewrite P. auto. Qed.

Lemma part_filter : forall q (a : list (wrapped R)), part_of (filter q a) a.
Proof.
  intros q a. eapply part_trans; [apply (part_left _ (filter (fun w => negb (q w)) a))|]. apply part_perm.
  induction a as [|w a IH]; simpl; auto. destruct (q w); simpl; auto. rewrite <- Permutation_middle. auto.
Qed.

Lemma part_length : forall a b : list (wrapped R), part_of a b -> length a <= length b.
Proof.
  intros a b [x P]. apply Permutation_length in P. rewrite app_length, !map_length in P. lia.
Qed.

Lemma part_in : forall (a b : list (wrapped R)) w, part_of a b -> In w a ->
  exists w', In w' b /\ wrec w' = wrec w /\ is_ts w' = is_ts w.
Proof.
  intros a b w [x P] I. assert (J : In (rt w) (map rt b)).
  { apply (Permutation_in _ (Permutation_sym P)). apply in_or_app. left. apply in_map. auto. }
  apply in_map_iff in J as (w' & E & J). exists w'. unfold rt in E. inv E. auto.
Qed.

Lemma part_sfv : forall d v l s, v_copy d v = Ok l -> shard_from_view d v = Ok s -> part_of (s_data s) l.
Proof.
  intros d v l s VC H. apply sfv_ok in H as (l' & evs & E & CR & -> & _).
  rewrite VC in E. inv E. eapply part_trans; [apply part_rt; rewrite map_map; apply map_ext; apply rt_mask3|].
  eapply part_trans; [apply part_filter|]. eapply part_trans; [apply part_left|].
  apply part_perm. rewrite <- (crun_perm _ _ CR). symmetry. apply wsort_perm.
Qed.

Lemma part_sfs : forall m s, shard_from_shards qlt m = Ok s -> part_of (s_data s) (sdata m).
Proof.
  intros m s H. destruct (sfs_ok qlt m s H) as (_ & evs & M & -> & _).
  eapply part_trans; [apply part_filter|]. eapply part_trans; [apply part_left|].
  apply part_perm. symmetry. apply (mrun_perm _ _ _ M).
Qed.

Lemma part_seg : forall a b, seg_steps qlt a b -> part_of (sdata b) (sdata a).
Proof.
  induction 1 as [|a b c H _ IH]; [apply part_refl|]. eapply part_trans; [exact IH|]. inv H.
  - change (s :: b0) with ([s] ++ b0). rewrite !sdata_app. apply part_app; [apply part_refl|].
    apply part_app; [|apply part_refl]. rewrite sdata1. apply part_sfs. auto.
  - rewrite !sdata_app. apply part_app; [apply part_refl|]. apply (part_app []); [apply part_nil|apply part_refl].
Qed.

(** ** One flush of a Bentley-Saxe structure *)

Lemma part_age : forall (a b : structure R) x, part_of (concat (map sdata (lvs a))) (concat (map sdata (lvs b)) ++ x) ->
  part_of (sdata (age a)) (sdata (age b) ++ x).
Proof.
  intros a b x H. eapply part_trans; [apply part_perm; apply age_lvs|]. eapply part_trans; [exact H|].
  apply part_perm. apply Permutation_app_tail. symmetry. apply age_lvs.
Qed.

Lemma part_flush_bsm : forall (st : structure R) d v st' l, c_layout C = BSM -> shape C st ->
  flush_buffer qlt C st d v = Ok st' -> v_copy d v = Ok l -> part_of (sdata (age st')) (sdata (age st) ++ l).
Proof.
  intros st d v st' l LY SH H VL.
  destruct (flush_w qlt C V LY _ _ _ _ SH H) as (l0 & s & F1 & F2 & F3 & F4 & F5).
  pose proof (part_sfv _ _ _ _ VL F3) as PS. apply part_age.
  destruct (set0_pad _ _ F1 (l0 ++ [s])) as (rest & E1 & E2).
  assert (EQ : concat (map sdata (lvs st)) = sdata l0 ++ concat (map sdata rest)).
  { unfold pad in E1. destruct (Nat.leb_spec (length (lvs st)) 0).
    - destruct (lvs st); [|simpl in *; lia]. simpl in E1. inv E1. auto.
    - rewrite E1. auto. }
  rewrite EQ. destruct F5 as [->| ->]; rewrite ?E2, ?E1; cbn [map concat].
  - rewrite sdata_app, sdata1, <- !app_assoc. apply part_app; [apply part_refl|].
    eapply part_trans; [apply part_perm; apply Permutation_app_comm|]. apply part_app; [apply part_refl|auto].
  - apply part_left.
Qed.

Lemma part_step_bsm : forall (st : structure R) d v st' l, c_layout C = BSM -> shape C (st_copy st) ->
  Forall shard_ok (age st) -> reconstruct_struct qlt C (st_copy st) d v = Ok st' -> v_copy d v = Ok l ->
  part_of (sdata (age st')) (sdata (age st) ++ l).
Proof.
  intros st0 d v st' l LY SH OK H VL. rewrite <- (copy_age st0). rewrite <- copy_age in OK.
  revert SH OK H. generalize (st_copy st0). clear st0. intros st SH OK H.
  unfold reconstruct_struct in H. mon H. destruct a as [x ts]. mon H. rename a into st1.
  apply (get_tasks_spec C SF') in E as [(-> & D)|(D & b & T & ET)]; auto.
  - assert (st1 = st) by (unfold exec_tasks in E0; rewrite LY in E0; inv E0; auto). subst st1.
    eapply part_flush_bsm; eauto.
  - rewrite LY in ET. destruct ET as [c ->]. unfold exec_tasks in E0. rewrite LY in E0.
    pose proof (bsm_src C SF' st b _ SH LY T D) as NM.
    destruct (reconstruct_bsm_ok qlt C SF' _ _ _ _ SH LY OK T NM E0) as (S1 & SS & _).
    eapply part_trans; [eapply part_flush_bsm; eauto|]. apply part_app; [|apply part_refl]. apply part_seg. auto.
Qed.

(** ** All flushes *)

Definition ainv (st : structure R) : Prop :=
  match c_layout C with BSM => exists n k, winv C n k st | _ => sinv C shard_ok st end.

Lemma winv_more : forall n m k (st : structure R), n <= m -> winv C n k st -> winv C m k st.
Proof.
  intros n m k st L [W1 W2 W3 W4 W5]. constructor; auto. intros i ss H. specialize (W4 _ _ H).
  pose proof (Nat.mul_le_mono_r n m (bw i) L). lia.
Qed.

Lemma ainv_ok : forall st, ainv st -> Forall shard_ok (age st).
Proof. intros st A. unfold ainv in A. destruct (c_layout C); try apply A. destruct A as (n & k & W). apply W. Qed.

Lemma ainv_empty : ainv st_empty.
Proof.
  unfold ainv. destruct (c_layout C) eqn:LY; try apply empty_sinv. exists 0, 0. constructor; simpl; auto; try lia.
  - apply (s_shape (ok := shard_ok) _ _ (empty_sinv C)).
  - constructor.
  - intros i ss H. destruct i; discriminate.
Qed.

Lemma copy_shown : forall d v (ws : list (wrapped R)), shows (d, v) ws -> v_copy d v = Ok ws.
Proof.
  intros d v ws SH. destruct (shows_ok d v ws SH) as (VO & VC & VR).
  rewrite (v_copy_ok d v VO). rewrite (v_records_ok d v VO) in VR. auto.
Qed.

Lemma ainv_step : forall st d v ws st', ainv st -> shows (d, v) ws ->
  reconstruct_struct qlt C (st_copy st) d v = Ok st' -> ainv st' /\ part_of (sdata (age st')) (sdata (age st) ++ ws).
Proof.
  intros st d v ws st' A SH H. destruct (shows_ok d v ws SH) as (VO & VC & VR). pose proof (ainv_ok _ A) as OK.
  pose proof (copy_shown _ _ _ SH) as CV.
  assert (D : c_layout C = BSM \/ c_layout C <> BSM) by (destruct (c_layout C); auto; right; discriminate).
  destruct D as [LY|NB].
  - unfold ainv in *. rewrite LY in *. destruct A as (n & k & W).
    destruct (winv_step qlt C V LY st d v st' (max n (v_count v)) k) as [W1 _]; auto; try lia.
    { eapply winv_more; [|exact W]. lia. }
    split; [eauto|]. eapply part_step_bsm; eauto. apply W.
  - assert (S : sinv C shard_ok st) by (unfold ainv in A; destruct (c_layout C); [exact A|exact A|congruence]).
    destruct (flush_step qlt C V st d v ws st' S) as (S1 & s & B & G); auto; [congruence|].
    split; [unfold ainv; destruct (c_layout C); [exact S1|exact S1|congruence]|].
    eapply part_trans; [apply part_seg; exact G|]. rewrite sdata_app, sdata1. apply part_app; [apply part_refl|].
    rewrite <- (view_built qlt _ _ _ VO VR) in B. eapply part_sfv; eauto.
Qed.

Lemma flush_all_any : forall bs runs st st', Forall2 shows bs runs -> ainv st -> flush_all qlt C st bs = Ok st' ->
  ainv st' /\ part_of (sdata (age st')) (sdata (age st) ++ concat runs).
Proof.
  intros bs runs st st' F. revert st. induction F as [|x ws bs runs X F IHF]; intros st A H.
  - inv H. split; auto. apply part_left.
  - destruct x as [d v]. cbn [flush_all] in H. mon H. destruct (ainv_step _ _ _ _ _ A X E) as [A1 P1].
    destruct (IHF _ A1 H) as [A2 P2]. split; auto. eapply part_trans; [exact P2|]. cbn [concat].
    rewrite app_assoc. apply part_app; [auto|apply part_refl].
Qed.

Theorem flushes_part : forall bs runs st, Forall2 shows bs runs -> flush_all qlt C st_empty bs = Ok st ->
  part_of (st_records st) (concat runs).
Proof.
  intros bs runs st F H. destruct (flush_all_any _ _ _ _ F ainv_empty H) as [_ P].
  eapply part_trans; [apply part_perm; apply st_records_perm|exact P].
Qed.

Lemma flushes_age : forall bs runs st, Forall2 shows bs runs -> flush_all qlt C st_empty bs = Ok st ->
  part_of (sdata (age st)) (concat runs) /\ Forall shard_ok (age st).
Proof.
  intros bs runs st F H. destruct (flush_all_any _ _ _ _ F ainv_empty H) as [A P]. split; auto. apply ainv_ok. auto.
Qed.

Theorem flushes_sorted_any : forall bs runs st ls d, Forall2 shows bs runs -> flush_all qlt C st_empty bs = Ok st ->
  In ls (st_runs st) -> In d ls -> sorted d.
Proof.
  intros bs runs st ls d F H I1 I2. destruct (flushes_age _ _ _ F H) as [_ O].
  unfold st_runs in I1. apply in_map_iff in I1 as (l & <- & Hl). apply in_map_iff in I2 as (s & <- & Hs).
  assert (HA : In s (age st)).
  { apply (Permutation_in _ (query_shards_perm st)). unfold query_shards. apply in_concat.
    exists (lv_shards l). split; auto. apply in_map. auto. }
  rewrite Forall_forall in O. destruct (O s HA) as (_ & _ & SS). exact SS.
Qed.

Theorem flushes_count_any : forall bs runs st d v win, Forall2 shows bs runs -> flush_all qlt C st_empty bs = Ok st ->
  shows (d, v) win -> v_count v + st_reccnt st <= length (concat runs ++ win).
Proof.
  intros bs runs st d v win F H W. destruct (flushes_age _ _ _ F H) as [P O].
  destruct (shows_ok _ _ _ W) as (_ & -> & _). rewrite (st_reccnt_len _ O), app_length.
  apply part_length in P. lia.
Qed.

Theorem flushes_static_any : forall bs runs st d v win s, Forall2 shows bs runs -> flush_all qlt C st_empty bs = Ok st ->
  shows (d, v) win -> static_on qlt st d v = Ok s -> part_of (s_data s) (concat runs ++ win) /\ sorted (s_data s).
Proof.
  intros bs runs st d v win s F H W E. destruct (flushes_age _ _ _ F H) as [P O].
  pose proof (copy_shown _ _ _ W) as CV. unfold static_on in E. mon E. mon E.
  pose proof (combined_steps qlt _ _ E0 O) as G. apply part_seg in G. split.
  - apply part_sfs in E. eapply part_trans; [exact E|]. rewrite sdata_app. apply part_app.
    + eapply part_trans; [exact G|exact P].
    + destruct (0 <? v_count v); [|inv E1; apply part_nil]. mon E1. inv E1. rewrite sdata1. eapply part_sfv; eauto.
  - assert (SO : shard_ok s).
    { apply (shards_ok (B := sorted_shards qlt) (ok := shard_ok) _ _ E). apply Forall_app. split.
      - apply (seg_steps_ok qlt _ _ (combined_steps qlt _ _ E0 O) O).
      - destruct (0 <? v_count v); [|inv E1; constructor]. mon E1. inv E1. constructor; auto.
        destruct (shows_ok _ _ _ W) as (VO & _ & VR). rewrite (view_built qlt _ _ _ VO VR) in E2.
        exact (proj1 (built_ok qlt _ _ E2)). }
    destruct SO as (_ & _ & SS). exact SS.
Qed.

(** ** Queries *)

Context {KO : KeyOps R} {KL : KeyLaws R}.
Variable lbf : list (wrapped R) -> Z -> res nat.
Hypothesis LB : lb_sound lbf.

Definition plain_in (l u : Z) (ws : list (wrapped R)) : list R :=
  filter (key_in l u) (map wrec (filter (fun w => negb (is_ts w)) ws)).

Lemma plain_in_part : forall l u (a b : list (wrapped R)), part_of a b ->
  exists rest, Permutation (plain_in l u b) (plain_in l u a ++ rest).
Proof.
  intros l u a b [x P].
  assert (E : forall ws : list (wrapped R), plain_in l u ws = filter (key_in l u) (map fst (filter (fun p => negb (snd p)) (map rt ws)))).
  { intros ws. unfold plain_in. f_equal. induction ws as [|w ws IH]; simpl; auto. destruct (is_ts w); simpl; congruence. }
  exists (filter (key_in l u) (map fst (filter (fun p => negb (snd p)) x))).
  rewrite !E, <- filter_app, <- map_app, <- filter_app. apply Permutation_filter. apply Permutation_map.
  apply Permutation_filter. exact P.
Qed.

Theorem flushes_range_any : forall bs runs st d v win l u out, Forall2 shows bs runs ->
  flush_all qlt C st_empty bs = Ok st -> shows (d, v) win -> rq_on qlt lbf l u st d v = Ok out ->
  exists rest, Permutation (filter (key_in l u) (map wrec (filter (fun w => negb (is_ts w)) (concat runs ++ win))))
    (out ++ rest).
Proof.
  intros bs runs st d v win l u out F H W Q. destruct (flushes_age _ _ _ F H) as [P O].
  destruct (shows_ok _ _ _ W) as (_ & _ & VR).
  destruct (rq_on_run qlt lbf LB _ _ _ _ _ _ _ O VR Q) as (evs & M & ->).
  pose proof (Permutation_trans (Permutation_sym (mrun_perm qlt _ _ M)) (range_inputs st win l u)) as PI.
  destruct (plain_in_part l u _ _ (part_app _ _ _ _ P (part_refl win))) as (x & X). unfold plain_in at 1 in X.
  assert (Y : Permutation (plain_in l u (sdata (age st) ++ win))
    (map wrec (filter (fun w => negb (is_ts w)) (filter (inr l u) (sdata (age st) ++ win))))).
  { unfold plain_in. clear. generalize (sdata (age st) ++ win). intros ws.
    induction ws as [|w ws IH]; auto. cbn [filter].
    assert (K : inr l u w = key_in l u (wrec w)) by reflexivity. rewrite K.
    destruct (is_ts w) eqn:T; cbn [negb].
    - destruct (key_in l u (wrec w)); cbn [filter]; rewrite ?T; auto.
    - cbn [map filter]. destruct (key_in l u (wrec w)); cbn [filter]; rewrite ?T; cbn [map negb]; auto. }
  pose proof (Permutation_map wrec (Permutation_filter (fun w => negb (is_ts w)) _ _ PI)) as PJ.
  rewrite <- PJ, filter_app, map_app in Y. eexists. rewrite X, Y, <- app_assoc. apply Permutation_app_head. reflexivity.
Qed.

Theorem flushes_range_count_any : forall bs runs st d v win l u n, Forall2 shows bs runs ->
  flush_all qlt C st_empty bs = Ok st -> shows (d, v) win -> rc_on lbf l u st d v = Ok n ->
  n <= length (filter (key_in l u) (map wrec (filter (fun w => negb (is_ts w)) (concat runs ++ win)))).
Proof.
  intros bs runs st d v win l u n F H W Q. destruct (flushes_age _ _ _ F H) as [P O].
  destruct (shows_ok _ _ _ W) as (_ & _ & VR).
  unfold rc_on, rc_local_buffer in Q. rewrite VR in Q. cbn [bind] in Q. mon Q.
  assert (EA : a = map (fun x => [rc_count (filter (inr l u) x)]) (map s_data (query_shards st))).
  { pose proof (rc_combine_inv _ _ Q) as NE. inv NE. apply map_res_ok in E.
    assert (OQ : Forall shard_ok (query_shards st)) by (rewrite (query_shards_perm st); auto).
    clear -E OQ H3 LB KL RL. revert OQ. induction E; intros OQ; simpl; auto. inv OQ. inv H3.
    f_equal; auto. destruct (rc_local_inv lbf LB _ _ _ _ H2 H) as [(X & _)|X]; auto. congruence. }
  rewrite EA in Q.
  change ([rc_count (filter (fun w => in_range l u (wrec w)) win)] ::
    map (fun x => [rc_count (filter (inr l u) x)]) (map s_data (query_shards st)))
    with (map (fun x => [rc_count (filter (inr l u) x)]) (win :: map s_data (query_shards st))) in Q.
  rewrite rc_value in Q. inv Q.
  rewrite (countb_perm _ _ _ (concat_query st win)). unfold TagContent.cont.
  destruct (plain_in_part l u _ _ (part_app _ _ _ _ P (part_refl win))) as (x & X).
  apply Permutation_length in X. rewrite app_length in X. unfold plain_in at 1 in X. rewrite X.
  enough (K : forall ws : list (wrapped R), countb (fun w => rcp l u w && negb (is_ts w)) ws <= length (plain_in l u ws)).
  { specialize (K (sdata (age st) ++ win)). lia. }
  clear. intros ws. unfold plain_in. induction ws as [|w ws IH]; auto. cbn [countb filter].
  assert (K : rcp l u w = true -> key_in l u (wrec w) = true).
  { unfold rcp. intros K. apply andb_true_iff in K as [K1 K2]. auto. }
  destruct (is_ts w); cbn [negb]; [rewrite andb_false_r; auto|]. rewrite andb_true_r. cbn [map filter].
  destruct (rcp l u w); [rewrite K by auto; cbn [length]; lia|]. destruct (key_in l u (wrec w)); cbn [length]; lia.
Qed.

Variable hit : R -> bool.
Variable plf : list (wrapped R) -> res (option (wrapped R)).
Hypothesis PL : pl_sound hit plf.
Hypothesis PE : forall w, plf [] <> Ok (Some w).

Theorem flushes_lookup_any : forall bs runs st d v win out, Forall2 shows bs runs ->
  flush_all qlt C st_empty bs = Ok st -> shows (d, v) win -> pl_on hit plf st d v = Ok out ->
  length out <= 1 /\
  forall x, In x out -> hit x = true /\ In x (map wrec (filter (fun w => negb (is_ts w)) (concat runs ++ win))).
Proof.
  intros bs runs st d v win out F H W Q. destruct (flushes_age _ _ _ F H) as [P O].
  destruct (shows_ok _ _ _ W) as (_ & _ & VR).
  unfold pl_on, pl_local_buffer in Q. rewrite VR in Q. cbn [bind] in Q.
  assert (OQ : Forall shard_ok (query_shards st)) by (rewrite (query_shards_perm st); auto).
  assert (G : forall w, hit (wrec w) = true -> In w (sdata (age st) ++ win) -> out = pl_combine [[w]] ->
    length out <= 1 /\ forall x, In x out -> hit x = true /\ In x (map wrec (filter (fun w => negb (is_ts w)) (concat runs ++ win)))).
  { intros w HW I ->. cbn [pl_combine]. destruct (is_del w || is_ts w) eqn:D; [split; [cbn; lia|intros x []]|].
    apply orb_false_iff in D as [_ D]. split; [cbn; lia|]. intros x [<-|[]]. split; auto.
    destruct (part_in _ _ _ (part_app _ _ _ _ P (part_refl win)) I) as (w' & I' & <- & T).
    apply in_map. apply filter_In. split; auto. rewrite T, D. auto. }
  destruct (filter (fun w => hit (wrec w)) win) as [|w ws] eqn:EF.
  - mon Q. inv Q. revert G.
    assert (K : forall w, In w (sdata (query_shards st)) -> In w (sdata (age st) ++ win)).
    { intros w I. apply in_or_app. left. revert I. apply Permutation_in. unfold sdata. apply concat_perm.
      apply Permutation_map. apply query_shards_perm. }
    revert a E K OQ. generalize (query_shards st). induction l as [|s ss IH]; intros a E K OQ G.
    + inv E. split; [cbn; lia|intros x []].
    + cbn [pl_results] in E. unfold pl_local in E. mon E. mon E0. inv E0. inv OQ. destruct a1 as [w|].
      * inv E. apply (G w); auto.
        { destruct (s_data s) eqn:ED; [exfalso; eapply PE; eauto|]. rewrite <- ED in *.
          pose proof (PL (s_data s)) as X. rewrite E1 in X. apply X; [congruence|]. destruct H2 as (_ & _ & SS). exact SS. }
        { apply K. unfold sdata. cbn. apply in_or_app. left.
          destruct (s_data s) eqn:ED; [exfalso; eapply PE; eauto|]. rewrite <- ED in *.
          pose proof (PL (s_data s)) as X. rewrite E1 in X. apply X; [congruence|]. destruct H2 as (_ & _ & SS). exact SS. }
      * mon E. inv E. cbn [pl_combine] in *. eapply IH; eauto. intros w I. apply K. unfold sdata. cbn. apply in_or_app. auto.
  - inv Q. apply (G w); auto.
    + assert (I : In w (filter (fun w => hit (wrec w)) win)) by (rewrite EF; left; auto). apply filter_In in I. apply I.
    + apply in_or_app. right. assert (I : In w (filter (fun w => hit (wrec w)) win)) by (rewrite EF; left; auto).
      apply filter_In in I. apply I.
Qed.

End FA.

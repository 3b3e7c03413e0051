(** Indexes with deletes by tagging over any kind of shards whose constructors drop the
    tagged records only: VPTree, FSTrie and LoudsPatricia. *)
From Coq Require Import List Arith ZArith NArith Lia Bool Permutation Sorted.
From Verif Require Import Base ListLemmas RecordModel RecordProofs BufferModel BufferProofs
  MergeModel MergeProofs StructModel ExtModel StructProofs StructTotal SortedProofs ExtProofs ContentProofs
  TagProofs ExecProofs TagContent CountProofs QueryModel Spec QueryProofs SerialProofs LevelProofs SizeProofs KindModel KindSpec KindProofs.
Import ListNotations.

Class TagLaws {R : Type} {RO : RecOps R} (BD : builders R) (ok : shard R -> Prop)
  (adm : wrapped R -> Prop) : Prop := {
  tag_built : forall l s, built BD l = Ok s -> Forall adm l ->
    Forall adm (s_data s) /\ Permutation (map bare (filter keep l)) (map bare (s_data s));
  tag_merge : forall ss s, from_shards BD ss = Ok s -> Forall ok ss -> Forall adm (sdata ss) ->
    Forall adm (s_data s) /\ Permutation (map bare (filter keep (sdata ss))) (map bare (s_data s));
  tag_ok : forall s i w, ok s -> nth_error (s_data s) i = Some w -> ok (tagged_at s i w);
  tag_adm : forall w, adm w -> adm (set_delete w);
  tag_plain : forall w, adm w -> is_ts w = false
}.

Section KT.
Context {R : Type} {RO : RecOps R} {RL : RecLaws R}.
Variable BD : builders R.
Variable C : cfg.
Context {ok : shard R -> Prop} {SL : ShardLaws BD ok}.
Context {adm : wrapped R -> Prop} {TL : TagLaws BD ok adm}.
Hypothesis V : valid_cfg C.
Hypothesis TG : c_del C = TAGGING.

Local Lemma TLW : 1 <= c_lwm C. Proof. destruct V as (? & ? & ? & ?). auto. Qed.
Local Lemma TWM : c_lwm C <= c_hwm C. Proof. destruct V as (? & ? & ? & ?). auto. Qed.
Local Lemma TSF : 1 <= c_sf C. Proof. destruct V as (? & ? & ? & ?). auto. Qed.
Local Lemma TB2 : c_layout C = BSM -> c_sf C = 2. Proof. destruct V as (? & ? & ? & ?). auto. Qed.
Local Hint Resolve TLW TWM TSF TB2 : core.
Local Arguments set_nth : simpl never.

Local Lemma sdata_one : forall s : shard R, sdata [s] = s_data s.
Proof. intros. unfold sdata. simpl. apply app_nil_r. Qed.

(** ** What reconstructions drop *)

Lemma bsheds_refl : forall a : list (R * bool * bool), bsheds a a.
Proof. intros. exists []. rewrite app_nil_r. auto. Qed.
Lemma bsheds_trans : forall a b c : list (R * bool * bool), bsheds a b -> bsheds b c -> bsheds a c.
Proof.
  intros a b c (x & P & F) (y & Q & G). exists (y ++ x). split; [|apply Forall_app; auto].
  rewrite P, Q, <- app_assoc. auto.
Qed.
Lemma bsheds_mid : forall a m m' b : list (R * bool * bool), bsheds m m' -> bsheds (a ++ m ++ b) (a ++ m' ++ b).
Proof.
  intros a m m' b (x & P & F). exists x. split; auto.
  rewrite P. rewrite <- !app_assoc. do 2 apply Permutation_app_head. apply Permutation_app_comm.
Qed.
Lemma bsheds_keep : forall l l' : list (wrapped R), Permutation (map bare (filter keep l)) (map bare l') ->
  bsheds (map bare l) (map bare l').
Proof.
  intros l l' P. destruct (filter_sheds l) as (x & Q & F). exists (map bare x). split.
  - rewrite <- P, <- map_app. apply Permutation_map. auto.
  - apply Forall_map. auto.
Qed.

Lemma bare_in : forall (l l' : list (wrapped R)) w, Permutation (map bare (filter keep l)) (map bare l') ->
  In w l -> keep w = true -> exists w', In w' l' /\ keep w' = true /\ wrec w' = wrec w.
Proof.
  intros l l' w P H K. assert (H1 : In (bare w) (map bare l')).
  { apply (Permutation_in _ P). apply in_map. apply filter_In. auto. }
  apply in_map_iff in H1 as (w' & E & Hw'). exists w'. split; auto. unfold bare in E.
  injection E as E1 E2 E3. unfold keep in *. rewrite E3. auto.
Qed.

Definition shed (full : list (op R)) (a b : list (shard R)) : Prop :=
  Forall ok b /\ Forall adm (sdata b) /\ bsheds (map bare (sdata a)) (map bare (sdata b)) /\
  (Forall (kept_shard full) a -> Forall (kept_shard full) b).

Lemma merge_shed : forall full m s, from_shards BD m = Ok s -> m <> [] -> Forall ok m -> Forall adm (sdata m) ->
  shed full m [s].
Proof.
  intros full m s H NZ O A. destruct (tag_merge _ _ H O A) as [A' P]. unfold shed. rewrite sdata_one.
  split; [constructor; auto; eapply shards_ok; eauto|]. split; auto. split; [apply bsheds_keep; auto|].
  intros K. constructor; auto. destruct m as [|s0 m]; [congruence|]. inv K.
  destruct H2 as (w & H4 & H5 & H6).
  destruct (bare_in _ _ w P) as (w' & W1 & W2 & W3); auto.
  { unfold sdata. simpl. apply in_app_iff. auto. }
  exists w'. rewrite W3. auto.
Qed.

Lemma seg_steps_shed : forall full a b, seg_steps BD a b -> Forall ok a -> Forall adm (sdata a) -> shed full a b.
Proof.
  intros full. induction 1; intros O A; [repeat split; auto; apply bsheds_refl|].
  assert (K : shed full a b).
  { inv H; rewrite !sdata_app in A; apply Forall_app in A as [A1 A2]; apply Forall_app in A2 as [A2 A3];
      apply Forall_app in O as [O1 O2]; apply Forall_app in O2 as [O2 O3].
    - destruct (merge_shed full m s) as (M1 & M2 & M3 & M4); auto.
      change (s :: b0) with ([s] ++ b0). unfold shed. rewrite !sdata_app, !map_app.
      split; [repeat (apply Forall_app; split; auto)|].
      split; [repeat (apply Forall_app; split; auto)|].
      split; [apply bsheds_mid; auto|].
      rewrite !Forall_app. tauto.
    - unfold shed. rewrite !sdata_app, !map_app. rewrite (sdata_nil m) by auto. simpl.
      split; [repeat (apply Forall_app; split; auto)|].
      split; [repeat (apply Forall_app; split; auto)|].
      split; [apply bsheds_refl|]. rewrite !Forall_app. tauto. }
  destruct K as (K1 & K2 & K3 & K4). destruct (IHseg_steps K1 K2) as (J1 & J2 & J3 & J4).
  repeat split; auto. eapply bsheds_trans; eauto.
Qed.

(** ** Executions *)

(** Every record that may be inserted is admissible. *)
Definition fine (ops : list (op R)) : Prop := forall r p, In (Ins r) ops -> adm (append_rec r false p).

Record kinv (full ops : list (op R)) (st : structure R) (win : list (wrapped R)) (pos : nat) : Prop := {
  k_sinv : sinv C ok st;
  k_adm : Forall adm (cont st win);
  k_win : map wrec win = skipn pos (inserted ops);
  k_pos : exists k, pos = k * c_lwm C;
  k_len : pos + length win = length (inserted ops);
  k_keep : Forall (fun w => n_del (wrec w) full = 0 -> keep w = true) win;
  k_shards : survivors (c_lwm C) full -> Forall (kept_shard full) (age st);
  k_ins : exists x, Permutation (inserted ops) (map wrec (cont st win) ++ x);
  k_live : distinct_inserts full -> Permutation (lv (cont st win)) (live ops)
}.

Lemma kinv_nil : forall full, kinv full [] st_empty [] 0.
Proof.
  intros. constructor; simpl; auto.
  - apply empty_sinv.
  - constructor.
  - exists 0. auto.
  - intros _. constructor.
  - exists []. auto.
Qed.

Lemma keep_new : forall (r : R) p, keep (append_rec r false p) = true.
Proof. intros. unfold keep. rewrite append_rec_del. auto. Qed.

Lemma kinv_room : forall full ops st win pos r p, kinv full ops st win pos -> adm (append_rec r false p) ->
  kinv full (ops ++ [Ins r]) st (win ++ [append_rec r false p]) pos.
Proof.
  intros full ops st win pos r p [] AD. constructor; auto.
  - unfold cont in *. rewrite app_assoc. apply Forall_app. auto.
  - rewrite map_app, inserted_app. simpl. rewrite k_win0.
    rewrite skipn_app. replace (pos - length (inserted ops)) with 0 by lia. auto.
  - rewrite app_length, inserted_app, app_length. simpl. lia.
  - apply Forall_app. split; auto. constructor; auto. intros _. apply keep_new.
  - destruct k_ins0 as (x & P). exists x. rewrite inserted_app, P. simpl. unfold cont. rewrite !map_app. simpl.
    rewrite <- !app_assoc. do 2 apply Permutation_app_head. apply Permutation_app_comm.
  - intros D. rewrite live_app, <- (k_live0 D). unfold cont. rewrite app_assoc, lv_app. apply Permutation_app_head.
    unfold lv. simpl. rewrite keep_new. auto.
Qed.

Lemma kinv_built : forall full ops st win pos post s, kinv full ops st win pos ->
  full = ops ++ post -> length win = c_lwm C -> survivors (c_lwm C) full ->
  built BD win = Ok s -> kept_shard full s.
Proof.
  intros full ops st win pos post s [] E L SV ES.
  destruct k_pos0 as (k & K).
  destruct (SV k) as (r & HR & HD).
  { rewrite E, inserted_app, app_length. nia. }
  assert (EB : firstn (c_lwm C) (skipn (k * c_lwm C) (inserted full)) = map wrec win).
  { rewrite k_win0, E, inserted_app, <- K, skipn_app, firstn_app.
    rewrite (firstn_all2 (n := c_lwm C)) by (rewrite skipn_length; lia).
    rewrite skipn_length. replace (c_lwm C - _) with 0 by lia. rewrite firstn_O, app_nil_r. auto. }
  rewrite EB in HR. apply in_map_iff in HR as (w & <- & Hw).
  unfold cont in k_adm0. apply Forall_app in k_adm0 as [_ FP].
  destruct (tag_built _ _ ES FP) as [_ P].
  rewrite Forall_forall in k_keep0. pose proof (k_keep0 w Hw HD) as KW.
  destruct (bare_in _ _ w P) as (w' & W1 & W2 & W3); auto.
  exists w'. rewrite W3. auto.
Qed.

Lemma kinv_flush : forall full ops st win pos post s st' r p, kinv full ops st win pos ->
  full = ops ++ post -> length win = c_lwm C -> built BD win = Ok s ->
  seg_steps BD (age st ++ [s]) (age st') -> shape C st' -> l0cap C st' ->
  adm (append_rec r false p) ->
  kinv full (ops ++ [Ins r]) st' [append_rec r false p] (pos + length win).
Proof.
  intros full ops st win pos post s st' r p I E L ES SS SH CP AD.
  pose proof I as []. unfold cont in *.
  apply Forall_app in k_adm0 as [A1 A2]. destruct (tag_built _ _ ES A2) as [A3 P].
  assert (O1 : Forall ok (age st ++ [s])).
  { apply Forall_app. split; [apply (s_ok _ _ k_sinv0)|]. constructor; auto. exact (proj1 (built_ok BD _ _ ES)). }
  assert (A4 : Forall adm (sdata (age st ++ [s]))).
  { rewrite sdata_app, sdata_one. apply Forall_app. auto. }
  destruct (seg_steps_shed full _ _ SS O1 A4) as (B1 & B2 & B3 & B4).
  assert (BS : bsheds (map bare (sdata (age st) ++ win)) (map bare (sdata (age st')))).
  { eapply bsheds_trans; [|exact B3]. rewrite sdata_app, sdata_one, !map_app.
    pose proof (bsheds_mid (map bare (sdata (age st))) _ _ [] (bsheds_keep _ _ P)) as M.
    rewrite !app_nil_r in M. auto. }
  constructor; unfold cont; auto.
  - constructor; auto.
  - apply Forall_app. auto.
  - simpl. rewrite inserted_app. simpl.
    rewrite skipn_app, skipn_all2 by lia. replace (pos + length win - _) with 0 by lia. auto.
  - destruct k_pos0 as (k & ->). exists (S k). rewrite L. simpl. lia.
  - rewrite inserted_app, app_length. simpl. lia.
  - constructor; auto. intros _. apply keep_new.
  - intros SV. apply B4. apply Forall_app. split; auto. constructor; auto. eapply kinv_built; eauto.
  - destruct k_ins0 as (x & PX). destruct BS as (y & PY & _).
    apply (Permutation_map (fun t => fst (fst t))) in PY.
    change (sdata (age st) ++ win) with (cont st win) in *. rewrite map_app, !map_map in PY.
    exists (map (fun t => fst (fst t)) y ++ x). rewrite inserted_app. simpl.
    rewrite map_app. simpl.
    rewrite PX. change (fun x => fst (fst (bare x))) with (@wrec R) in PY. rewrite PY.
    rewrite <- !app_assoc. apply Permutation_app_head. rewrite app_assoc. symmetry.
    apply (Permutation_cons_append).
  - intros D. rewrite live_app, <- (k_live0 D), (bare_lv _ _ BS). rewrite lv_app.
    apply Permutation_app_head. unfold lv. simpl. rewrite keep_new. auto.
Qed.

Lemma kinv_tag : forall full ops st win pos post r st', kinv full ops st win pos ->
  full = ops ++ Del r :: post -> tagged_delete r st = Some st' ->
  kinv full (ops ++ [Del r]) st' win pos.
Proof.
  intros full ops st win pos post r st' [] E H.
  destruct (tagged_shape C _ _ _ H) as (T1 & T2 & _).
  destruct (tag_perm _ _ _ H) as (w & rest & RQ & P1 & P2).
  destruct (tag_age _ _ _ H) as (a & s & b & i & w' & EA & EA' & F1 & F2 & _).
  unfold cont in *. apply Forall_app in k_adm0 as [A1 A2].
  constructor; unfold cont; auto.
  - destruct k_sinv0 as [S1 S2 S3]. constructor; auto. rewrite EA in S3. rewrite EA'.
    apply Forall_app in S3 as [G1 G2]. inv G2. apply Forall_app. split; auto. constructor; auto.
    apply (tag_ok (BD := BD)); auto.
  - apply Forall_app. split; auto. rewrite P2. rewrite P1 in A1. inv A1. constructor; auto.
    apply (tag_adm (BD := BD) (ok := ok)); auto.
  - rewrite inserted_app, app_nil_r. auto.
  - rewrite inserted_app, app_nil_r. auto.
  - intros Q. specialize (k_shards0 Q).
    rewrite EA in k_shards0. rewrite EA'. apply Forall_app in k_shards0 as [G1 G2]. inv G2.
    apply Forall_app. split; auto. constructor; auto.
    destruct H2 as (x & X1 & X2 & X3). exists x. split; auto.
    unfold tagged_at. cbn [s_data].
    apply In_nth_error in X1 as (j & X1).
    destruct (Nat.eq_dec i j).
    + subst j. assert (w' = x) by congruence. subst x. exfalso.
      rewrite (n_del_req _ _ _ F2) in X3. revert X3. apply n_del_in.
      apply in_app_iff. right. simpl. auto.
    + apply nth_error_In with j. rewrite nth_error_set_nth_neq; auto.
  - destruct k_ins0 as (x & P). exists x.
    rewrite inserted_app, app_nil_r, P. apply Permutation_app_tail. rewrite !map_app.
    apply Permutation_app_tail. rewrite P1, P2. auto.
  - intros D. destruct k_ins0 as (x & PX). rewrite live_app, <- (Permutation_filter _ _ _ (k_live0 D)).
    assert (Q1 : Permutation (sdata (age st) ++ win) (w :: rest ++ win)) by (rewrite P1; auto).
    assert (Q2 : Permutation (sdata (age st') ++ win) (set_delete w :: rest ++ win)) by (rewrite P2; auto).
    rewrite (lv_perm _ _ Q2). rewrite (Permutation_filter _ _ _ (lv_perm _ _ Q1)).
    rewrite <- filter_lv_tag; auto.
    eapply (unique_rest r w (rest ++ win) x ops); auto.
    + rewrite E in D. eapply distinct_prefix; eauto.
    + rewrite PX. apply Permutation_app_tail. apply Permutation_map. auto.
Qed.

Lemma kinv_tagbuf : forall full ops st win pos post r i w, kinv full ops st win pos ->
  full = ops ++ Del r :: post -> first_match r win i w ->
  kinv full (ops ++ [Del r]) st (set_nth i (set_delete w) win) pos.
Proof.
  intros full ops st win pos post r i w [] E (M1 & M2 & M3).
  assert (EM : map wrec (set_nth i (set_delete w) win) = map wrec win).
  { destruct (set_nth_split i (set_delete w) w win M1) as (a & b & -> & _ & ->).
    rewrite !map_app. auto. }
  destruct (set_one _ _ _ M1) as (rest & P1 & P2).
  unfold cont in *. apply Forall_app in k_adm0 as [A1 A2].
  constructor; unfold cont; auto.
  - apply Forall_app. split; auto. rewrite P2. rewrite P1 in A2. inv A2. constructor; auto.
    apply (tag_adm (BD := BD) (ok := ok)); auto.
  - rewrite inserted_app, app_nil_r, EM. auto.
  - rewrite inserted_app, app_nil_r, set_nth_length. auto.
  - apply Forall_set_nth; auto. rewrite set_delete_wrec. intros Q. exfalso.
    rewrite (n_del_req _ _ _ M2) in Q. revert Q. rewrite E. apply n_del_in.
    apply in_app_iff. right. simpl. auto.
  - destruct k_ins0 as (x & P). exists x.
    rewrite inserted_app, app_nil_r, P. apply Permutation_app_tail. rewrite !map_app.
    rewrite EM. auto.
  - intros D. destruct k_ins0 as (x & PX). rewrite live_app, <- (Permutation_filter _ _ _ (k_live0 D)).
    assert (Q1 : Permutation (sdata (age st) ++ win) (w :: sdata (age st) ++ rest)).
    { rewrite P1. symmetry. apply Permutation_cons_app. auto. }
    assert (Q2 : Permutation (sdata (age st) ++ set_nth i (set_delete w) win) (set_delete w :: sdata (age st) ++ rest)).
    { rewrite P2. symmetry. apply Permutation_cons_app. auto. }
    rewrite (lv_perm _ _ Q2). rewrite (Permutation_filter _ _ _ (lv_perm _ _ Q1)).
    rewrite <- filter_lv_tag; auto.
    eapply (unique_rest r w (sdata (age st) ++ rest) x ops); auto.
    + rewrite E in D. eapply distinct_prefix; eauto.
    + rewrite PX. apply Permutation_app_tail. apply Permutation_map. auto.
Qed.

Lemma kinv_miss : forall full ops st win pos r, kinv full ops st win pos ->
  tagged_delete r st = None -> no_match r win -> kinv full (ops ++ [Del r]) st win pos.
Proof.
  intros full ops st win pos r [] H N. constructor; auto; try (rewrite inserted_app, app_nil_r; auto).
  intros D. rewrite live_app, <- (Permutation_filter _ _ _ (k_live0 D)).
  rewrite filter_all; auto. intros y Hy. apply in_map_iff in Hy as (z & <- & Hz).
  apply filter_In in Hz as [Hz _]. unfold cont in Hz. rewrite sym_req.
  apply in_app_iff in Hz as [Hz|Hz]; [rewrite (miss_age _ _ H z Hz)|rewrite (N z Hz)]; auto.
Qed.

Lemma erase_kind : forall e st win pos tsn r, einv C e st win pos tsn ->
  exists e' n st' win', erase BD C e r = Ok (e', n) /\ einv C e' st' win' pos tsn /\
    ((tagged_delete r st = Some st' /\ win' = win /\ n = 1) \/
     (tagged_delete r st = None /\ st' = st /\ n = 1 /\
        exists i w, first_match r win i w /\ win' = set_nth i (set_delete w) win) \/
     (tagged_delete r st = None /\ st' = st /\ win' = win /\ no_match r win /\
        (win <> [] -> n = 0) /\ n <= 1)).
Proof.
  intros e st win pos tsn r I.
  destruct (erase_any by_version C TSF TLW TWM e st win pos tsn r I TG) as (e' & n & st' & win' & A & B).
  exists e', n, st', win'. split; auto. rewrite <- A. unfold erase. rewrite TG. auto.
Qed.

Lemma kstep : forall full ops post o e st win pos tsn e' n, einv C e st win pos tsn -> kinv full ops st win pos ->
  fine full -> full = ops ++ o :: post -> (c_layout C = BSM -> Forall nonempty (age st)) ->
  step BD C e o = Ok (e', n) ->
  exists st' win' pos' tsn', einv C e' st' win' pos' tsn' /\ kinv full (ops ++ [o]) st' win' pos'.
Proof.
  intros full ops post o e st win pos tsn e' n I K FN E NE H. destruct o as [r|r]; simpl in H.
  - assert (AD : forall p, adm (append_rec r false p)).
    { intros p. apply FN. rewrite E. apply in_or_app. simpl. auto. }
    unfold insert in H. destruct (Nat.eq_dec (length win) (c_lwm C)) as [L|L].
    + pose proof (append_flush BD C TSF TLW TWM e st win pos tsn r false I (s_shape _ _ (k_sinv _ _ _ _ _ K)) L) as X.
      destruct (reconstruct_struct _ _ _ _ _) as [st'|] eqn:ER; [|congruence].
      destruct X as (e'' & A' & I'). rewrite H in A'. inv A'.
      pose proof (einv_vok C TSF TLW TWM _ _ _ _ _ I) as VO.
      pose proof (k_sinv _ _ _ _ _ K) as [S1 S2 S3].
      destruct (recon_ok BD C TSF _ _ _ _ S1 VO S3 NE ER) as (T1 & T2 & _ & s & T3 & T4).
      destruct (einv_records C TSF TLW TWM _ _ _ _ _ I) as [VR _].
      rewrite (view_built BD _ _ _ VO VR) in T3.
      eexists st', _, _, _. split; [exact I'|]. eapply kinv_flush; eauto.
    + assert (L' : length win < c_lwm C) by (destruct I; lia).
      destruct (append_room BD C TSF TLW TWM e st win pos tsn r false I L') as (e'' & A' & I').
      rewrite H in A'. inv A'.
      eexists st, _, _, _. split; [exact I'|]. apply kinv_room; auto.
  - destruct (erase_kind e st win pos tsn r I) as (e1 & n1 & st' & win' & X & I' & Y).
    rewrite H in X. inv X. exists st', win', pos, tsn. split; auto.
    destruct Y as [(K1 & -> & ->)|[(K1 & -> & -> & i & w & K2 & ->)|(K1 & -> & -> & K2 & K3 & K4)]].
    + eapply kinv_tag; eauto.
    + eapply kinv_tagbuf; eauto.
    + eapply kinv_miss; eauto.
Qed.

Lemma ktotal : forall full ops post o e st win pos tsn, einv C e st win pos tsn -> kinv full ops st win pos ->
  full = ops ++ o :: post -> survivors (c_lwm C) full -> exists e' n, step BD C e o = Ok (e', n).
Proof.
  intros full ops post o e st win pos tsn I K E SV. destruct o as [r|r]; simpl.
  - destruct (append_total BD C TSF TLW TWM e st win pos tsn r false I (k_sinv _ _ _ _ _ K)) as (e1 & A).
    + intros L. split.
      * eapply Forall_impl; [|apply (k_shards _ _ _ _ _ K SV)]. apply kept_nonempty.
      * intros s _ ES. apply (kept_nonempty full). eapply kinv_built; eauto.
    + unfold insert. eauto.
  - destruct (erase_kind e st win pos tsn r I) as (e1 & n1 & st' & win' & X & _). eauto.
Qed.

Lemma krun : forall full, fine full -> bsm_safe BD C full -> forall post ops e rs0 st win pos tsn e' rs,
  run_new BD C ops = Ok (e, rs0) -> einv C e st win pos tsn -> kinv full ops st win pos -> full = ops ++ post ->
  run BD C e post = Ok (e', rs) ->
  exists st' win' pos' tsn', einv C e' st' win' pos' tsn' /\ kinv full full st' win' pos'.
Proof.
  intros full FN BS. induction post as [|o post IH]; intros ops e rs0 st win pos tsn e' rs Rp I K E Rn; simpl in Rn.
  - inv Rn. rewrite app_nil_r. rewrite app_nil_r in K. eauto 10.
  - mon Rn. destruct a as [e1 n]. mon Rn. destruct a as [e2 ns]. inv Rn.
    destruct (kstep (ops ++ o :: post) ops post o e st win pos tsn e1 n) as (st1 & win1 & pos1 & tsn1 & I1 & K1); auto.
    { intros Q. apply (shards_nonempty C _ _ _ _ _ I). intros ls d. eapply (BS Q ops); eauto. }
    eapply (IH (ops ++ [o])); eauto.
    + eapply run_new_snoc; eauto.
    + rewrite <- app_assoc. auto.
Qed.

(** What holds after a history. *)
Theorem kind_facts : forall ops e rs, fine ops -> bsm_safe BD C ops -> run_new BD C ops = Ok (e, rs) ->
  exists st win pos tsn, einv C e st win pos tsn /\ kinv ops ops st win pos.
Proof.
  intros ops e rs FN BS H. unfold run_new in H. mon H. rename a into e0.
  assert (N : run_new BD C [] = Ok (e0, [])) by (unfold run_new; rewrite E; auto).
  apply (new_einv C TSF TLW TWM) in E.
  eapply (krun ops FN BS ops []); eauto. apply kinv_nil.
Qed.

(** With survivors every prefix of the history runs, and every shard on the way keeps a record. *)
Lemma krun_total : forall full, fine full -> survivors (c_lwm C) full -> forall pre post, full = pre ++ post ->
  exists e rs st win pos tsn, run_new BD C pre = Ok (e, rs) /\ einv C e st win pos tsn /\ kinv full pre st win pos.
Proof.
  intros full FN SV. induction pre as [|o pre IH] using rev_ind; intros post E.
  - destruct (new_total (R := R) C TSF TLW TWM TB2) as [e0 E0].
    pose proof (new_einv C TSF TLW TWM _ E0) as I0.
    exists e0, [], st_empty, [], 0, 0. unfold run_new. rewrite E0. simpl. split; auto. split; auto. apply kinv_nil.
  - rewrite <- app_assoc in E. simpl in E.
    destruct (IH _ E) as (e & rs & st & win & pos & tsn & Rn & I & K).
    destruct (ktotal full pre post o e st win pos tsn I K E SV) as (e' & n & ST).
    destruct (kstep full pre post o e st win pos tsn e' n I K FN E) as (st' & win' & pos' & tsn' & I' & K'); auto.
    { intros _. eapply Forall_impl; [|apply (k_shards _ _ _ _ _ K SV)]. apply kept_nonempty. }
    exists e', (rs ++ [n]), st', win', pos', tsn'. split; auto. eapply run_new_snoc; eauto.
Qed.

Lemma survivors_safe : forall ops, fine ops -> survivors (c_lwm C) ops -> bsm_safe BD C ops.
Proof.
  intros ops FN SV _ pre post e rs E Rn.
  destruct (krun_total ops FN SV pre post E) as (e' & rs' & st & win & pos & tsn & Rn' & I & K).
  rewrite Rn in Rn'. inv Rn'. intros ls d Hls Hd.
  rewrite (levels_of_eq C _ _ _ _ _ I) in Hls. apply in_map_iff in Hls as (ss & <- & Hss).
  apply in_map_iff in Hd as (s & <- & Hs). unfold lvs in Hss. apply in_map_iff in Hss as (l & <- & Hl).
  pose proof (k_shards _ _ _ _ _ K SV) as F. rewrite Forall_forall in F.
  apply (kept_nonempty (pre ++ post)). apply F. unfold age, AGE. apply in_concat. exists (lv_shards l).
  split; auto. apply in_map. rewrite <- in_rev. auto.
Qed.

Theorem kind_runs : forall ops, fine ops -> survivors (c_lwm C) ops ->
  exists e rs, run_new BD C ops = Ok (e, rs).
Proof.
  intros ops FN SV. destruct (krun_total ops FN SV ops [] (eq_sym (app_nil_r _))) as (e & rs & _ & _ & _ & _ & H & _). eauto.
Qed.

Theorem kind_live : forall ops e rs, fine ops -> bsm_safe BD C ops -> distinct_inserts ops ->
  run_new BD C ops = Ok (e, rs) ->
  Permutation (map wrec (filter (fun w => negb (is_del w)) (stored e))) (live ops) /\
  Forall (fun w => is_ts w = false) (stored e).
Proof.
  intros ops e rs FN BS D H. destruct (kind_facts _ _ _ FN BS H) as (st & win & pos & tsn & I & K).
  pose proof (proj1 (stored_eq C V _ _ _ _ _ I)) as P0. change (sdata (age st) ++ win) with (cont st win) in P0. split.
  - eapply Permutation_trans; [apply (lv_perm _ _ P0)|]. apply (k_live _ _ _ _ _ K D).
  - rewrite P0. eapply Forall_impl; [|apply (k_adm _ _ _ _ _ K)]. apply (tag_plain (BD := BD) (ok := ok)).
Qed.

Theorem kind_count : forall ops e rs, fine ops -> bsm_safe BD C ops -> run_new BD C ops = Ok (e, rs) ->
  get_record_count e = Ok (e, length (stored e)).
Proof.
  intros ops e rs FN BS H. destruct (kind_facts _ _ _ FN BS H) as (st & win & pos & tsn & I & K).
  unfold get_record_count. rewrite (with_epoch_eq C _ _ _ _ _ _ I). simpl. do 2 f_equal.
  rewrite (bview_count C TSF TLW TWM), (reccnt_len BD) by (apply (s_ok _ _ (k_sinv _ _ _ _ _ K))).
  rewrite (Permutation_length (proj1 (stored_eq C V _ _ _ _ _ I))), app_length. lia.
Qed.

(** ** The static structure *)

Lemma combined_shed : forall full ls ss, combined_shards BD ls = Ok ss -> Forall ok (concat (map lv_shards ls)) ->
  Forall adm (sdata (concat (map lv_shards ls))) -> shed full (concat (map lv_shards ls)) ss.
Proof.
  intros full. induction ls as [|l ls IH]; intros ss H O A; simpl in *.
  - inv H. repeat split; auto. apply bsheds_refl.
  - apply Forall_app in O as [O1 O2]. rewrite sdata_app in A. apply Forall_app in A as [A1 A2].
    destruct (Nat.ltb_spec 0 (lv_reccnt l)).
    + unfold lv_combined in H. destruct (Nat.eqb_spec (lv_count l) 0); [discriminate|].
      mon H. mon E. inv E. mon H. inv H. destruct (IH _ E O2 A2) as (I1 & I2 & I3 & I4).
      destruct (merge_shed full (lv_shards l) a0) as (M1 & M2 & M3 & M4); auto.
      { unfold lv_count in n. destruct (lv_shards l); [simpl in n; congruence|discriminate]. }
      change (a0 :: a) with ([a0] ++ a). unfold shed. rewrite !sdata_app, !map_app.
      split; [apply Forall_app; auto|]. split; [apply Forall_app; auto|]. split; [|rewrite !Forall_app; tauto].
      eapply bsheds_trans; [exact (bsheds_mid [] _ _ _ M3)|].
      pose proof (bsheds_mid (map bare (sdata [a0])) _ _ [] I3) as Q. rewrite !app_nil_r in Q. exact Q.
    + destruct (IH _ H O2 A2) as (I1 & I2 & I3 & I4). assert (Z : lv_reccnt l = 0) by lia.
      pose proof (zero_reccnt_empty BD C TSF l O1 Z) as Y. unfold shed.
      rewrite sdata_app, (sdata_nil (lv_shards l)) by auto. simpl.
      repeat split; auto. rewrite Forall_app. tauto.
Qed.

Lemma static_parts : forall e st win pos tsn, einv C e st win pos tsn ->
  create_static_structure BD e =
  (do s <- (do ss <- combined_shards BD (rev (st_levels st));
            do bs <- (if 0 <? length win then do s <- built BD win; Ok [s] else Ok []);
            from_shards BD (ss ++ bs));
   Ok (e, s)).
Proof.
  intros e st win pos tsn I. unfold create_static_structure, static_on.
  rewrite (with_epoch_eq C _ _ _ _ _ _ I), (bview_count C TSF TLW TWM).
  destruct (einv_records C TSF TLW TWM _ _ _ _ _ I) as [VR _].
  rewrite (view_built BD _ _ _ (einv_vok C TSF TLW TWM _ _ _ _ _ I) VR). auto.
Qed.

Lemma buffer_shed : forall win bs, (if 0 <? length win then do s <- built BD win; Ok [s] else Ok []) = Ok bs ->
  Forall adm win ->
  Forall ok bs /\ Forall adm (sdata bs) /\ bsheds (map bare win) (map bare (sdata bs)) /\
  (win = [] \/ (exists w, In w win /\ keep w = true) -> Forall nonempty bs).
Proof.
  intros win bs H A. destruct win as [|w win]; simpl in H.
  - inv H. repeat split; auto. apply bsheds_refl.
  - mon H. inv H. destruct (tag_built _ _ E A) as [A' P]. rewrite sdata_one. repeat split; auto.
    + constructor; auto. exact (proj1 (built_ok BD _ _ E)).
    + apply bsheds_keep. auto.
    + intros [Q|(x & X1 & X2)]; [discriminate|]. constructor; auto.
      destruct (bare_in _ _ x P X1 X2) as (y & Y & _). intros Q. rewrite Q in Y. contradiction.
Qed.

Theorem kind_static : forall ops e rs e' s, fine ops -> bsm_safe BD C ops -> distinct_inserts ops ->
  run_new BD C ops = Ok (e, rs) -> create_static_structure BD e = Ok (e', s) ->
  e' = e /\ ok s /\ Permutation (live ops) (map wrec (s_data s)) /\
  Forall (fun w => is_ts w = false /\ is_del w = false) (s_data s).
Proof.
  intros ops e rs e' s FN BS D H Q. destruct (kind_facts _ _ _ FN BS H) as (st & win & pos & tsn & I & K).
  rewrite (static_parts _ _ _ _ _ I) in Q. mon Q. mon E. mon E. inv Q. split; auto.
  pose proof (k_adm _ _ _ _ _ K) as AD. unfold cont in AD. apply Forall_app in AD as [AD1 AD2].
  pose proof (s_ok _ _ (k_sinv _ _ _ _ _ K)) as O.
  destruct (combined_shed ops _ _ E0 O AD1) as (C1 & C2 & C3 & _).
  destruct (buffer_shed _ _ E1 AD2) as (B1 & B2 & B3 & _).
  assert (OS : Forall ok (a0 ++ a1)) by (apply Forall_app; auto).
  assert (AS : Forall adm (sdata (a0 ++ a1))) by (rewrite sdata_app; apply Forall_app; auto).
  split; [eapply shards_ok; eauto|].
  destruct (tag_merge _ _ E OS AS) as [A' P]. split.
  - rewrite <- (k_live _ _ _ _ _ K D).
    assert (BB : bsheds (map bare (cont st win)) (map bare (sdata (a0 ++ a1)))).
    { unfold cont. rewrite sdata_app, !map_app. eapply bsheds_trans; [exact (bsheds_mid [] _ _ _ C3)|].
      pose proof (bsheds_mid (map bare (sdata a0)) _ _ [] B3) as M. rewrite !app_nil_r in M. exact M. }
    rewrite (bare_lv _ _ BB). unfold lv. apply (Permutation_map (fun t => fst (fst t))) in P.
    rewrite !map_map in P. exact P.
  - apply Forall_forall. intros w Hw. rewrite Forall_forall in A'.
    split; [apply (tag_plain (BD := BD) (ok := ok)); auto|].
    assert (X : In (bare w) (map bare (filter keep (sdata (a0 ++ a1))))).
    { apply (Permutation_in _ (Permutation_sym P)). apply in_map. auto. }
    apply in_map_iff in X as (y & EY & Hy). apply filter_In in Hy as [_ Hy]. unfold bare in EY.
    injection EY as Y1 Y2 Y3. unfold keep in Hy. rewrite Y3 in Hy. destruct (is_del w); auto; discriminate.
Qed.

Lemma combined_total : forall ls, (forall l, In l ls -> exists s, from_shards BD (lv_shards l) = Ok s) ->
  exists ss, combined_shards BD ls = Ok ss.
Proof.
  induction ls as [|l ls IH]; intros H; simpl; eauto.
  destruct IH as [ss E]. { intros; apply H; simpl; auto. }
  destruct (Nat.ltb_spec 0 (lv_reccnt l)); eauto.
  unfold lv_combined. destruct (Nat.eqb_spec (lv_count l) 0).
  { unfold lv_count in e. unfold lv_reccnt in H0. destruct (lv_shards l); [simpl in H0; lia|discriminate]. }
  destruct (H l) as [s Es]; simpl; auto. rewrite Es, E. simpl. eauto.
Qed.

Theorem kind_static_total : forall ops e rs, fine ops -> run_new BD C ops = Ok (e, rs) ->
  (bsm_safe BD C ops /\ forall ss, Forall ok ss -> exists s, from_shards BD ss = Ok s) \/
  (survivors (c_lwm C) ops /\ (buffer_records e = [] \/ exists w, In w (buffer_records e) /\ is_del w = false)) ->
  exists s, create_static_structure BD e = Ok (e, s).
Proof.
  intros ops e rs FN H T.
  assert (BS : bsm_safe BD C ops) by (destruct T as [[T _]|[T _]]; auto; apply survivors_safe; auto).
  destruct (kind_facts _ _ _ FN BS H) as (st & win & pos & tsn & I & K).
  pose proof (k_adm _ _ _ _ _ K) as AD. unfold cont in AD. apply Forall_app in AD as [AD1 AD2].
  pose proof (s_ok _ _ (k_sinv _ _ _ _ _ K)) as O.
  rewrite (static_parts _ _ _ _ _ I).
  assert (NE : survivors (c_lwm C) ops -> Forall nonempty (age st)).
  { intros SV. eapply Forall_impl; [|apply (k_shards _ _ _ _ _ K SV)]. apply kept_nonempty. }
  destruct (combined_total (rev (st_levels st))) as [ss E].
  { intros l Hl. assert (S : forall s, In s (lv_shards l) -> In s (age st)).
    { intros s Hs. unfold age, AGE. apply in_concat. exists (lv_shards l). split; auto. apply in_map. auto. }
    assert (OL : Forall ok (lv_shards l)) by (rewrite Forall_forall in *; auto).
    destruct T as [[_ T]|[T _]]; [auto|]. apply shards_total; auto.
    specialize (NE T). rewrite Forall_forall in *. intros s Hs. apply NE. auto. }
  rewrite E. cbn [bind].
  assert (B : exists bs, (if 0 <? length win then do s <- built BD win; Ok [s] else Ok []) = Ok bs).
  { destruct (0 <? length win); eauto. destruct (built_total BD win) as [s Es]. rewrite Es. simpl. eauto. }
  destruct B as [bs B]. rewrite B. cbn [bind].
  destruct (combined_shed ops _ _ E O AD1) as (C1 & C2 & C3 & C4).
  destruct (buffer_shed _ _ B AD2) as (B1 & B2 & B3 & B4).
  assert (OS : Forall ok (ss ++ bs)) by (apply Forall_app; auto).
  assert (F : exists s, from_shards BD (ss ++ bs) = Ok s).
  { destruct T as [[_ T]|[T U]]; [auto|]. apply shards_total; auto.
    apply Forall_app. split.
    - eapply Forall_impl; [|apply C4; apply (k_shards _ _ _ _ _ K T)]. apply kept_nonempty.
    - apply B4. rewrite (proj2 (stored_eq C V _ _ _ _ _ I)) in U.
      destruct U as [U|(w & U1 & U2)]; auto. right. exists w. split; auto. unfold keep. rewrite U2. auto. }
  destruct F as [s F]. rewrite F. simpl. eauto.
Qed.

(** ** Erases through another lookup *)

Variable find : R -> list (wrapped R) -> res (option nat).

Lemma shards_tag_eq : forall r ss, (forall s, In s ss -> find r (s_data s) = Ok (find_rec r (s_data s) 0)) ->
  shards_tag_by find r ss = Ok (shards_tag r ss).
Proof.
  intros r. induction ss as [|s ss IH]; intros H; simpl; auto.
  rewrite (H s) by (simpl; auto). cbn [bind]. unfold shard_tag.
  pose proof (find_rec_spec r (s_data s) 0) as F. destruct (find_rec r (s_data s) 0) as [j|].
  - destruct F as (k & w & -> & F1 & _). simpl. unfold nth_res. rewrite F1. auto.
  - rewrite IH by (intros; apply H; simpl; auto). auto.
Qed.

Lemma levels_tag_eq : forall r ls,
  (forall l s, In l ls -> In s (lv_shards l) -> find r (s_data s) = Ok (find_rec r (s_data s) 0)) ->
  levels_tag_by find r ls = Ok (levels_tag r ls).
Proof.
  intros r. induction ls as [|l ls IH]; intros H; simpl; auto.
  rewrite shards_tag_eq by (intros s Hs; apply (H l); simpl; auto). cbn [bind].
  unfold lv_delete_record. destruct (shards_tag r (lv_shards l)); auto.
  rewrite IH by (intros l' s Hl Hs; apply (H l'); simpl; auto). auto.
Qed.

Lemma tagged_eq : forall r st, (forall s, In s (age st) -> find r (s_data s) = Ok (find_rec r (s_data s) 0)) ->
  tagged_delete_by find r st = Ok (tagged_delete r st).
Proof.
  intros r [ls state] H. unfold tagged_delete_by, tagged_delete. simpl. rewrite levels_tag_eq; auto.
  intros l s Hl Hs. apply H. unfold age, AGE. simpl. apply in_concat. exists (lv_shards l). split; auto.
  apply in_map. rewrite <- in_rev. auto.
Qed.

Lemma step_eq : forall e st win pos tsn o, einv C e st win pos tsn ->
  (forall r s, o = Del r -> In s (age st) -> find r (s_data s) = Ok (find_rec r (s_data s) 0)) ->
  step_by find BD C e o = step BD C e o.
Proof.
  intros e st win pos tsn [r|r] I H; simpl; auto. unfold erase. rewrite TG.
  assert (T : tagged_delete_by find r st = Ok (tagged_delete r st)) by (apply tagged_eq; auto).
  destruct I. unfold tag_erase. destruct (buf_get_view _ _) as [[b1 v]|]; auto. cbn [bind].
  unfold get_active_epoch. cbn [e_cur]. rewrite i_cur. simpl. rewrite T. auto.
Qed.

Lemma run_eq : forall full, fine full -> survivors (c_lwm C) full ->
  (forall ops post st win pos r s, full = ops ++ post -> kinv full ops st win pos -> In s (age st) ->
     In (Del r) full -> find r (s_data s) = Ok (find_rec r (s_data s) 0)) ->
  run_new_by find BD C full = run_new BD C full.
Proof.
  intros full FN SV H. unfold run_new_by, run_new.
  destruct (ext_new C) as [e0|] eqn:E0; auto. cbn [bind].
  assert (K : forall post pre e rs, full = pre ++ post -> run_new BD C pre = Ok (e, rs) ->
    run_by find BD C e post = run BD C e post).
  { induction post as [|o post IH]; intros pre e rs E Rn; simpl; auto.
    destruct (krun_total full FN SV pre (o :: post) E) as (e' & rs' & st & win & pos & tsn & Rn' & I & K).
    rewrite Rn in Rn'. inv Rn'.
    rewrite (step_eq _ _ _ _ _ o I).
    - destruct (step BD C e' o) as [[e1 n]|] eqn:ST; auto. cbn [bind].
      rewrite (IH (pre ++ [o]) e1 (rs' ++ [n])); auto.
      + rewrite <- app_assoc. auto.
      + eapply run_new_snoc; eauto.
    - intros r s -> Hs. eapply H; eauto. apply in_or_app. simpl. auto. }
  apply (K full [] e0 []); auto. unfold run_new. rewrite E0. auto.
Qed.

End KT.

(** ** VPTree *)

Section VPT.
Context {R : Type} {RO : RecOps R} {RL : RecLaws R}.

#[global] Instance vp_tags : TagLaws (R := R) vp_shards vp_ok plain.
Proof.
  constructor.
  - intros l s H A. unfold built in H. simpl in H. unfold vp_view in H.
    destruct (lview_ok l) as (_ & _ & E & _). rewrite E in H. simpl in H. inv H. simpl.
    change (filter untagged l) with (filter keep l). split.
    + apply Forall_map. apply Forall_forall. intros x Hx. apply filter_In in Hx as [Hx _].
      rewrite Forall_forall in A. specialize (A _ Hx). unfold plain in *.
      pose proof (rt_mask3 x) as Q. unfold rt in Q. injection Q as Q. congruence.
    + rewrite map_map. rewrite (map_ext (fun x => bare (mask3 x)) bare) by apply bare_mask3. auto.
  - intros ss s H O A. inv H. simpl. rewrite firstn_sdata by auto.
    change (filter untagged (sdata ss)) with (filter keep (sdata ss)). split; auto.
    apply Forall_forall. intros x Hx. apply filter_In in Hx as [Hx _]. rewrite Forall_forall in A. auto.
  - intros s i w [O1 O2] H. split; auto. simpl. rewrite set_nth_length. auto.
  - intros w H. unfold plain in *. rewrite is_ts_set_delete. auto.
  - auto.
Qed.

Variable C : cfg.
Hypothesis V : valid_cfg C.
Hypothesis TG : c_del C = TAGGING.

Lemma vp_fine : forall ops : list (op R), fine (adm := plain) ops.
Proof. intros ops r p _. apply plain_append. Qed.

Theorem vp_tag_runs : forall ops : list (op R), survivors (c_lwm C) ops ->
  exists e rs, run_new vp_shards C ops = Ok (e, rs).
Proof. intros. eapply (kind_runs vp_shards C V TG); eauto using vp_fine. Qed.

Theorem vp_tag_live : forall (ops : list (op R)) e rs, bsm_safe vp_shards C ops -> distinct_inserts ops ->
  run_new vp_shards C ops = Ok (e, rs) ->
  Permutation (map wrec (filter (fun w => negb (is_del w)) (stored e))) (live ops) /\
  Forall (fun w => is_ts w = false) (stored e) /\
  get_record_count e = Ok (e, length (stored e)).
Proof.
  intros ops e rs BS D H. destruct (kind_live vp_shards C V TG ops e rs (vp_fine _) BS D H).
  split; auto. split; auto. eapply (kind_count vp_shards C V TG); eauto using vp_fine.
Qed.

Theorem vp_tag_static : forall (ops : list (op R)) e rs, bsm_safe vp_shards C ops -> distinct_inserts ops ->
  run_new vp_shards C ops = Ok (e, rs) ->
  exists s, create_static_structure vp_shards e = Ok (e, s) /\ s_reccnt s = length (live ops) /\
    Permutation (live ops) (map wrec (s_data s)) /\
    Forall (fun w => is_ts w = false /\ is_del w = false) (s_data s).
Proof.
  intros ops e rs BS D H.
  destruct (kind_static_total vp_shards C V TG ops e rs (vp_fine _) H) as [s E].
  { left. split; auto. intros ss _. simpl. unfold vp_merge. eauto. }
  destruct (kind_static vp_shards C V TG ops e rs e s (vp_fine _) BS D H E) as (_ & [O _] & P & F).
  exists s. rewrite O, (Permutation_length P), map_length. auto.
Qed.

End VPT.

(** ** Tries *)

Section TT.
Variable qlt : qorder crec.
Context {QO : QOrder qlt}.
Variable literal : nat.

Definition trie_fit (w : wrapped crec) : Prop :=
  is_ts w = false /\ is_vis w = true /\ blank literal w = false.

Lemma fit_keeps : forall w, trie_fit w -> trie_keeps literal w = keep w /\ tkeep literal w = keep w.
Proof.
  intros w (_ & H1 & H2). unfold trie_keeps, tkeep, keep. rewrite H1, H2. simpl. rewrite !orb_false_r. auto.
Qed.

Lemma filter_fit : forall f (l : list (wrapped crec)), Forall trie_fit l ->
  (forall w, trie_fit w -> f w = keep w) -> filter f l = filter keep l.
Proof. intros f l F H. apply filter_ext_in. rewrite Forall_forall in F. auto. Qed.

#[global] Instance trie_tags : TagLaws (trie_shards qlt literal) trie_ok trie_fit.
Proof.
  constructor.
  - intros l s H A. unfold built in H. simpl in H. unfold trie_view in H.
    destruct (lview_ok l) as (_ & _ & E & _). rewrite E in H. simpl in H. inv H. simpl.
    assert (A' : Forall trie_fit (wsort l)) by (rewrite <- (wsort_perm l); auto).
    rewrite (filter_fit _ _ A') by (intros; apply fit_keeps; auto). split.
    + apply Forall_map. apply Forall_forall. intros x Hx. apply filter_In in Hx as [Hx _].
      rewrite Forall_forall in A'. destruct (A' x Hx) as (H1 & H2 & H3).
      destruct (mask7_bits x) as (B1 & B2 & B3). unfold trie_fit. rewrite B1, B3. auto.
    + rewrite map_map. rewrite (map_ext (fun x => bare (mask7 x)) bare).
      * apply Permutation_map, Permutation_filter, wsort_perm.
      * intros w. destruct (mask7_bits w) as (B1 & B2 & _). unfold bare. rewrite B1, B2. auto.
  - intros ss s H O A. simpl in H. apply trie_merge_ok in H as (evs & M & E & _); auto.
    destruct (mrun_plain qlt _ _ M) as [_ P].
    { eapply Forall_impl; [|exact A]. intros w (T & _). auto. }
    change (concat (map s_data ss)) with (sdata ss) in P.
    assert (A' : Forall trie_fit (emits evs)) by (rewrite <- P; auto).
    rewrite E, (filter_fit _ _ A') by (intros; apply fit_keeps; auto). split.
    + apply Forall_forall. intros x Hx. apply filter_In in Hx as [Hx _]. rewrite Forall_forall in A'. auto.
    + apply Permutation_map, Permutation_filter. auto.
  - intros s i w (O1 & O2 & O3) H. unfold trie_ok, tagged_at. simpl. rewrite set_nth_length. split; auto. split; auto.
    destruct (set_nth_split i (set_delete w) w (s_data s) H) as (a & b & E & _ & ->). rewrite E in O3.
    apply StronglySorted_app_inv in O3 as (S1 & S2 & S3). inv S2. apply StronglySorted_app; auto.
    + constructor; auto.
    + intros x y Hx [<-|Hy]; [|apply S3; simpl; auto].
      unfold wle. rewrite set_delete_wrec. apply (S3 x w); simpl; auto.
  - intros w (H1 & H2 & H3). unfold trie_fit. rewrite is_ts_set_delete. split; auto. split; auto.
    unfold is_vis, set_delete, h_set_delete in *. simpl. rewrite h_is_visible_bit in *. rewrite N.lor_spec, H2. auto.
  - intros w (H & _). auto.
Qed.

Variable C : cfg.
Hypothesis V : valid_cfg C.
Hypothesis TG : c_del C = TAGGING.

Lemma trie_fine : forall ops, no_blank literal ops -> fine (adm := trie_fit) ops.
Proof.
  intros ops NB r p H. split; [apply append_rec_ts|]. split; [apply append_rec_vis|].
  unfold blank. apply Nat.eqb_neq. exact (NB _ H).
Qed.

Lemma distinct_keys_inserts : forall ops, distinct_keys ops -> distinct_inserts ops.
Proof.
  intros ops D r. rewrite n_ins_inserted. unfold distinct_keys in D.
  induction (inserted ops) as [|x l IH]; [simpl; auto|]. simpl in D. inv D. specialize (IH H2).
  change (countb (req r) (x :: l)) with ((if req r x then 1 else 0) + countb (req r) l).
  destruct (req r x) eqn:E; [|lia].
  apply crec_eq in E. assert (Z : countb (req r) l = 0); [|lia].
  destruct (countb (req r) l) eqn:EC; auto. exfalso.
  assert (Q : 0 < countb (req r) l) by lia. apply countb_pos in Q as (y & Hy & EY).
  apply crec_eq in EY. apply H1. rewrite <- E, EY. apply in_map. auto.
Qed.

Variable search : list (list N) -> list N -> option nat.
Hypothesis SE : search_exact search.

Local Notation strs l := (map (fun w => c_str (wrec w)) l).

Lemma trie_find_rec : forall r (s : shard crec), trie_ok s -> nonempty s -> NoDup (strs (s_data s)) ->
  trie_find search r (s_data s) = Ok (find_rec r (s_data s) 0).
Proof.
  intros r s O N D. unfold trie_find.
  assert (E : forall A (x y : A), match s_data s with [] => x | _ :: _ => y end = y).
  { intros. unfold nonempty in N. destruct (s_data s); congruence. }
  rewrite E. f_equal.
  pose proof (SE (strs (s_data s)) (c_str r) (strs_increasing _ (proj2 (proj2 O)) D)) as X.
  pose proof (find_rec_spec r (s_data s) 0) as F.
  destruct (search (strs (s_data s)) (c_str r)) as [i|]; destruct (find_rec r (s_data s) 0) as [j|]; auto.
  - destruct F as (k & w & -> & F1 & F2 & _). f_equal. apply crec_eq in F2.
    apply (proj1 (NoDup_nth_error (strs (s_data s))) D).
    + apply nth_error_Some. congruence.
    + simpl. rewrite X. rewrite nth_error_map, F1. simpl. congruence.
  - exfalso. rewrite nth_error_map in X. destruct (nth_error (s_data s) i) as [w|] eqn:W; [|discriminate].
    simpl in X. inv X. apply nth_error_In in W. apply F in W.
    assert (req (wrec w) r = true) by (apply crec_eq; auto). congruence.
  - exfalso. destruct F as (k & w & -> & F1 & F2 & _). apply X. apply crec_eq in F2. rewrite <- F2.
    apply (in_map (fun w => c_str (wrec w))). eapply nth_error_In; eauto.
Qed.

Lemma kinv_nodup : forall full ops post st win pos, distinct_keys full -> full = ops ++ post ->
  kinv C (ok := trie_ok) (adm := trie_fit) full ops st win pos ->
  NoDup (strs (cont st win)).
Proof.
  intros full ops post st win pos D E K. destruct (k_ins _ _ _ _ _ _ K) as (x & P).
  apply (Permutation_map c_str) in P. rewrite map_app, map_map in P.
  assert (N : NoDup (map c_str (inserted ops))).
  { unfold distinct_keys in D. rewrite E, inserted_app, map_app in D. apply nodup_parts in D. tauto. }
  apply (Permutation_NoDup P) in N. apply nodup_parts in N. tauto.
Qed.

Lemma strs_of_shard : forall (s : shard crec) ss, In s ss -> NoDup (strs (sdata ss)) -> NoDup (strs (s_data s)).
Proof.
  induction ss as [|a ss IH]; intros H D; [contradiction|].
  change (sdata (a :: ss)) with (s_data a ++ sdata ss) in D. rewrite map_app in D. apply nodup_parts in D as [D1 D2].
  destruct H as [->|H]; auto.
Qed.

(** The erase through the trie is the erase of the first equal record. *)
Lemma trie_run_eq : forall ops, no_blank literal ops -> distinct_keys ops -> survivors (c_lwm C) ops ->
  trie_run_new qlt literal search C ops = run_new (trie_shards qlt literal) C ops.
Proof.
  intros ops NB D SV. unfold trie_run_new.
  apply (run_eq (trie_shards qlt literal) C V TG (adm := trie_fit) (ok := trie_ok)); auto using trie_fine.
  intros pre post st win pos r s E K Hs _.
  pose proof (kinv_nodup _ _ _ _ _ _ D E K) as N. unfold cont in N. rewrite map_app in N. apply nodup_parts in N as [N _].
  apply trie_find_rec.
  - pose proof (s_ok _ _ (k_sinv _ _ _ _ _ _ K)) as O. rewrite Forall_forall in O. auto.
  - pose proof (k_shards _ _ _ _ _ _ K SV) as F. rewrite Forall_forall in F. eapply kept_nonempty; eauto.
  - eapply strs_of_shard; eauto.
Qed.

Theorem trie_tag_runs : forall ops, no_blank literal ops -> distinct_keys ops -> survivors (c_lwm C) ops ->
  exists e rs, trie_run_new qlt literal search C ops = Ok (e, rs).
Proof.
  intros ops NB D SV. rewrite trie_run_eq by auto.
  eapply (kind_runs (trie_shards qlt literal) C V TG); eauto using trie_fine.
Qed.

Theorem trie_tag_live : forall ops e rs, no_blank literal ops -> distinct_keys ops -> survivors (c_lwm C) ops ->
  trie_run_new qlt literal search C ops = Ok (e, rs) ->
  Permutation (map wrec (filter (fun w => negb (is_del w)) (stored e))) (live ops) /\
  Forall (fun w => is_ts w = false) (stored e) /\
  get_record_count e = Ok (e, length (stored e)).
Proof.
  intros ops e rs NB D SV H. rewrite trie_run_eq in H by auto.
  pose proof (trie_fine _ NB) as FN.
  pose proof (survivors_safe (trie_shards qlt literal) C V TG ops FN SV) as BS.
  destruct (kind_live (trie_shards qlt literal) C V TG ops e rs FN BS (distinct_keys_inserts _ D) H).
  split; auto. split; auto. eapply (kind_count (trie_shards qlt literal) C V TG); eauto.
Qed.

Theorem trie_tag_static : forall ops e rs, no_blank literal ops -> distinct_keys ops -> survivors (c_lwm C) ops ->
  trie_run_new qlt literal search C ops = Ok (e, rs) ->
  buffer_records e = [] \/ (exists w, In w (buffer_records e) /\ is_del w = false) ->
  exists s, create_static_structure (trie_shards qlt literal) e = Ok (e, s) /\ s_reccnt s = length (live ops) /\
    Permutation (live ops) (map wrec (s_data s)) /\ StronglySorted wle (s_data s) /\
    Forall (fun w => is_ts w = false /\ is_del w = false) (s_data s).
Proof.
  intros ops e rs NB D SV H B. rewrite trie_run_eq in H by auto.
  pose proof (trie_fine _ NB) as FN.
  pose proof (survivors_safe (trie_shards qlt literal) C V TG ops FN SV) as BS.
  destruct (kind_static_total (trie_shards qlt literal) C V TG ops e rs FN H) as [s E]; auto.
  destruct (kind_static (trie_shards qlt literal) C V TG ops e rs e s FN BS (distinct_keys_inserts _ D) H E)
    as (_ & (O1 & O2 & O3) & P & F).
  exists s. rewrite O1, (Permutation_length P), map_length. auto.
Qed.

(** ** Point lookups *)

Lemma trie_results_tag : forall k ss, Forall nonempty ss -> Forall trie_ok ss -> Forall trie_fit (sdata ss) ->
  NoDup (strs (sdata ss)) ->
  exists rs, pl_results (trie_lookup search k) ss = Ok rs /\
    ((~ In k (strs (sdata ss)) /\ pl_combine rs = []) \/
     exists w, In w (sdata ss) /\ c_str (wrec w) = k /\ pl_combine rs = if keep w then [wrec w] else []).
Proof.
  intros k. induction ss as [|s ss IH]; intros N O A D.
  - exists []. split; auto.
  - inv N. inv O. change (sdata (s :: ss)) with (s_data s ++ sdata ss) in *.
    rewrite map_app in D. destruct (nodup_parts _ _ D) as [D1 D2].
    apply Forall_app in A as [A1 A2].
    destruct (IH H2 H4 A2 D2) as (rs & E & K). cbn [pl_results]. unfold pl_local.
    assert (TL : trie_lookup search k (s_data s) =
      match search (strs (s_data s)) k with
      | None => Ok None | Some i => do w <- nth_res i (s_data s); Ok (Some w) end).
    { unfold trie_lookup. unfold nonempty in H1. destruct (s_data s); [congruence|auto]. }
    rewrite TL. pose proof (SE (strs (s_data s)) k (strs_increasing _ (proj2 (proj2 H3)) D1)) as X.
    destruct (search (strs (s_data s)) k) as [i|].
    + rewrite nth_error_map in X. destruct (nth_error (s_data s) i) as [w|] eqn:W; [|discriminate].
      simpl in X. inv X. unfold nth_res. rewrite W. cbn [bind].
      exists [[w]]. split; auto. right. exists w. apply nth_error_In in W. split; [apply in_or_app; auto|].
      split; auto. rewrite Forall_forall in A1. destruct (A1 w W) as (T & _). simpl. unfold keep.
      rewrite T. destruct (is_del w); auto.
    + cbn [bind]. rewrite E. cbn [bind]. exists ([] :: rs). split; auto. destruct K as [[K1 K2]|(w & W1 & W2 & W3)].
      * left. split; auto. rewrite map_app, in_app_iff. tauto.
      * right. exists w. split; [apply in_or_app; auto|]. auto.
Qed.

Lemma nodup_filter : forall {A B} (f : A -> B) p l, NoDup (map f l) -> NoDup (map f (filter p l)).
Proof.
  intros A B f p. induction l as [|a l IH]; simpl; intros D; auto. inv D.
  destruct (p a); simpl; auto. constructor; auto. intros H. apply H1.
  apply in_map_iff in H as (x & E & Hx). apply filter_In in Hx as [Hx _]. rewrite <- E. apply in_map. auto.
Qed.

(** The live records with the key of a stored record. *)
Lemma live_of_key : forall l (lo : list crec) w, NoDup (strs l) -> Permutation (lv l) lo -> In w l ->
  filter (has_str (c_str (wrec w))) lo = if keep w then [wrec w] else [].
Proof.
  intros l lo w D P H. assert (N : NoDup (map c_str lo)).
  { apply (Permutation_NoDup (Permutation_map c_str P)). unfold lv. rewrite map_map. apply nodup_filter. auto. }
  destruct (keep w) eqn:K.
  - apply filter_one; auto. apply (Permutation_in _ P). unfold lv. apply in_map. apply filter_In. auto.
  - apply filter_none. intros x Hx. unfold has_str.
    destruct (list_eq_dec N.eq_dec (c_str x) (c_str (wrec w))) as [E|]; auto. exfalso.
    apply (Permutation_in _ (Permutation_sym P)) in Hx. apply in_map_iff in Hx as (y & <- & Hy).
    apply filter_In in Hy as [Hy KY]. assert (y = w); [|congruence].
    clear - D H Hy E. induction l as [|a l IH]; [contradiction|]. simpl in D. inv D.
    destruct H as [->|H], Hy as [->|Hy]; auto.
    + exfalso. apply H2. rewrite <- E. apply (in_map (fun w => c_str (wrec w))). auto.
    + exfalso. apply H2. rewrite E. apply (in_map (fun w => c_str (wrec w))). auto.
Qed.

Theorem trie_tag_lookup : forall ops e rs k a, no_blank literal ops -> distinct_keys ops ->
  survivors (c_lwm C) ops -> at_address a k ops ->
  trie_run_new qlt literal search C ops = Ok (e, rs) ->
  trie_point_lookup search e k a = Ok (e, filter (has_str k) (live ops)).
Proof.
  intros ops e rs k a NB DK SV AA Rn. rewrite trie_run_eq in Rn by auto.
  pose proof (trie_fine _ NB) as FN.
  pose proof (survivors_safe (trie_shards qlt literal) C V TG ops FN SV) as BS.
  destruct (kind_facts (trie_shards qlt literal) C V TG ops e rs FN BS Rn) as (st & win & pos & tsn & I & K).
  pose proof (kinv_nodup _ _ [] _ _ _ DK (eq_sym (app_nil_r _)) K) as ND.
  pose proof (k_live _ _ _ _ _ _ K (distinct_keys_inserts _ DK)) as PL.
  pose proof (k_adm _ _ _ _ _ _ K) as AD. pose proof (s_ok _ _ (k_sinv _ _ _ _ _ _ K)) as O.
  pose proof (k_shards _ _ _ _ _ _ K SV) as KS.
  assert (N : Forall nonempty (age st)) by (eapply Forall_impl; [|exact KS]; apply kept_nonempty).
  destruct (k_ins _ _ _ _ _ _ K) as (x & PX).
  assert (PS : Permutation (sdata (query_shards st)) (sdata (age st))).
  { unfold sdata. apply concat_perm, Permutation_map, query_shards_perm. }
  assert (INS : forall w, In w (cont st win) -> In (wrec w) (inserted ops)).
  { intros w Hw. apply (Permutation_in _ (Permutation_sym PX)). apply in_or_app. left. apply in_map. auto. }
  unfold trie_point_lookup, point_lookup_query, pl_on. rewrite (with_epoch_eq C _ _ _ _ _ _ I).
  destruct V as (V1 & V2 & V3 & _).
  destruct (einv_records C V3 V1 V2 _ _ _ _ _ I) as [VR _].
  unfold pl_local_buffer. rewrite VR. cbn [bind].
  unfold cont in *. apply Forall_app in AD as [AD1 AD2].
  destruct (filter (fun w => c_addr (wrec w) =? a) win) as [|w ws] eqn:EF.
  - assert (NW : ~ In k (strs win)).
    { intros H. apply in_map_iff in H as (w & EW & Hw).
      assert (In w []); [|contradiction]. rewrite <- EF; apply filter_In; split; auto. apply Nat.eqb_eq, AA; auto.
      apply INS. apply in_or_app. auto. }
    destruct (trie_results_tag k (query_shards st)) as (rs' & E & J).
    + rewrite (query_shards_perm st). auto.
    + rewrite (query_shards_perm st). auto.
    + rewrite PS. auto.
    + rewrite map_app in ND. apply (Permutation_NoDup (l := strs (sdata (age st)))).
      * apply Permutation_map. symmetry. auto.
      * apply (nodup_parts _ _ ND).
    + rewrite E. cbn [bind]. destruct J as [[J ->]|(w & W1 & W2 & ->)].
      * rewrite filter_none; auto. intros y Hy. unfold has_str.
        destruct (list_eq_dec N.eq_dec (c_str y) k) as [EX|]; auto. exfalso.
        apply (Permutation_in _ (Permutation_sym PL)) in Hy. apply in_map_iff in Hy as (w & <- & Hw).
        apply filter_In in Hw as [Hw _].
        apply in_app_or in Hw as [Hw|Hw]; [|apply NW; rewrite <- EX; apply (in_map (fun w => c_str (wrec w))); auto].
        apply J. rewrite <- EX. apply (in_map (fun w => c_str (wrec w))). apply (Permutation_in _ (Permutation_sym PS)). auto.
      * rewrite <- W2, (live_of_key _ _ w ND PL); auto.
        apply in_or_app. left. apply (Permutation_in _ PS). auto.
  - assert (IW : In w win /\ (c_addr (wrec w) =? a) = true).
    { apply (filter_In (fun w => c_addr (wrec w) =? a)). rewrite EF. simpl. auto. }
    destruct IW as [IW HW]. apply Nat.eqb_eq in HW. rewrite Forall_forall in AD2.
    destruct (AD2 w IW) as (T & _). cbn [pl_combine bind]. rewrite T, orb_false_r.
    assert (IC : In w (sdata (age st) ++ win)) by (apply in_or_app; auto).
    assert (EK : c_str (wrec w) = k) by (apply AA; auto).
    rewrite <- EK, (live_of_key _ _ w ND PL IC). unfold keep. destruct (is_del w); auto.
Qed.

End TT.

(** What an index with tagging deletes stores. *)
From Coq Require Import List Arith ZArith NArith Lia Bool Permutation Sorted.
From Verif Require Import Base ListLemmas RecordModel RecordProofs BufferModel BufferProofs
  MergeModel MergeProofs StructModel ExtModel StructProofs StructTotal SortedProofs ExtProofs ContentProofs
  TagProofs ExecProofs QueryModel Spec QueryProofs SerialProofs.
Import ListNotations.

Section TC.
Context {R : Type} {RO : RecOps R} {RL : RecLaws R}.
Variable qlt : qorder R.
Context {QO : QOrder qlt}.

Local Arguments set_nth : simpl never.
Local Arguments nth_error : simpl never.

Definition plain (w : wrapped R) : Prop := is_ts w = false.

(** ** Reconstruction without tombstones drops the tagged records only *)

Lemma no_cancel : forall l evs,
  Permutation l (emits evs ++ map fst (cancelled evs) ++ map snd (cancelled evs)) ->
  Forall (fun p : wrapped R * wrapped R => cancels (fst p) (snd p) = true) (cancelled evs) ->
  Forall plain l -> Permutation l (emits evs).
Proof.
  intros l evs P K F. destruct (cancelled evs) as [|p ps].
  - simpl in P. rewrite app_nil_r in P. auto.
  - exfalso. inv K. unfold cancels in H1. apply andb_true_iff in H1 as [_ T].
    rewrite Forall_forall in F. assert (plain (snd p)); [|unfold plain in *; congruence].
    apply F. apply (Permutation_in _ (Permutation_sym P)). rewrite !in_app_iff. simpl. auto.
Qed.

Lemma shard_of_plain : forall l s, shard_of l = Ok s -> Forall plain l ->
  Permutation (map mask3 (filter keep l)) (s_data s).
Proof.
  intros l s H F. apply shard_of_ok in H as (evs & H1 & -> & _).
  pose proof (wsort_perm l) as PS.
  apply Permutation_map, Permutation_filter. eapply Permutation_trans; [exact PS|].
  apply no_cancel; [apply crun_perm; auto|eapply crun_cancelled; eauto|].
  rewrite Forall_forall in *. intros x Hx. apply F.
  apply (Permutation_in _ (Permutation_sym PS)). auto.
Qed.

Lemma sfs_plain : forall m s, shard_from_shards qlt m = Ok s -> Forall plain (sdata m) ->
  Permutation (filter keep (sdata m)) (s_data s).
Proof.
  intros m s H F. destruct (sfs_ok qlt m s H) as (_ & evs & H1 & -> & _).
  apply Permutation_filter. apply no_cancel; auto.
  - apply (mrun_perm qlt). auto.
  - eapply mrun_cancelled; eauto.
Qed.

(** [b] is [a] up to order and without some of its tagged records. *)
Definition sheds (a b : list (wrapped R)) : Prop :=
  exists x, Permutation a (b ++ x) /\ Forall (fun w => is_del w = true) x.

Lemma sheds_refl : forall a, sheds a a.
Proof. intros. exists []. rewrite app_nil_r. auto. Qed.

Lemma sheds_trans : forall a b c, sheds a b -> sheds b c -> sheds a c.
Proof.
  intros a b c (x & P & F) (y & Q & G). exists (y ++ x). split; [|apply Forall_app; auto].
  rewrite P, Q, <- app_assoc. auto.
Qed.

Lemma sheds_mid : forall a m m' b, sheds m m' -> sheds (a ++ m ++ b) (a ++ m' ++ b).
Proof.
  intros a m m' b (x & P & F). exists x. split; auto.
  rewrite P. rewrite <- !app_assoc. do 2 apply Permutation_app_head. apply Permutation_app_comm.
Qed.

Lemma filter_sheds : forall l, sheds l (filter keep l).
Proof.
  intros l. exists (filter (fun w => negb (keep w)) l). split.
  - induction l; simpl; auto. destruct (keep a); simpl.
    + constructor. auto.
    + apply Permutation_cons_app. auto.
  - apply Forall_forall. intros w Hw. apply filter_In in Hw as [_ Hw]. unfold keep in Hw.
    rewrite negb_involutive in Hw. auto.
Qed.

Lemma sheds_perm : forall a b b', Permutation b b' -> sheds a b -> sheds a b'.
Proof. intros a b b' P (x & Q & F). exists x. split; auto. rewrite Q, P. auto. Qed.

Lemma sheds_plain : forall a b, sheds a b -> Forall plain a -> Forall plain b.
Proof.
  intros a b (x & P & _) F. rewrite P in F. apply Forall_app in F. tauto.
Qed.

Lemma sdata_one : forall s : shard R, sdata [s] = s_data s.
Proof. intros. unfold sdata. simpl. apply app_nil_r. Qed.

Lemma seg_steps_sheds : forall a b, seg_steps qlt a b -> Forall plain (sdata a) ->
  sheds (sdata a) (sdata b).
Proof.
  induction 1; intros F; [apply sheds_refl|].
  assert (S : sheds (sdata a) (sdata b)).
  { inv H.
    - rewrite !sdata_app in *. change (s :: b0) with ([s] ++ b0). rewrite sdata_app, sdata_one.
      apply sheds_mid. apply Forall_app in F as [_ F]. apply Forall_app in F as [F _].
      eapply sheds_perm; [apply sfs_plain; [exact H2|auto]|]. apply filter_sheds.
    - rewrite !sdata_app. rewrite (sdata_empty m) by auto. apply sheds_refl. }
  eapply sheds_trans; [exact S|]. apply IHseg_steps. eapply sheds_plain; eauto.
Qed.

(** ** Executions *)

Variable C : cfg.
Hypothesis V : valid_cfg C.

Local Lemma LW : 1 <= c_lwm C. Proof. destruct V as (? & ? & ? & ?). auto. Qed.
Local Lemma WM : c_lwm C <= c_hwm C. Proof. destruct V as (? & ? & ? & ?). auto. Qed.
Local Lemma SF : 1 <= c_sf C. Proof. destruct V as (? & ? & ? & ?). auto. Qed.

Lemma sinv_flush : forall st d win pos tsn s st', sinv C shard_ok st ->
  vok d (bview C win pos tsn) -> v_copy d (bview C win pos tsn) = Ok win ->
  shard_of win = Ok s -> (c_layout C = BSM -> Forall nonempty (age st)) ->
  reconstruct_struct qlt C st d (bview C win pos tsn) = Ok st' ->
  sinv C shard_ok st' /\ seg_steps qlt (age st ++ [s]) (age st').
Proof.
  intros st d win pos tsn s st' [S1 S2 S3] VO VC ES NE ER.
  destruct (recon_ok qlt C SF _ _ _ _ S1 VO S3 NE ER) as (T1 & T2 & _ & s' & T3 & T4).
  simpl in T3. rewrite (sfv_shard_of _ _ _ VC) in T3. rewrite ES in T3. inv T3. split; auto.
  constructor; auto. eapply (seg_steps_ok qlt); [exact T4|]. apply Forall_app. split; auto.
  constructor; auto. apply shard_of_ok in ES as (_ & _ & _ & ?). auto.
Qed.

(** Which record a tagged delete in the levels changes. *)
Lemma tag_age : forall r (st st' : structure R), tagged_delete r st = Some st' ->
  exists a s b i w, age st = a ++ s :: b /\ age st' = a ++ tagged_at s i w :: b /\
    first_match r (s_data s) i w.
Proof.
  intros r st st' H. pose proof (tagged_delete_spec r st) as P. rewrite H in P.
  destruct P as (la & l & lb & a & s & b & i & w & E1 & E2 & F & ->).
  destruct st as [ls state]. simpl in *. subst ls. unfold age. simpl.
  rewrite !AGE_app, !AGE_cons, E2. simpl.
  exists (AGE lb ++ a), s, (b ++ AGE la), i, w. split; [|split; auto].
  - rewrite <- !app_assoc. simpl. auto.
  - rewrite <- !app_assoc. simpl. auto.
Qed.

Lemma set_one : forall (l : list (wrapped R)) i w, nth_error l i = Some w ->
  exists rest, Permutation l (w :: rest) /\ Permutation (set_nth i (set_delete w) l) (set_delete w :: rest).
Proof.
  intros l i w H. destruct (set_nth_split i (set_delete w) w l H) as (a & b & -> & _ & ->).
  exists (a ++ b). split; symmetry; apply Permutation_cons_app; auto.
Qed.

Lemma tag_perm : forall r (st st' : structure R), tagged_delete r st = Some st' ->
  exists w rest, req (wrec w) r = true /\ Permutation (sdata (age st)) (w :: rest) /\
    Permutation (sdata (age st')) (set_delete w :: rest).
Proof.
  intros r st st' H. destruct (tag_age _ _ _ H) as (a & s & b & i & w & -> & -> & F1 & F2 & _).
  destruct (set_one _ _ _ F1) as (rest & P & Q).
  exists w, (sdata a ++ rest ++ sdata b). split; auto. split.
  - rewrite sdata_app. change (s :: b) with ([s] ++ b). rewrite sdata_app, sdata_one, P. simpl.
    symmetry. apply Permutation_cons_app. auto.
  - rewrite sdata_app. change (tagged_at s i w :: b) with ([tagged_at s i w] ++ b).
    rewrite sdata_app, sdata_one. unfold tagged_at. cbn [s_data]. rewrite Q. simpl.
    symmetry. apply Permutation_cons_app. auto.
Qed.

Lemma miss_age : forall r (st : structure R), tagged_delete r st = None -> no_match r (sdata (age st)).
Proof.
  intros r st H. pose proof (tagged_delete_spec r st) as P. rewrite H in P.
  intros w Hw. unfold sdata in Hw. apply in_concat in Hw as (d & Hd & Hw).
  apply in_map_iff in Hd as (s & <- & Hs). unfold age, AGE in Hs.
  apply in_concat in Hs as (ss & Hss & Hs). apply in_map_iff in Hss as (l & <- & Hl).
  rewrite <- in_rev in Hl. rewrite Forall_forall in P. specialize (P l Hl).
  rewrite Forall_forall in P. apply (P s Hs). auto.
Qed.

(** ** Tagging: nothing but tagged records is ever dropped *)

Definition cont (st : structure R) (win : list (wrapped R)) : list (wrapped R) := sdata (age st) ++ win.

Lemma tagging_ins : forall (o : op R) r ts, c_del C = TAGGING -> appends C o -> oplog o = (r, ts) ->
  o = Ins r /\ ts = false.
Proof. intros [x|x] r ts T [A|A] E; simpl in *; inv E; auto; congruence. Qed.

Lemma mask3_keep_sheds : forall (l : list (wrapped R)), sheds (map mask3 l) (map mask3 (filter keep l)).
Proof.
  intros. destruct (filter_sheds (map mask3 l)) as (x & P & F). exists x.
  rewrite filter_map_mask3 in P. auto.
Qed.

Definition bare (w : wrapped R) : R * bool * bool := (wrec w, is_ts w, is_del w).

Lemma bare_mask3 : forall w : wrapped R, bare (mask3 w) = bare w.
Proof.
  intros. unfold bare. rewrite mask3_del. pose proof (rt_mask3 w) as E. unfold rt in E.
  injection E as E1. rewrite E1. auto.
Qed.

(** One flush: the contents, as (record, tombstone, tagged) triples, lose only
    tagged records. *)
Definition bsheds (a b : list (R * bool * bool)) : Prop :=
  exists x, Permutation a (b ++ x) /\ Forall (fun t => snd t = true) x.

Lemma sheds_bare : forall a b, sheds a b -> bsheds (map bare a) (map bare b).
Proof.
  intros a b (x & P & F). exists (map bare x). split.
  - rewrite <- map_app. apply Permutation_map. auto.
  - apply Forall_map. auto.
Qed.

Lemma flush_sheds : forall st win s st', Forall plain (cont st win) -> shard_of win = Ok s ->
  seg_steps qlt (age st ++ [s]) (age st') ->
  bsheds (map bare (cont st win)) (map bare (sdata (age st'))) /\ Forall plain (sdata (age st')).
Proof.
  intros st win s st' F ES SS. unfold cont in *. apply Forall_app in F as [F1 F2].
  pose proof (shard_of_plain _ _ ES F2) as P.
  assert (FS : Forall plain (s_data s)).
  { rewrite <- P. apply Forall_map. apply Forall_forall. intros x Hx. apply filter_In in Hx as [Hx _].
    rewrite Forall_forall in F2. specialize (F2 _ Hx). unfold plain in *.
    pose proof (rt_mask3 x) as E. unfold rt in E. injection E as E. congruence. }
  assert (FA : Forall plain (sdata (age st ++ [s]))).
  { rewrite sdata_app, sdata_one. apply Forall_app. auto. }
  pose proof (seg_steps_sheds _ _ SS FA) as SH. split; [|eapply sheds_plain; eauto].
  apply sheds_bare in SH. destruct SH as (x & PX & FX).
  destruct (filter_sheds win) as (y & PY & FY).
  exists (x ++ map bare y). split.
  - rewrite map_app, app_assoc. rewrite <- PX. rewrite sdata_app, sdata_one, map_app, <- app_assoc.
    apply Permutation_app_head. rewrite <- P. rewrite map_map.
    rewrite (map_ext (fun x => bare (mask3 x)) bare) by apply bare_mask3.
    rewrite <- map_app. apply Permutation_map. auto.
  - apply Forall_app. split; auto. apply Forall_map. auto.
Qed.

(** ** Survivors keep every shard non-empty *)

Definition kept_shard (full : list (op R)) (s : shard R) : Prop :=
  exists w, In w (s_data s) /\ keep w = true /\ n_del (wrec w) full = 0.

Lemma kept_nonempty : forall full s, kept_shard full s -> nonempty s.
Proof. intros full s (w & H & _) E. rewrite E in H. destruct H. Qed.

Lemma kept_sfs : forall full m s, shard_from_shards qlt m = Ok s -> Forall plain (sdata m) ->
  m <> [] -> Forall (kept_shard full) m -> kept_shard full s.
Proof.
  intros full m s H F NE K. pose proof (sfs_plain _ _ H F) as P.
  destruct m as [|s0 m]; [congruence|]. inv K. destruct H2 as (w & H4 & H5 & H6).
  exists w. split; auto. apply (Permutation_in _ P). apply filter_In. split; auto.
  unfold sdata. simpl. apply in_app_iff. auto.
Qed.

Lemma seg_steps_kept : forall full a b, seg_steps qlt a b -> Forall plain (sdata a) ->
  Forall (kept_shard full) a -> Forall (kept_shard full) b.
Proof.
  intros full. induction 1; auto. intros F K. apply IHseg_steps.
  - eapply sheds_plain; [|exact F]. apply seg_steps_sheds; auto. apply seg_steps_one. auto.
  - inv H.
    + apply Forall_app in K as [K1 K2]. apply Forall_app in K2 as [K2 K3].
      rewrite !sdata_app in F. apply Forall_app in F as [_ F]. apply Forall_app in F as [F _].
      apply Forall_app. split; auto. constructor; auto. eapply kept_sfs; eauto.
    + apply Forall_app in K as [K1 K2]. apply Forall_app in K2 as [K2 K3].
      apply Forall_app. auto.
Qed.

Lemma n_del_in : forall r (ops : list (op R)), In (Del r) ops -> n_del r ops <> 0.
Proof.
  intros r ops H E. assert (0 < n_del r ops); [|lia].
  unfold n_del. apply countb_pos. exists (Del r). split; auto. apply req_refl.
Qed.

Lemma n_del_req : forall a b (ops : list (op R)), req a b = true -> n_del a ops = n_del b ops.
Proof.
  intros. unfold n_del. apply countb_ext. intros [x|x] _; auto. apply req_congr. auto.
Qed.

Lemma inserted_app : forall a b : list (op R), inserted (a ++ b) = inserted a ++ inserted b.
Proof. intros. unfold inserted. apply flat_map_app. Qed.

(** What executions with tagging keep. *)
Record tagged_inv (full ops : list (op R)) (st : structure R) (win : list (wrapped R)) (pos : nat) : Prop := {
  tg_sinv : sinv C shard_ok st;
  tg_plain : Forall plain (cont st win);
  tg_win : map wrec win = skipn pos (inserted ops);
  tg_pos : exists k, pos = k * c_lwm C;
  tg_len : pos + length win = length (inserted ops);
  tg_keep : Forall (fun w => n_del (wrec w) full = 0 -> keep w = true) win;
  tg_shards : survivors (c_lwm C) full -> Forall (kept_shard full) (age st);
  tg_nz : win = [] -> pos = 0
}.

Lemma plain_append : forall (r : R) p, plain (append_rec r false p).
Proof. intros. unfold plain. apply append_rec_ts. Qed.

Lemma kept_flush : forall full ops st win pos post s, tagged_inv full ops st win pos ->
  full = ops ++ post -> length win = c_lwm C -> survivors (c_lwm C) full ->
  shard_of win = Ok s -> kept_shard full s.
Proof.
  intros full ops st win pos post s [] E L SV ES.
  destruct tg_pos0 as (k & K).
  destruct (SV k) as (r & HR & HD).
  { rewrite E, inserted_app, app_length. nia. }
  assert (EB : firstn (c_lwm C) (skipn (k * c_lwm C) (inserted full)) = map wrec win).
  { rewrite tg_win0, E, inserted_app, <- K, skipn_app, firstn_app.
    rewrite (firstn_all2 (n := c_lwm C)) by (rewrite skipn_length; lia).
    rewrite skipn_length. replace (c_lwm C - _) with 0 by lia. rewrite firstn_O, app_nil_r. auto. }
  rewrite EB in HR. apply in_map_iff in HR as (w & <- & Hw).
  unfold cont in tg_plain0. apply Forall_app in tg_plain0 as [_ FP].
  pose proof (shard_of_plain _ _ ES FP) as P.
  rewrite Forall_forall in tg_keep0. pose proof (tg_keep0 w Hw HD) as KW.
  exists (mask3 w). split; [|split].
  - apply (Permutation_in _ P). apply in_map. apply filter_In. auto.
  - unfold keep in *. rewrite mask3_del. auto.
  - destruct w. auto.
Qed.

Lemma exec_tagged : forall full ops rs st win pos tsn,
  c_del C = TAGGING ->
  exec qlt C ops rs st win pos tsn -> forall post, full = ops ++ post ->
  tagged_inv full ops st win pos.
Proof.
  intros full ops rs st win pos tsn TG H. induction H; intros post E.
  - constructor; simpl; auto.
    + apply empty_sinv.
    + constructor.
    + exists 0. auto.
    + intros _. constructor.
  - rewrite <- app_assoc in E. destruct (IHexec _ E) as [].
    destruct (tagging_ins _ _ _ TG H0 H1) as [-> ->].
    constructor; auto.
    + unfold cont in *. rewrite app_assoc. apply Forall_app. split; auto.
      constructor; auto. apply plain_append.
    + rewrite map_app, inserted_app. simpl. rewrite tg_win0.
      rewrite skipn_app. replace (pos - length (inserted ops)) with 0 by lia. auto.
    + rewrite app_length, inserted_app, app_length. simpl. lia.
    + apply Forall_app. split; auto. constructor; auto. intros _. unfold keep. rewrite append_rec_del. auto.
    + intros Q. destruct win; discriminate.
  - rewrite <- app_assoc in E. pose proof (IHexec _ E) as I. pose proof I as [].
    destruct (tagging_ins _ _ _ TG H0 H1) as [-> ->].
    destruct (sinv_flush _ _ _ _ _ _ _ tg_sinv0 H3 H4 H5 H7 H6) as [S1 SS].
    destruct (flush_sheds _ _ _ _ tg_plain0 H5 SS) as [_ FP].
    constructor; auto.
    + unfold cont. apply Forall_app. split; auto. constructor; auto. apply plain_append.
    + simpl. rewrite inserted_app. simpl.
      rewrite skipn_app, skipn_all2 by lia. replace (pos + length win - _) with 0 by lia. auto.
    + destruct tg_pos0 as (k & ->). exists (S k). rewrite H2. simpl. lia.
    + rewrite inserted_app, app_length. simpl. lia.
    + constructor; auto. intros _. unfold keep. rewrite append_rec_del. auto.
    + intros Q. eapply seg_steps_kept; [exact SS| |].
      * rewrite sdata_app, sdata_one. unfold cont in tg_plain0. apply Forall_app in tg_plain0 as [F1 F2].
        apply Forall_app. split; auto. rewrite <- (shard_of_plain _ _ H5 F2).
        apply Forall_map. apply Forall_forall. intros x Hx. apply filter_In in Hx as [Hx _].
        rewrite Forall_forall in F2. specialize (F2 _ Hx). unfold plain in *.
        pose proof (rt_mask3 x) as E1. unfold rt in E1. injection E1 as E1. congruence.
      * apply Forall_app. split; auto. constructor; auto. eapply kept_flush; eauto.
    + discriminate.
  - rewrite <- app_assoc in E. destruct (IHexec _ E) as [].
    destruct (tagged_shape C _ _ _ H1) as (T1 & T2 & T3 & _).
    destruct (tag_perm _ _ _ H1) as (w & rest & RQ & P1 & P2).
    constructor; auto.
    + destruct tg_sinv0. constructor; auto.
    + unfold cont in *. apply Forall_app in tg_plain0 as [F1 F2]. apply Forall_app. split; auto.
      rewrite P2. rewrite P1 in F1. inv F1. constructor; auto. unfold plain in *.
      rewrite is_ts_set_delete. auto.
    + rewrite inserted_app, app_nil_r. auto.
    + rewrite inserted_app, app_nil_r. auto.
    + intros Q. specialize (tg_shards0 Q).
      destruct (tag_age _ _ _ H1) as (a & s & b & i & w' & EA & -> & F1 & F2 & _).
      rewrite EA in tg_shards0. apply Forall_app in tg_shards0 as [G1 G2]. inv G2.
      apply Forall_app. split; auto. constructor; auto.
      destruct H4 as (x & X1 & X2 & X3). exists x. split; auto.
      unfold tagged_at. cbn [s_data].
      apply In_nth_error in X1 as (j & X1).
      destruct (Nat.eq_dec i j).
      * subst j. assert (w' = x) by congruence. subst x. exfalso.
        rewrite (n_del_req _ _ _ F2) in X3. revert X3. apply n_del_in.
        apply in_app_iff. right. simpl. auto.
      * apply nth_error_In with j. rewrite nth_error_set_nth_neq; auto.
  - rewrite <- app_assoc in E. destruct (IHexec _ E) as [].
    assert (EM : map wrec (set_nth i (set_delete w) win) = map wrec win).
    { destruct H2 as (H2 & _). destruct (set_nth_split i (set_delete w) w win H2) as (a & b & -> & _ & ->).
      rewrite !map_app. auto. }
    destruct H2 as (M1 & M2 & _).
    constructor; auto.
    + unfold cont in *. apply Forall_app in tg_plain0 as [F1 F2]. apply Forall_app. split; auto.
      apply Forall_set_nth; auto. rewrite Forall_forall in F2. specialize (F2 w (nth_error_In _ _ M1)).
      unfold plain in *. rewrite is_ts_set_delete. auto.
    + rewrite inserted_app, app_nil_r, EM. auto.
    + rewrite inserted_app, app_nil_r, set_nth_length. auto.
    + apply Forall_set_nth; auto. rewrite set_delete_wrec. intros Q. exfalso.
      rewrite (n_del_req _ _ _ M2) in Q. revert Q. rewrite E. apply n_del_in.
      apply in_app_iff. right. simpl. auto.
    + intros Q. apply tg_nz0. apply (f_equal (@length _)) in Q. rewrite set_nth_length in Q.
      destruct win; [auto|discriminate].
  - rewrite <- app_assoc in E. destruct (IHexec _ E) as [].
    constructor; auto; rewrite inserted_app, app_nil_r; auto.
Qed.

End TC.

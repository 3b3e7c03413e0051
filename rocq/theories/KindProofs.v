(** Histories of indexes whose shards keep every record: the contents, the counts, the
    static structure, kNN over VPTree shards and point lookup over tries. *)
From Coq Require Import List Arith ZArith NArith Lia Bool Permutation Sorted.
From Verif Require Import Base ListLemmas RecordModel RecordProofs BufferModel BufferProofs
  MergeModel MergeProofs StructModel ExtModel StructProofs StructTotal SortedProofs ExtProofs ContentProofs
  QueryModel Spec QueryProofs SerialProofs HeaderProofs VPModel VPSpec VPProofs KNNProofs KNNAny KindModel KindSpec.
Import ListNotations.

(** The constructors keep all admissible records. *)
Class KeepLaws {R : Type} {RO : RecOps R} (BD : builders R) (ok : shard R -> Prop)
  (adm : wrapped R -> Prop) : Prop := {
  keep_built : forall l s, built BD l = Ok s -> Forall adm l ->
    Permutation (map rt l) (map rt (s_data s)) /\ Forall adm (s_data s);
  keep_shards : forall ss s, from_shards BD ss = Ok s -> Forall ok ss -> Forall adm (sdata ss) ->
    Permutation (map rt (sdata ss)) (map rt (s_data s)) /\ Forall adm (s_data s)
}.

Section Keep.
Context {R : Type} {RO : RecOps R}.
Variable BD : builders R.
Variable C : cfg.
Context {ok : shard R -> Prop} {SL : ShardLaws BD ok}.
Context {adm : wrapped R -> Prop} {KL : KeepLaws BD ok adm}.
Hypothesis V : valid_cfg C.

Local Lemma KLW : 1 <= c_lwm C. Proof. destruct V as (? & ? & ? & ?). auto. Qed.
Local Lemma KWM : c_lwm C <= c_hwm C. Proof. destruct V as (? & ? & ? & ?). auto. Qed.
Local Lemma KSF : 1 <= c_sf C. Proof. destruct V as (? & ? & ? & ?). auto. Qed.
Local Lemma KB2 : c_layout C = BSM -> c_sf C = 2. Proof. destruct V as (? & ? & ? & ?). auto. Qed.
Local Hint Resolve KLW KWM KSF KB2 : core.

Definition admitted (ops : list (R * bool)) : Prop :=
  forall r ts p, In (r, ts) ops -> adm (append_rec r ts p).

Local Lemma sdata_one : forall s : shard R, sdata [s] = s_data s.
Proof. intros. unfold sdata. simpl. apply app_nil_r. Qed.

(** What holds of the shards [b] that replace the shards [a]. *)
Definition kept (a b : list (shard R)) : Prop :=
  Permutation (map rt (sdata a)) (map rt (sdata b)) /\ Forall adm (sdata b) /\ Forall ok b /\
  (Forall nonempty a -> Forall nonempty b).

Lemma rt_nonempty : forall (l : list (wrapped R)) m, Permutation (map rt l) (map rt m) -> l <> [] -> m <> [].
Proof. intros. apply Permutation_length in H. rewrite !map_length in H. destruct l, m; simpl in *; congruence. Qed.

Lemma merge_kept : forall m s, from_shards BD m = Ok s -> m <> [] -> Forall ok m -> Forall adm (sdata m) ->
  kept m [s].
Proof.
  intros m s H NZ O A. destruct (keep_shards _ _ H O A) as [P A']. unfold kept. rewrite sdata_one.
  repeat split; auto.
  - constructor; auto. eapply shards_ok; eauto.
  - intros N. constructor; auto. unfold nonempty. apply (rt_nonempty (sdata m)); auto.
    destruct m; [congruence|]. inv N. unfold nonempty in H2. unfold sdata. simpl.
    destruct (s_data s0); [congruence|discriminate].
Qed.

Lemma kept_refl : forall a, Forall ok a -> Forall adm (sdata a) -> kept a a.
Proof. intros. repeat split; auto. Qed.
Lemma kept_trans : forall a b c, kept a b -> kept b c -> kept a c.
Proof. intros a b c (H1 & H2 & H3 & H4) (K1 & K2 & K3 & K4). repeat split; auto. etransitivity; eauto. Qed.
Lemma kept_app : forall a a' b b', kept a a' -> kept b b' -> kept (a ++ b) (a' ++ b').
Proof.
  intros a a' b b' (H1 & H2 & H3 & H4) (K1 & K2 & K3 & K4). unfold kept.
  rewrite !sdata_app, !map_app. repeat split; try (apply Forall_app; auto).
  - apply Permutation_app; auto.
  - intros N. apply Forall_app in N as [N1 N2]. apply Forall_app. auto.
Qed.

Lemma sdata_nil : forall m : list (shard R), Forall (fun s => s_data s = []) m -> sdata m = [].
Proof. induction 1; auto. unfold sdata in *. simpl. rewrite H, IHForall. auto. Qed.

Lemma seg_steps_kept : forall a b, seg_steps BD a b -> Forall ok a -> Forall adm (sdata a) -> kept a b.
Proof.
  induction 1; intros O A; [apply kept_refl; auto|].
  assert (K : kept a b).
  { inv H; rewrite !sdata_app in A; apply Forall_app in A as [A1 A2]; apply Forall_app in A2 as [A2 A3];
      apply Forall_app in O as [O1 O2]; apply Forall_app in O2 as [O2 O3].
    - change (s :: b0) with ([s] ++ b0). apply kept_app; [apply kept_refl; auto|].
      apply kept_app; [|apply kept_refl; auto]. apply merge_kept; auto.
    - apply kept_app; [apply kept_refl; auto|]. change b0 with ([] ++ b0) at 2.
      apply kept_app; [|apply kept_refl; auto]. unfold kept. rewrite (sdata_nil m) by auto. repeat split; auto; constructor. }
  eapply kept_trans; [exact K|]. destruct K as (_ & K1 & K2 & _). auto.
Qed.

Lemma hist_kept : forall ops ss win pos, hist BD C ops ss win pos -> admitted ops ->
  Permutation ops (map rt (sdata ss ++ win)) /\ Forall adm (sdata ss ++ win) /\ Forall ok ss /\ Forall nonempty ss.
Proof.
  induction 1; intros AD.
  - simpl. auto.
  - destruct IHhist as (P & A & O & N). { intros r' ts' p Hp. apply AD. apply in_or_app. auto. }
    rewrite app_assoc, map_app. simpl. rewrite rt_append. repeat split; auto.
    + apply Permutation_app_tail. auto.
    + apply Forall_app. split; auto. constructor; auto. apply AD. apply in_or_app. simpl. auto.
  - destruct IHhist as (P & A & O & N). { intros r' ts' p Hp. apply AD. apply in_or_app. auto. }
    apply Forall_app in A as [A1 A2].
    destruct (keep_built _ _ H1 A2) as [P1 A3].
    assert (O1 : Forall ok (ss ++ [s])).
    { apply Forall_app. split; auto. constructor; auto. exact (proj1 (built_ok BD _ _ H1)). }
    assert (A4 : Forall adm (sdata (ss ++ [s]))).
    { rewrite sdata_app, sdata_one. apply Forall_app. auto. }
    assert (N1 : Forall nonempty (ss ++ [s])).
    { apply Forall_app. split; auto. constructor; auto. unfold nonempty. apply (rt_nonempty win); auto.
      pose proof KLW. destruct win; [simpl in H0; lia|discriminate]. }
    destruct (seg_steps_kept _ _ H2 O1 A4) as (K1 & K2 & K3 & K4).
    rewrite map_app. simpl. rewrite rt_append. repeat split; auto.
    + apply Permutation_app_tail. rewrite P. rewrite <- K1. rewrite sdata_app, sdata_one, !map_app.
      apply Permutation_app_head. auto.
    + apply Forall_app. split; auto. constructor; auto. apply AD. apply in_or_app. simpl. auto.
Qed.

Lemma admitted_prefix : forall a b, admitted (a ++ b) -> admitted a.
Proof. intros a b H r ts p I. apply H. apply in_or_app. auto. Qed.

Lemma kept_never_empty : forall ops, admitted ops -> never_empty BD C ops.
Proof.
  intros ops A pre post ss win pos E H. subst ops. apply admitted_prefix in A.
  destruct (hist_kept _ _ _ _ H A) as (_ & A1 & _ & N). split; auto.
  intros L s B. apply Forall_app in A1 as [_ A1]. destruct (keep_built _ _ B A1) as [P _].
  apply (rt_nonempty win); auto. pose proof KLW. destruct win; [simpl in L; lia|discriminate].
Qed.

Lemma kept_bsm_ok : forall ops, admitted (map oplog ops) -> bsm_ok BD C ops.
Proof.
  intros ops A _ pre post e rs st win pos tsn E _ _ H. subst ops. rewrite map_app in A.
  apply admitted_prefix in A. apply (hist_kept _ _ _ _ H A).
Qed.

(** ** Whole histories *)

Theorem kept_runs : forall ops, Forall (appends C) ops -> admitted (map oplog ops) ->
  exists e, run_new BD C ops = Ok (e, repeat 1 (length ops)).
Proof. intros. apply (run_total BD C); auto. apply kept_never_empty; auto. Qed.

Lemma kept_facts : forall ops e rs, Forall (appends C) ops -> admitted (map oplog ops) ->
  run_new BD C ops = Ok (e, rs) ->
  exists st win pos, einv C e st win pos (countb snd (map oplog ops)) /\
    Permutation (map oplog ops) (map rt (sdata (age st) ++ win)) /\ Forall adm (sdata (age st) ++ win) /\
    Forall ok (age st) /\ Forall nonempty (age st).
Proof.
  intros ops e rs AP A H.
  destruct (run_hist BD C KSF KLW KWM ops e rs (kept_bsm_ok _ A) AP H) as (_ & st & win & pos & I & _ & HH).
  exists st, win, pos. split; auto. apply (hist_kept _ _ _ _ HH A).
Qed.

Theorem kept_stored : forall ops e rs, Forall (appends C) ops -> admitted (map oplog ops) ->
  run_new BD C ops = Ok (e, rs) -> Permutation (map oplog ops) (map rt (stored e)).
Proof.
  intros ops e rs AP A H. destruct (kept_facts _ _ _ AP A H) as (st & win & pos & I & P & _).
  rewrite P. apply Permutation_map. symmetry. eapply stored_eq; eauto.
Qed.

Lemma reccnt_len : forall st : structure R, Forall ok (age st) -> st_reccnt st = length (sdata (age st)).
Proof.
  intros [ls state]. unfold age, st_reccnt. simpl. induction ls; intros; auto.
  rewrite AGE_cons, sdata_app, app_length in *. simpl. apply Forall_app in H as [H1 H2].
  unfold sum_list in *. simpl. rewrite IHls by auto.
  assert (E : lv_reccnt a = length (sdata (lv_shards a))); [|lia].
  unfold lv_reccnt, sdata. clear -H2 SL. induction H2; auto. simpl. rewrite app_length.
  apply ok_count in H. unfold sum_list in *. simpl. lia.
Qed.

Theorem kept_count : forall ops e rs, Forall (appends C) ops -> admitted (map oplog ops) ->
  run_new BD C ops = Ok (e, rs) -> get_record_count e = Ok (e, length ops).
Proof.
  intros ops e rs AP A H. destruct (kept_facts _ _ _ AP A H) as (st & win & pos & I & P & _ & O & _).
  unfold get_record_count. rewrite (with_epoch_eq C _ _ _ _ _ _ I). simpl. do 2 f_equal.
  rewrite (bview_count C KSF KLW KWM), reccnt_len by auto.
  apply Permutation_length in P. rewrite !map_length, app_length in P. lia.
Qed.

(** ** The static structure *)

Lemma combined_kept : forall ls, Forall ok (concat (map lv_shards ls)) ->
  Forall adm (sdata (concat (map lv_shards ls))) -> Forall nonempty (concat (map lv_shards ls)) ->
  exists ss, combined_shards BD ls = Ok ss /\ kept (concat (map lv_shards ls)) ss.
Proof.
  induction ls; simpl; intros O A N; [exists []; split; auto; apply kept_refl; auto|].
  apply Forall_app in O as [O1 O2]. apply Forall_app in N as [N1 N2].
  rewrite sdata_app in A. apply Forall_app in A as [A1 A2].
  destruct (IHls O2 A2 N2) as (ss & E & K).
  destruct (Nat.ltb_spec 0 (lv_reccnt a)).
  - unfold lv_combined. destruct (Nat.eqb_spec (lv_count a) 0).
    { unfold lv_count in e. unfold lv_reccnt in H. destruct (lv_shards a); [simpl in H; lia|discriminate]. }
    destruct (shards_total (B := BD) (lv_shards a)) as [s Es]; auto.
    rewrite Es. simpl. rewrite E. simpl. eexists. split; [reflexivity|].
    change (s :: ss) with ([s] ++ ss). apply kept_app; auto. apply merge_kept; auto.
    unfold lv_count in n. destruct (lv_shards a); [simpl in n; congruence|discriminate].
  - exists ss. split; auto. destruct (lv_shards a) as [|s l] eqn:EL; auto.
    exfalso. inv O1. inv N1. apply ok_count in H2. unfold nonempty in H4.
    unfold lv_reccnt, sum_list in H. rewrite EL in H. simpl in H.
    destruct (s_data s); [congruence|simpl in *; lia].
Qed.

Theorem kept_static : forall ops e rs, Forall (appends C) ops -> admitted (map oplog ops) ->
  run_new BD C ops = Ok (e, rs) ->
  exists s, create_static_structure BD e = Ok (e, s) /\ ok s /\
    Permutation (map oplog ops) (map rt (s_data s)).
Proof.
  intros ops e rs AP A H. destruct (kept_facts _ _ _ AP A H) as (st & win & pos & I & P & AD & O & N).
  unfold create_static_structure, static_on. rewrite (with_epoch_eq C _ _ _ _ _ _ I). rewrite (bview_count C KSF KLW KWM).
  destruct (einv_records C KSF KLW KWM _ _ _ _ _ I) as [VR _].
  rewrite (view_built BD _ _ _ (einv_vok C KSF KLW KWM _ _ _ _ _ I) VR).
  apply Forall_app in AD as [AD1 AD2].
  assert (EQ : concat (map lv_shards (rev (st_levels st))) = age st) by reflexivity.
  destruct (combined_kept (rev (st_levels st))) as (ss & E & K1 & K2 & K3 & K4); try (rewrite EQ; auto).
  rewrite EQ in *. rewrite E. simpl.
  assert (B : exists bs, (if 0 <? length win then do s <- built BD win; Ok [s] else Ok []) = Ok bs /\
    Permutation (map rt win) (map rt (sdata bs)) /\ Forall adm (sdata bs) /\ Forall ok bs /\ Forall nonempty bs).
  { destruct win as [|w win]; simpl; [exists []; repeat split; auto|].
    destruct (built_total BD (w :: win)) as [s Es]. rewrite Es. simpl. exists [s].
    destruct (keep_built _ _ Es AD2) as [Q1 Q2]. rewrite sdata_one. repeat split; auto.
    - constructor; auto. exact (proj1 (built_ok BD _ _ Es)).
    - constructor; auto. unfold nonempty. apply (rt_nonempty (w :: win)); auto. discriminate. }
  destruct B as (bs & -> & B1 & B2 & B3 & B4). simpl.
  destruct (shards_total (B := BD) (ss ++ bs)) as [s Es]; try (apply Forall_app; split; auto).
  rewrite Es. simpl. exists s. split; auto.
  assert (OS : Forall ok (ss ++ bs)) by (apply Forall_app; auto).
  assert (AS : Forall adm (sdata (ss ++ bs))) by (rewrite sdata_app; apply Forall_app; auto).
  split; [eapply shards_ok; eauto|].
  destruct (keep_shards _ _ Es OS AS) as [Q _]. rewrite P, <- Q, sdata_app, !map_app.
  apply Permutation_app; auto.
Qed.

End Keep.

(** ** Kinds whose merges cancel records with tombstones *)

Class CancelLaws {R : Type} {RO : RecOps R} (BD : builders R) (ok : shard R -> Prop)
  (adm : wrapped R -> Prop) : Prop := {
  cancel_built : forall l s, built BD l = Ok s -> Forall adm l ->
    Forall adm (s_data s) /\ exists ps, cancel_of (map rt l) (map rt (s_data s)) ps;
  cancel_shards : forall ss s, from_shards BD ss = Ok s -> Forall ok ss -> Forall adm (sdata ss) ->
    Forall adm (s_data s) /\ exists ps, cancel_of (map rt (sdata ss)) (map rt (s_data s)) ps
}.

Section Cancel.
Context {R : Type} {RO : RecOps R} {RL : RecLaws R}.
Variable BD : builders R.
Variable C : cfg.
Context {ok : shard R -> Prop} {SL : ShardLaws BD ok}.
Context {adm : wrapped R -> Prop} {CL : CancelLaws BD ok adm}.
Hypothesis V : valid_cfg C.

Local Lemma CLW : 1 <= c_lwm C. Proof. destruct V as (? & ? & ? & ?). auto. Qed.
Local Lemma CWM : c_lwm C <= c_hwm C. Proof. destruct V as (? & ? & ? & ?). auto. Qed.
Local Lemma CSF : 1 <= c_sf C. Proof. destruct V as (? & ? & ? & ?). auto. Qed.
Local Lemma CB2 : c_layout C = BSM -> c_sf C = 2. Proof. destruct V as (? & ? & ? & ?). auto. Qed.
Local Hint Resolve CLW CWM CSF CB2 : core.

Definition reduced (a b : list (shard R)) : Prop :=
  Forall adm (sdata b) /\ Forall ok b /\ (Forall pos_shard a -> Forall pos_shard b) /\
  exists ps, cancel_of (map rt (sdata a)) (map rt (sdata b)) ps.

Lemma reduced_refl : forall a, Forall ok a -> Forall adm (sdata a) -> reduced a a.
Proof. intros. repeat split; auto. exists []. apply cancel_of_refl. Qed.
Lemma reduced_trans : forall a b c, reduced a b -> reduced b c -> reduced a c.
Proof.
  intros a b c (H1 & H2 & H3 & ps & H4) (K1 & K2 & K3 & qs & K4). repeat split; auto.
  exists (ps ++ qs). eapply cancel_of_trans; eauto.
Qed.
Lemma reduced_app : forall a a' b b', reduced a a' -> reduced b b' -> reduced (a ++ b) (a' ++ b').
Proof.
  intros a a' b b' (H1 & H2 & H3 & ps & H4) (K1 & K2 & K3 & qs & K4). unfold reduced.
  rewrite !sdata_app, !map_app. repeat split; try (apply Forall_app; auto).
  - intros N. apply Forall_app in N as [N1 N2]. apply Forall_app. auto.
  - exists (ps ++ qs). apply cancel_of_app; auto.
Qed.

Lemma merge_reduced : forall m s, from_shards BD m = Ok s -> m <> [] -> Forall ok m -> Forall adm (sdata m) ->
  reduced m [s].
Proof.
  intros m s H NZ O A. destruct (cancel_shards _ _ H O A) as [A' (ps & K)].
  assert (ES : sdata [s] = s_data s) by (unfold sdata; simpl; apply app_nil_r).
  unfold reduced. rewrite ES. repeat split; eauto.
  - constructor; auto. eapply shards_ok; eauto.
  - intros P. constructor; auto. unfold pos_shard. rewrite <- (net_cancel _ _ _ K). apply sum_pos; auto.
Qed.

Lemma seg_steps_reduced : forall a b, seg_steps BD a b -> Forall ok a -> Forall adm (sdata a) -> reduced a b.
Proof.
  induction 1; intros O A; [apply reduced_refl; auto|].
  assert (K : reduced a b).
  { inv H; rewrite !sdata_app in A; apply Forall_app in A as [A1 A2]; apply Forall_app in A2 as [A2 A3];
      apply Forall_app in O as [O1 O2]; apply Forall_app in O2 as [O2 O3].
    - change (s :: b0) with ([s] ++ b0). apply reduced_app; [apply reduced_refl; auto|].
      apply reduced_app; [|apply reduced_refl; auto]. apply merge_reduced; auto.
    - apply reduced_app; [apply reduced_refl; auto|]. change b0 with ([] ++ b0) at 2.
      apply reduced_app; [|apply reduced_refl; auto]. unfold reduced. rewrite (sdata_nil m) by auto.
      repeat split; auto; try constructor. exists []. apply cancel_of_refl. }
  eapply reduced_trans; [exact K|]. destruct K as (K1 & K2 & _). auto.
Qed.

Lemma hist_reduced : forall ops ss win pos, hist BD C ops ss win pos -> admitted (adm := adm) ops ->
  Forall adm (sdata ss ++ win) /\ Forall ok ss /\ exists ps, cancel_of ops (map rt (sdata ss ++ win)) ps.
Proof.
  induction 1; intros AD.
  - split; [constructor|]. split; auto. exists []. apply cancel_of_refl.
  - destruct IHhist as (A & O & ps & K). { intros r' ts' p Hp. apply AD. apply in_or_app. auto. }
    rewrite app_assoc, map_app. simpl. rewrite rt_append. repeat split; auto.
    + apply Forall_app. split; auto. constructor; auto. apply AD. apply in_or_app. simpl. auto.
    + exists (ps ++ []). apply cancel_of_app; auto. apply cancel_of_refl.
  - destruct IHhist as (A & O & ps & K). { intros r' ts' p Hp. apply AD. apply in_or_app. auto. }
    apply Forall_app in A as [A1 A2]. destruct (cancel_built _ _ H1 A2) as [A3 (qs & F)].
    assert (ES : sdata [s] = s_data s) by (unfold sdata; simpl; apply app_nil_r).
    destruct (seg_steps_reduced _ _ H2) as (B1 & B2 & _ & us & G).
    { apply Forall_app. split; auto. constructor; auto. exact (proj1 (built_ok BD _ _ H1)). }
    { rewrite sdata_app, ES. apply Forall_app. auto. }
    rewrite map_app. simpl. rewrite rt_append. repeat split; auto.
    + apply Forall_app. split; auto. constructor; auto. apply AD. apply in_or_app. simpl. auto.
    + exists ((ps ++ ([] ++ qs) ++ us) ++ []). apply cancel_of_app; [|apply cancel_of_refl].
      eapply cancel_of_trans; [exact K|]. eapply cancel_of_trans; [|exact G].
      rewrite sdata_app, ES, !map_app. apply cancel_of_app; [apply cancel_of_refl|auto].
Qed.

Lemma hist_reduced_pos : forall ops, blocks_pos (c_lwm C) ops -> admitted (adm := adm) ops ->
  forall pre post ss win pos, ops = pre ++ post -> hist BD C pre ss win pos ->
  Forall pos_shard ss /\ (length win = c_lwm C -> (0 < net (map rt win))%Z).
Proof.
  intros ops B AD pre post ss win pos E H. revert post E.
  assert (W : forall pre post ss win pos, ops = pre ++ post -> hist BD C pre ss win pos ->
     length win = c_lwm C -> (0 < net (map rt win))%Z).
  { clear -B V. intros pre post ss win pos E H L.
    apply (hist_win BD C CSF CLW CWM) in H as (EW & LP & _ & (k & K) & _).
    assert (PB : (k + 1) * c_lwm C <= length ops) by (rewrite E, app_length; nia).
    specialize (B k PB). rewrite EW, rt_entries.
    replace (skipn pos pre) with (firstn (c_lwm C) (skipn (k * c_lwm C) ops)); auto.
    rewrite E, K. rewrite skipn_app. rewrite firstn_app.
    rewrite (firstn_all2 (n := c_lwm C)) by (rewrite skipn_length; lia).
    rewrite skipn_length. replace (c_lwm C - _) with 0 by lia. rewrite firstn_O, app_nil_r. auto. }
  induction H; intros post E.
  - split; auto. simpl. pose proof CLW. lia.
  - split; [|eapply W; [exact E|]; apply h_app; eauto].
    eapply (IHhist ((r, ts) :: post)). rewrite E, <- app_assoc. auto.
  - split; [|eapply W; [exact E|]; eapply h_flush; eauto].
    assert (E' : ops = ops0 ++ ((r, ts) :: post)) by (rewrite E, <- app_assoc; auto).
    destruct (IHhist _ E') as [P1 P2].
    destruct (hist_reduced _ _ _ _ H) as (A & O & _).
    { intros r' ts' p Hp. apply AD. rewrite E'. apply in_or_app. auto. }
    apply Forall_app in A as [A1 A2]. destruct (cancel_built _ _ H1 A2) as [A3 (qs & F)].
    assert (ES : sdata [s] = s_data s) by (unfold sdata; simpl; apply app_nil_r).
    destruct (seg_steps_reduced _ _ H2) as (B1 & B2 & B3 & _).
    { apply Forall_app. split; auto. constructor; auto. exact (proj1 (built_ok BD _ _ H1)). }
    { rewrite sdata_app, ES. apply Forall_app. auto. }
    apply B3. apply Forall_app. split; auto. constructor; auto. unfold pos_shard.
    rewrite <- (net_cancel _ _ _ F). auto.
Qed.

Theorem reduced_runs : forall ops, Forall (appends C) ops -> admitted (adm := adm) (map oplog ops) ->
  blocks_pos (c_lwm C) (map oplog ops) ->
  exists e, run_new BD C ops = Ok (e, repeat 1 (length ops)).
Proof.
  intros ops AP AD B. apply (run_total BD C); auto. intros pre post ss win pos E H.
  destruct (hist_reduced_pos _ B AD _ _ _ _ _ E H) as [P1 P2]. split.
  - eapply Forall_impl; [|exact P1]. apply pos_nonempty.
  - intros L s ES. apply P2 in L. rewrite E in AD.
    destruct (hist_reduced _ _ _ _ H) as (A & _).
    { intros r ts p Hp. apply AD. apply in_or_app. auto. }
    apply Forall_app in A as [_ A]. destruct (cancel_built _ _ ES A) as [_ (qs & F)].
    apply (pos_nonempty s). unfold pos_shard. rewrite <- (net_cancel _ _ _ F). auto.
Qed.

Lemma reduced_facts : forall ops e rs, Forall (appends C) ops -> admitted (adm := adm) (map oplog ops) ->
  bsm_safe BD C ops -> run_new BD C ops = Ok (e, rs) ->
  exists st win pos ps, einv C e st win pos (countb snd (map oplog ops)) /\ Forall ok (age st) /\
    cancel_of (map oplog ops) (map rt (sdata (age st) ++ win)) ps.
Proof.
  intros ops e rs AP AD BS H.
  destruct (run_hist BD C CSF CLW CWM ops e rs) as (_ & st & win & pos & I & _ & HH); auto.
  { intros Q pre post e' rs' st win pos tsn E Rn I _. apply (shards_nonempty C _ _ _ _ _ I). eapply BS; eauto. }
  destruct (hist_reduced _ _ _ _ HH AD) as (_ & O & ps & K). exists st, win, pos, ps. auto.
Qed.

Theorem reduced_balance : forall ops e rs, c_del C = TOMBSTONE -> admitted (adm := adm) (map oplog ops) ->
  bsm_safe BD C ops -> run_new BD C ops = Ok (e, rs) ->
  forall r, n_plain r (stored e) + n_del r ops = n_tomb r (stored e) + n_ins r ops.
Proof.
  intros ops e rs TB AD BS H r.
  destruct (reduced_facts ops e rs (tomb_appends C _ TB) AD BS H) as (st & win & pos & ps & I & _ & K).
  destruct (cancel_balance _ _ _ K r) as (k & E1 & E2).
  rewrite n_plain_rt, n_tomb_rt, n_ins_log, n_del_log.
  pose proof (Permutation_map rt (proj1 (stored_eq C V _ _ _ _ _ I))) as P.
  unfold lplain, ltomb in *. rewrite (countb_perm _ _ _ P).
  rewrite (countb_perm (fun x => req r (fst x) && snd x) _ _ P). lia.
Qed.

Theorem reduced_count : forall ops e rs, c_del C = TOMBSTONE -> admitted (adm := adm) (map oplog ops) ->
  bsm_safe BD C ops -> run_new BD C ops = Ok (e, rs) ->
  get_record_count e = Ok (e, length (stored e)).
Proof.
  intros ops e rs TB AD BS H.
  destruct (reduced_facts ops e rs (tomb_appends C _ TB) AD BS H) as (st & win & pos & ps & I & O & _).
  unfold get_record_count. rewrite (with_epoch_eq C _ _ _ _ _ _ I). simpl. do 2 f_equal.
  rewrite (bview_count C CSF CLW CWM), (reccnt_len BD) by auto.
  rewrite (Permutation_length (proj1 (stored_eq C V _ _ _ _ _ I))), app_length. lia.
Qed.

End Cancel.

(** ** VPTree *)

Section VPK.
Context {R : Type} {RO : RecOps R}.

Definition vp_ok (s : shard R) : Prop := s_reccnt s = length (s_data s) /\ s_tscnt s = 0.

#[global] Instance vp_laws : ShardLaws (R := R) vp_shards vp_ok.
Proof.
  constructor.
  - intros s [H _]. auto.
  - intros d v d' v' _ _ E. simpl. unfold vp_view. rewrite E. auto.
  - intros d v s VO H. simpl in H. unfold vp_view in H. rewrite v_records_ok in H by auto. simpl in H. inv H.
    split; [split; auto|]. simpl. rewrite map_length. eapply Nat.le_trans; [apply filter_length_le|].
    rewrite ring_length. auto.
  - intros d v VO. simpl. unfold vp_view. rewrite v_records_ok by auto. simpl. eauto.
  - intros ss s H _. inv H. split; auto.
  - intros ss s H. inv H. simpl. eapply Nat.le_trans; [apply filter_length_le|].
    rewrite length_concat_sum, map_map. unfold sum_list. induction ss; simpl; auto.
    rewrite firstn_length. lia.
  - intros ss _ _. simpl. unfold vp_merge. eauto.
Qed.

Lemma filter_untagged : forall l : list (wrapped R), Forall nodel l -> filter untagged l = l.
Proof. intros. apply filter_all. intros x Hx. rewrite Forall_forall in H. unfold untagged. rewrite H; auto. Qed.

Lemma firstn_sdata : forall ss : list (shard R), Forall vp_ok ss ->
  concat (map (fun s => firstn (s_reccnt s) (s_data s)) ss) = sdata ss.
Proof.
  unfold sdata. induction 1; simpl; auto. destruct H as [H _]. rewrite H, firstn_all, IHForall. auto.
Qed.

#[global] Instance vp_keeps : KeepLaws (R := R) vp_shards vp_ok nodel.
Proof.
  constructor.
  - intros l s H N. unfold built in H. simpl in H. unfold vp_view in H.
    destruct (lview_ok l) as (_ & _ & E & _). rewrite E in H. simpl in H. inv H. simpl.
    rewrite filter_untagged by auto. rewrite map_map. split; [|apply nodel_mask3; auto].
    erewrite map_ext; [apply Permutation_refl|]. intros. symmetry. apply rt_mask3.
  - intros ss s H O N. inv H. simpl. rewrite firstn_sdata by auto. rewrite filter_untagged by auto. auto.
Qed.

Variable C : cfg.
Hypothesis V : valid_cfg C.

Lemma log_admitted : forall ops : list (R * bool), admitted (adm := nodel) ops.
Proof. intros ops r ts p _. apply append_rec_del. Qed.

Lemma appending_appends : forall ops : list (op R), appending C ops -> Forall (appends C) ops.
Proof. intros ops [H|H]; [apply tomb_appends|apply insert_only_appends]; auto. Qed.

Lemma rt_log : forall (ops : list (op R)) l, Permutation (map oplog ops) (map rt l) ->
  Permutation (map op_rec ops) (map wrec l).
Proof.
  intros ops l P. apply (Permutation_map fst) in P. rewrite !map_map in P. simpl in P.
  erewrite map_ext; [exact P|]. intros [r|r]; auto.
Qed.

Theorem vp_runs : forall ops : list (op R), appending C ops ->
  exists e, run_new vp_shards C ops = Ok (e, repeat 1 (length ops)).
Proof.
  intros. apply (kept_runs vp_shards C V); auto using appending_appends. apply log_admitted.
Qed.

Theorem vp_count : forall ops e rs, appending C ops -> run_new vp_shards C ops = Ok (e, rs) ->
  get_record_count e = Ok (e, length ops).
Proof.
  intros ops e rs H Rn. eapply (kept_count vp_shards C V); eauto using appending_appends. apply log_admitted.
Qed.

Lemma rt_log_ts : forall (ops : list (op R)) l, Permutation (map oplog ops) (map rt l) ->
  Permutation (map (fun o => (op_rec o, is_erase o)) ops) (map (fun w => (wrec w, is_ts w)) l).
Proof. intros ops l P. erewrite map_ext; [exact P|]. intros [r|r]; auto. Qed.

Theorem vp_stored : forall ops e rs, appending C ops -> run_new vp_shards C ops = Ok (e, rs) ->
  Permutation (map (fun o => (op_rec o, is_erase o)) ops) (map (fun w => (wrec w, is_ts w)) (stored e)).
Proof.
  intros ops e rs H Rn. apply rt_log_ts.
  eapply (kept_stored vp_shards C V); eauto using appending_appends. apply log_admitted.
Qed.

Theorem vp_static : forall ops e rs, appending C ops -> run_new vp_shards C ops = Ok (e, rs) ->
  exists s, create_static_structure vp_shards e = Ok (e, s) /\ s_reccnt s = length ops /\
    Permutation (map (fun o => (op_rec o, is_erase o)) ops) (map (fun w => (wrec w, is_ts w)) (s_data s)).
Proof.
  intros ops e rs H Rn.
  destruct (kept_static vp_shards C V ops e rs) as (s & E & O & P); auto using appending_appends.
  { apply log_admitted. }
  exists s. split; auto. destruct O as [O _]. rewrite O.
  pose proof (rt_log_ts _ _ P) as Q. split; auto. apply Permutation_length in Q. rewrite !map_length in Q. auto.
Qed.

Lemma vp_tscnt : forall st : structure R, Forall vp_ok (age st) -> st_tscnt st = 0.
Proof.
  intros [ls state]. unfold age, st_tscnt. simpl. induction ls; intros H; auto.
  rewrite AGE_cons in H. apply Forall_app in H as [H1 H2]. unfold sum_list in *. simpl. rewrite IHls by auto.
  unfold lv_tscnt. clear - H2. induction H2; auto. destruct H as [_ H]. unfold sum_list in *. simpl. lia.
Qed.

Theorem vp_tombstones : forall ops e rs, appending C ops -> run_new vp_shards C ops = Ok (e, rs) ->
  get_tombstone_count e = Ok (e, countb is_ts (stored e)).
Proof.
  intros ops e rs H Rn.
  destruct (kept_facts vp_shards C V ops e rs) as (st & win & pos & I & P & AD & O & N);
    auto using appending_appends.
  { apply log_admitted. }
  unfold get_tombstone_count. rewrite (with_epoch_eq C _ _ _ _ _ _ I). simpl. do 2 f_equal.
  rewrite vp_tscnt by auto. rewrite Nat.add_0_r.
  rewrite (countb_perm _ _ _ P), countb_map. simpl.
  symmetry. apply countb_perm. eapply stored_eq; eauto.
Qed.

Context {D : Type} {DO : DistOps D} {DL : DistLaws D} {MO : MetricOps R D}.

Lemma vp_trees_ok : forall leafsz rng (ss : list (shard R)) i,
  exists ts : list (vptree R D), vp_trees leafsz rng i ss = Ok ts /\ concat (map vp_data ts) = sdata ss /\
    forall t, In t ts -> exists r ws, vp_build leafsz r ws = Ok t.
Proof.
  intros leafsz rng. induction ss as [|s ss IH]; intros i; simpl.
  - exists []. repeat split; auto. intros t [].
  - destruct (vp_build_keeps leafsz (rng i) (s_data s)) as (t & E & K). rewrite E. simpl.
    destruct (IH (S i)) as (ts & -> & Q & A). simpl. exists (t :: ts). split; auto. split.
    + simpl. rewrite K, Q. auto.
    + intros x [<-|Hx]; eauto.
Qed.

Lemma nearest_perm : forall {A} (cl : A -> A -> bool) k all all' out,
  Permutation all all' -> nearest cl k all out -> nearest cl k all' out.
Proof.
  intros A cl k all all' out P (rest & H1 & H2 & H3). exists rest.
  rewrite <- P. auto.
Qed.

(** The records of the buffer and of the trees are those of the history. *)
Lemma vp_trees_log : forall leafsz rng ops e rs, appending C ops ->
  run_new vp_shards C ops = Ok (e, rs) ->
  exists d v ws (ts : list (vptree R D)), v_records d v = Ok ws /\
    (forall pop p k, knn leafsz pop rng e p k = do r <- knn_query pop p k d v ts; Ok (e, r)) /\
    (forall t, In t ts -> exists r ws', vp_build leafsz r ws' = Ok t) /\
    Permutation (map wrec (filter (fun w => negb (is_del w)) ws ++ concat (map vp_data ts))) (map op_rec ops).
Proof.
  intros leafsz rng ops e rs AP Rn.
  destruct (kept_facts vp_shards C V ops e rs) as (st & win & pos & I & P & AD & O & N);
    auto using appending_appends.
  { apply log_admitted. }
  unfold knn, knn_on.
  destruct V as (V1 & V2 & V3 & _).
  destruct (einv_records C V3 V1 V2 _ _ _ _ _ I) as [VR _].
  destruct (vp_trees_ok leafsz rng (query_shards st) 0) as (ts & T & Q & A).
  do 3 eexists. exists ts. split; [exact VR|]. split; [|split; [exact A|]].
  - intros pop p k. rewrite (with_epoch_eq C _ _ _ _ _ _ I), T. simpl. reflexivity.
  - apply Forall_app in AD as [_ AD]. rewrite (filter_untagged win AD : filter (fun w => negb (is_del w)) win = win).
    rewrite (rt_log _ _ P). rewrite Q. apply Permutation_map. symmetry. rewrite Permutation_app_comm.
    apply Permutation_app_head. unfold sdata. apply concat_perm, Permutation_map. symmetry. apply query_shards_perm.
Qed.

(** Without the laws of a metric the answer still consists of records of the history. *)
Theorem vp_knn_stored : forall pop (PM : PQMax pop) leafsz rng ops e rs p k, appending C ops -> 0 < k ->
  run_new vp_shards C ops = Ok (e, rs) ->
  exists out rest, knn leafsz pop rng e p k = Ok (e, out) /\
    Permutation (map op_rec ops) (out ++ rest) /\ length out = Nat.min k (length ops).
Proof.
  intros pop PM leafsz rng ops e rs p k AP K Rn.
  destruct (vp_trees_log leafsz rng ops e rs AP Rn) as (d & v & ws & ts & VR & E & A & P).
  destruct (knn_stored pop PM leafsz p k d v ws ts K VR A) as (out & rest & Q & PO & LN).
  exists out, rest. rewrite E, Q. simpl. split; auto. split.
  - rewrite <- P. exact PO.
  - rewrite LN, (Permutation_length P), map_length. auto.
Qed.

Context {ML : MetricLaws R D}.

Theorem vp_knn : forall pop (PM : PQMax pop) leafsz rng ops e rs p k, appending C ops -> 0 < k ->
  run_new vp_shards C ops = Ok (e, rs) ->
  exists out, knn leafsz pop rng e p k = Ok (e, out) /\
    nearest (fun x y => dleb (dist p x) (dist p y)) k (map op_rec ops) out.
Proof.
  intros pop PM leafsz rng ops e rs p k AP K Rn.
  destruct (vp_trees_log leafsz rng ops e rs AP Rn) as (d & v & ws & ts & VR & E & A & P).
  destruct (knn_exact pop PM leafsz p k d v ws ts K VR A) as (out & Q & NN).
  exists out. rewrite E, Q. simpl. split; auto. eapply nearest_perm; [exact P|exact NN].
Qed.

Theorem vp_knn_inserts : forall pop (PM : PQMax pop) leafsz rng ops e rs p k, insert_only ops -> 0 < k ->
  run_new vp_shards C ops = Ok (e, rs) ->
  exists out, knn leafsz pop rng e p k = Ok (e, out) /\
    nearest (fun x y => dleb (dist p x) (dist p y)) k (inserted ops) out.
Proof.
  intros pop PM leafsz rng ops e rs p k IO K Rn.
  destruct (vp_knn pop PM leafsz rng ops e rs p k (or_intror IO) K Rn) as (out & E & NN).
  exists out. split; auto. rewrite (inserted_log _ IO), map_map.
  erewrite map_ext; [exact NN|]. intros [r|r]; auto.
Qed.

End VPK.

(** ** Tries *)

#[global] Instance crec_laws : RecLaws crec.
Proof.
  assert (E : forall a b, strncmp (Nat.min (length a) (length b) + 1) a b = scmp a b).
  { intros. apply strncmp_full. lia. }
  constructor; unfold rlt, req; simpl; unfold skv_lt, skv_eq; simpl.
  - intros a. rewrite E, (proj2 (scmp_eq _ _)); auto.
  - intros a b c. rewrite !E. intros H1 H2.
    destruct (scmp (c_str a) (c_str b)) eqn:E1; try discriminate.
    destruct (scmp (c_str b) (c_str c)) eqn:E2; try discriminate.
    rewrite (scmp_trans _ _ _ E1 E2). auto.
  - intros a b. rewrite !E. rewrite (scmp_sym (c_str a) (c_str b)).
    destruct (scmp (c_str a) (c_str b)); simpl; split; intuition congruence.
  - intros a b c. rewrite !E. intros H1 H2.
    destruct (scmp (c_str a) (c_str b)) eqn:E1; try discriminate.
    destruct (scmp (c_str b) (c_str c)) eqn:E2; try discriminate.
    apply scmp_eq in E1. apply scmp_eq in E2. rewrite (proj2 (scmp_eq _ _)); congruence.
Qed.

Lemma crec_lt : forall a b : crec, rlt a b = match scmp (c_str a) (c_str b) with Lt => true | _ => false end.
Proof. intros. simpl. unfold skv_lt. simpl. rewrite strncmp_full by lia. auto. Qed.
Lemma crec_eq : forall a b : crec, req a b = true <-> c_str a = c_str b.
Proof.
  intros. simpl. unfold skv_eq. simpl. rewrite strncmp_full by lia.
  destruct (scmp (c_str a) (c_str b)) eqn:E.
  - apply scmp_eq in E. tauto.
  - split; [discriminate|]. intro X. apply scmp_eq in X. congruence.
  - split; [discriminate|]. intro X. apply scmp_eq in X. congruence.
Qed.

Lemma first_of_exact : search_exact first_of.
Proof.
  intros keys k _. induction keys as [|x keys IH]; simpl; auto.
  destruct (list_eq_dec N.eq_dec x k) as [->|NE]; auto.
  destruct (first_of keys k); simpl; auto. intros [E|H]; auto.
Qed.

Section TK.
Variable qlt : qorder crec.
Context {QO : QOrder qlt}.
Variable literal : nat.

Definition trie_ok (s : shard crec) : Prop :=
  s_reccnt s = length (s_data s) /\ s_tscnt s = 0 /\ StronglySorted wle (s_data s).
Definition trie_adm (w : wrapped crec) : Prop :=
  is_ts w = false /\ is_del w = false /\ is_vis w = true /\ blank literal w = false.

Lemma mask7_bits : forall w, is_ts (mask7 w) = is_ts w /\ is_del (mask7 w) = is_del w /\ is_vis (mask7 w) = is_vis w.
Proof.
  intros. unfold is_ts, is_del, is_vis, mask7. simpl.
  rewrite !h_is_tombstone_bit, !h_is_deleted_bit, !h_is_visible_bit, !N.land_spec.
  change (N.testbit 7 0) with true. change (N.testbit 7 1) with true. change (N.testbit 7 2) with true.
  rewrite !andb_true_r. auto.
Qed.

Lemma map_mask7_sorted : forall l, StronglySorted wle l -> StronglySorted wle (map mask7 l).
Proof. induction 1; simpl; constructor; auto. apply Forall_map. auto. Qed.

Definition tkeep (w : wrapped crec) : bool := negb (is_del w || blank literal w).

Lemma trie_fold : forall l (o : marr crec),
  let o' := fold_left (fun x w => trie_act literal w x) l o in
  m_data o' = rev (filter tkeep l) ++ m_data o /\ m_rec o' = length (filter tkeep l) + m_rec o.
Proof.
  induction l; intros; subst o'; simpl; auto.
  specialize (IHl (trie_act literal a o)). simpl in IHl. destruct IHl as (H1 & H2).
  rewrite H1, H2. unfold trie_act, tkeep. destruct (is_del a || blank literal a); simpl; auto.
  rewrite <- app_assoc. auto.
Qed.

Lemma trie_merge_ok : forall ss s, trie_merge qlt literal ss = Ok s ->
  exists evs, mrun qlt (map s_data ss) evs /\ s_data s = filter tkeep (emits evs) /\
    s_reccnt s = length (s_data s) /\ s_tscnt s = 0 /\ s_reccnt s <= sum_list (map s_reccnt ss).
Proof.
  unfold trie_merge. intros ss s H. rewrite build_cursor_vec_eq in H. mon H.
  apply init_pushes_ok in E as [-> F].
  destruct (merge_loop_run qlt (trie_act literal) (S (length (concat (map s_data ss)))) (map s_data ss) _ (MArr [] 0 0)
              (heads_qok _) (Nat.lt_succ_diag_r _)) as (evs & M & EQ).
  exists evs. split; auto. rewrite EQ in H. cbn [bind] in H.
  destruct (trie_fold (emits evs) (MArr [] 0 0)) as (H1 & H2).
  unfold finish in H. cbn [m_data m_rec] in *. rewrite app_nil_r in H1. rewrite H1, H2, rev_involutive in H.
  rewrite Nat.add_0_r in H.
  destruct (length (filter tkeep (emits evs)) <=? sum_list (map s_reccnt ss)) eqn:L; inv H. simpl.
  apply Nat.leb_le in L. auto.
Qed.

Lemma trie_merge_total : forall ss, Forall nonempty ss -> Forall trie_ok ss ->
  exists s, trie_merge qlt literal ss = Ok s.
Proof.
  intros ss N O. unfold trie_merge. rewrite build_cursor_vec_eq.
  rewrite init_pushes_total by (apply Forall_map; auto). cbn [bind].
  destruct (merge_loop_run qlt (trie_act literal) (S (length (concat (map s_data ss)))) (map s_data ss) _ (MArr [] 0 0)
              (heads_qok _) (Nat.lt_succ_diag_r _)) as (evs & M & EQ).
  rewrite EQ. cbn [bind]. destruct (trie_fold (emits evs) (MArr [] 0 0)) as (H1 & H2).
  unfold finish. cbn [m_data m_rec] in *. rewrite H2.
  assert (L : length (filter tkeep (emits evs)) + 0 <= sum_list (map s_reccnt ss)).
  { rewrite Nat.add_0_r. eapply Nat.le_trans; [apply filter_length_le|].
    eapply Nat.le_trans; [eapply emits_len; eauto|]. rewrite length_concat_sum, map_map.
    clear -O. induction O; simpl; auto. destruct H as [H _]. unfold sum_list in *. simpl. lia. }
  apply Nat.leb_le in L. rewrite L. eauto.
Qed.

#[global] Instance trie_laws : ShardLaws (trie_shards qlt literal) trie_ok.
Proof.
  constructor.
  - intros s [H _]. auto.
  - intros d v d' v' _ _ E. simpl. unfold trie_view. rewrite E. auto.
  - intros d v s VO H. simpl in H. unfold trie_view in H. rewrite v_records_ok in H by auto. simpl in H. inv H.
    split.
    + split; [auto|split; auto]. simpl. apply map_mask7_sorted, StronglySorted_filter, sorted_wnlt_wle, wsort_sorted.
    + simpl. rewrite map_length. eapply Nat.le_trans; [apply filter_length_le|].
      rewrite <- (Permutation_length (wsort_perm _)), ring_length. auto.
  - intros d v VO. simpl. unfold trie_view. rewrite v_records_ok by auto. simpl. eauto.
  - intros ss s H O. simpl in H. apply trie_merge_ok in H as (evs & M & E & H1 & H2 & H3).
    split; auto. split; auto. rewrite E. apply StronglySorted_filter. eapply mrun_sorted; eauto.
    apply Forall_map. eapply Forall_impl; [|exact O]. intros x (_ & _ & X). auto.
  - intros ss s H. simpl in H. apply trie_merge_ok in H as (evs & M & E & H1 & H2 & H3). auto.
  - intros. simpl. apply trie_merge_total; auto.
Qed.

Lemma adm_keeps : forall w, trie_adm w -> trie_keeps literal w = true /\ tkeep w = true.
Proof. intros w (H1 & H2 & H3 & H4). unfold trie_keeps, tkeep. rewrite H2, H3, H4. auto. Qed.

#[global] Instance trie_keep : KeepLaws (trie_shards qlt literal) trie_ok trie_adm.
Proof.
  constructor.
  - intros l s H N. unfold built in H. simpl in H. unfold trie_view in H.
    destruct (lview_ok l) as (_ & _ & E & _). rewrite E in H. simpl in H. inv H. simpl.
    assert (N' : Forall trie_adm (wsort l)) by (rewrite <- (wsort_perm l); auto).
    rewrite (filter_all (trie_keeps literal)).
    2:{ intros x Hx. rewrite Forall_forall in N'. apply adm_keeps. auto. }
    split.
    + rewrite map_map. rewrite (wsort_perm l) at 1. erewrite map_ext; [apply Permutation_refl|].
      intros w. unfold rt. rewrite (proj1 (mask7_bits w)). auto.
    + apply Forall_map. eapply Forall_impl; [|exact N']. intros w (H1 & H2 & H3 & H4).
      destruct (mask7_bits w) as (B1 & B2 & B3). unfold trie_adm. rewrite B1, B2, B3. auto.
  - intros ss s H O N. simpl in H. apply trie_merge_ok in H as (evs & M & E & _).
    destruct (mrun_plain qlt _ _ M) as [_ P].
    { eapply Forall_impl; [|exact N]. intros w (T & _). auto. }
    change (concat (map s_data ss)) with (sdata ss) in P.
    assert (N' : Forall trie_adm (emits evs)) by (rewrite <- P; auto).
    rewrite E, (filter_all tkeep).
    2:{ intros x Hx. rewrite Forall_forall in N'. apply adm_keeps. auto. }
    split; auto. apply Permutation_map. auto.
Qed.

(** With tombstones. *)
Definition trie_adm_ts (w : wrapped crec) : Prop :=
  is_del w = false /\ is_vis w = true /\ blank literal w = false.

Lemma adm_ts_keeps : forall w, trie_adm_ts w -> trie_keeps literal w = true /\ tkeep w = true.
Proof. intros w (H2 & H3 & H4). unfold trie_keeps, tkeep. rewrite H2, H3, H4. auto. Qed.

#[global] Instance trie_cancel : CancelLaws (trie_shards qlt literal) trie_ok trie_adm_ts.
Proof.
  constructor.
  - intros l s H N. unfold built in H. simpl in H. unfold trie_view in H.
    destruct (lview_ok l) as (_ & _ & E & _). rewrite E in H. simpl in H. inv H. simpl.
    assert (N' : Forall trie_adm_ts (wsort l)) by (rewrite <- (wsort_perm l); auto).
    rewrite (filter_all (trie_keeps literal)).
    2:{ intros x Hx. rewrite Forall_forall in N'. apply adm_ts_keeps. auto. }
    split.
    + apply Forall_map. eapply Forall_impl; [|exact N']. intros w (H2 & H3 & H4).
      destruct (mask7_bits w) as (B1 & B2 & B3). unfold trie_adm_ts. rewrite B2, B3. auto.
    + exists []. apply (cancel_of_perm (map rt (map mask7 (wsort l)))); [|apply cancel_of_refl].
      rewrite map_map. rewrite (wsort_perm l) at 1. erewrite map_ext; [apply Permutation_refl|].
      intros w. unfold rt. rewrite (proj1 (mask7_bits w)). auto.
  - intros ss s H O N. simpl in H. apply trie_merge_ok in H as (evs & M & E & _).
    pose proof (mrun_perm _ _ _ M) as P. pose proof (mrun_cancelled _ _ _ M) as K.
    change (concat (map s_data ss)) with (sdata ss) in P.
    assert (N' : Forall trie_adm_ts (emits evs)).
    { rewrite Forall_forall in *. intros x Hx. apply N. apply (Permutation_in _ (Permutation_sym P)).
      apply in_or_app. auto. }
    rewrite E, (filter_all tkeep).
    2:{ intros x Hx. rewrite Forall_forall in N'. apply adm_ts_keeps. auto. }
    split; auto. apply evs_cancel; auto.
Qed.

Variable C : cfg.
Hypothesis V : valid_cfg C.

Lemma append_rec_vis : forall (r : crec) ts p, is_vis (append_rec r ts p) = true.
Proof.
  intros. unfold is_vis, append_rec. simpl. rewrite h_is_visible_bit. unfold h_set_visible.
  rewrite N.lor_spec. change (N.testbit 4 2) with true. apply orb_true_r.
Qed.

Lemma trie_admitted : forall ops : list (op crec), insert_only ops -> no_blank literal ops ->
  admitted (adm := trie_adm) (map oplog ops).
Proof.
  intros ops IO NB r ts p H. apply in_map_iff in H as (o & E & Ho). destruct (IO o Ho) as [x ->].
  simpl in E. inv E. split; [apply append_rec_ts|]. split; [apply append_rec_del|].
  split; [apply append_rec_vis|]. unfold blank. apply Nat.eqb_neq. exact (NB _ Ho).
Qed.

Theorem trie_runs : forall ops, insert_only ops -> no_blank literal ops ->
  exists e, run_new (trie_shards qlt literal) C ops = Ok (e, repeat 1 (length ops)).
Proof.
  intros. apply (kept_runs (trie_shards qlt literal) C V); auto using insert_only_appends.
  apply trie_admitted; auto.
Qed.

Theorem trie_count : forall ops e rs, insert_only ops -> no_blank literal ops ->
  run_new (trie_shards qlt literal) C ops = Ok (e, rs) -> get_record_count e = Ok (e, length ops).
Proof.
  intros ops e rs IO NB H. eapply (kept_count (trie_shards qlt literal) C V); eauto using insert_only_appends.
  apply trie_admitted; auto.
Qed.

Lemma rt_inserted : forall (ops : list (op crec)) l, insert_only ops -> Permutation (map oplog ops) (map rt l) ->
  Permutation (inserted ops) (map wrec l).
Proof.
  intros ops l IO P. rewrite (inserted_log _ IO). apply (Permutation_map fst) in P.
  rewrite (map_map rt fst) in P. exact P.
Qed.

Theorem trie_stored : forall ops e rs, insert_only ops -> no_blank literal ops ->
  run_new (trie_shards qlt literal) C ops = Ok (e, rs) -> Permutation (inserted ops) (map wrec (stored e)).
Proof.
  intros ops e rs IO NB H. apply rt_inserted; auto.
  eapply (kept_stored (trie_shards qlt literal) C V); eauto using insert_only_appends.
  apply trie_admitted; auto.
Qed.

Theorem trie_static : forall ops e rs, insert_only ops -> no_blank literal ops ->
  run_new (trie_shards qlt literal) C ops = Ok (e, rs) ->
  exists s, create_static_structure (trie_shards qlt literal) e = Ok (e, s) /\ s_reccnt s = length ops /\
    Permutation (inserted ops) (map wrec (s_data s)) /\ StronglySorted wle (s_data s).
Proof.
  intros ops e rs IO NB H.
  destruct (kept_static (trie_shards qlt literal) C V ops e rs) as (s & E & O & P); auto using insert_only_appends.
  { apply trie_admitted; auto. }
  exists s. split; auto. destruct O as (O & _ & SO). rewrite O.
  pose proof (rt_inserted _ _ IO P) as Q. split; auto. apply Permutation_length in P.
  rewrite !map_length in P. auto.
Qed.

Lemma trie_admitted_ts : forall ops : list (op crec), no_blank literal ops ->
  admitted (adm := trie_adm_ts) (map oplog ops).
Proof.
  intros ops NB r ts p H. apply in_map_iff in H as (o & E & Ho).
  split; [apply append_rec_del|]. split; [apply append_rec_vis|].
  unfold blank. apply Nat.eqb_neq. specialize (NB _ Ho). destruct o; simpl in *; inv E; auto.
Qed.

Theorem trie_runs_ts : forall ops, c_del C = TOMBSTONE -> no_blank literal ops ->
  mostly_inserts (c_lwm C) ops ->
  exists e, run_new (trie_shards qlt literal) C ops = Ok (e, repeat 1 (length ops)).
Proof.
  intros. apply (reduced_runs (trie_shards qlt literal) C V (adm := trie_adm_ts)); auto using tomb_appends, mostly_blocks.
  apply trie_admitted_ts; auto.
Qed.

Theorem trie_balance : forall ops e rs, c_del C = TOMBSTONE -> no_blank literal ops ->
  bsm_safe (trie_shards qlt literal) C ops -> run_new (trie_shards qlt literal) C ops = Ok (e, rs) ->
  forall r, n_plain r (stored e) + n_del r ops = n_tomb r (stored e) + n_ins r ops.
Proof.
  intros ops e rs TB NB BS H. eapply (reduced_balance (trie_shards qlt literal) C V (adm := trie_adm_ts)); eauto.
  apply trie_admitted_ts; auto.
Qed.

Theorem trie_count_ts : forall ops e rs, c_del C = TOMBSTONE -> no_blank literal ops ->
  bsm_safe (trie_shards qlt literal) C ops -> run_new (trie_shards qlt literal) C ops = Ok (e, rs) ->
  get_record_count e = Ok (e, length (stored e)).
Proof.
  intros ops e rs TB NB BS H. eapply (reduced_count (trie_shards qlt literal) C V (adm := trie_adm_ts)); eauto.
  apply trie_admitted_ts; auto.
Qed.

Variable search : list (list N) -> list N -> option nat.
Hypothesis SE : search_exact search.

Local Notation strs l := (map (fun w => c_str (wrec w)) l).

Lemma nodup_parts : forall {A} (a b : list A), NoDup (a ++ b) -> NoDup a /\ NoDup b.
Proof.
  intros A. induction a as [|x a IH]; simpl; intros b H; [split; auto; constructor|].
  inv H. destruct (IH b H3). split; auto. constructor; auto. rewrite in_app_iff in H2. tauto.
Qed.

Lemma scmp_slt : forall a b, scmp a b = Lt -> slt a b.
Proof.
  induction a as [|x a IH]; destruct b as [|y b]; simpl; intros H; try discriminate; [constructor|].
  destruct (N.compare_spec x y); try discriminate; [subst; apply slt_tail|apply slt_head]; auto.
Qed.

Lemma strs_increasing : forall l : list (wrapped crec), StronglySorted wle l -> NoDup (strs l) ->
  StronglySorted slt (strs l).
Proof.
  induction 1 as [|w l S IH F]; simpl; intros ND; constructor.
  - apply IH. inv ND. auto.
  - inv ND. apply Forall_map. rewrite Forall_forall in *. intros x Hx. apply scmp_slt.
    specialize (F x Hx). unfold wle, rle in F. rewrite crec_lt in F.
    rewrite scmp_sym in F. destruct (scmp (c_str (wrec w)) (c_str (wrec x))) eqn:E; auto; simpl in F; try discriminate.
    apply scmp_eq in E. exfalso. apply H1. rewrite E. apply (in_map (fun w => c_str (wrec w))). auto.
Qed.

Lemma trie_results : forall k ss, Forall nonempty ss -> Forall trie_ok ss -> Forall trie_adm (sdata ss) ->
  NoDup (strs (sdata ss)) ->
  exists rs, pl_results (trie_lookup search k) ss = Ok rs /\
    ((~ In k (strs (sdata ss)) /\ pl_combine rs = []) \/
     exists w, In w (sdata ss) /\ c_str (wrec w) = k /\ pl_combine rs = [wrec w]).
Proof.
  intros k. induction ss as [|s ss IH]; intros N O A D.
  - exists []. split; auto.
  - inv N. inv O. change (sdata (s :: ss)) with (s_data s ++ sdata ss) in *.
    rewrite map_app in D. destruct (nodup_parts _ _ D) as [D1 D2].
    apply Forall_app in A as [A1 A2].
    destruct (IH H2 H4 A2 D2) as (rs & E & K). cbn [pl_results]. unfold pl_local.
    assert (TL : trie_lookup search k (s_data s) =
      match search (strs (s_data s)) k with
      | None => Ok None | Some i => do w <- nth_res i (s_data s); Ok (Some w) end).
    { unfold trie_lookup. unfold nonempty in H1. destruct (s_data s); [congruence|auto]. }
    rewrite TL. pose proof (SE (strs (s_data s)) k (strs_increasing _ (proj2 (proj2 H3)) D1)) as X.
    destruct (search (strs (s_data s)) k) as [i|].
    + rewrite nth_error_map in X. destruct (nth_error (s_data s) i) as [w|] eqn:W; [|discriminate].
      simpl in X. inv X. unfold nth_res. rewrite W. cbn [bind].
      exists [[w]]. split; auto. right. exists w. apply nth_error_In in W. split; [apply in_or_app; auto|].
      split; auto. rewrite Forall_forall in A1. destruct (A1 w W) as (T & DD & _). simpl. rewrite T, DD. auto.
    + cbn [bind]. rewrite E. cbn [bind]. exists ([] :: rs). split; auto. destruct K as [[K1 K2]|(w & W1 & W2 & W3)].
      * left. split; auto. rewrite map_app, in_app_iff. tauto.
      * right. exists w. split; [apply in_or_app; auto|]. auto.
Qed.

Lemma filter_one : forall k (l : list crec) x, NoDup (map c_str l) -> In x l -> c_str x = k ->
  filter (has_str k) l = [x].
Proof.
  intros k. induction l as [|y l IH]; simpl; intros x ND IX E; [contradiction|].
  inv ND. unfold has_str at 1. destruct (list_eq_dec N.eq_dec (c_str y) (c_str x)) as [EY|NY].
  - destruct IX as [->|IX].
    + f_equal. apply filter_none. intros z Hz. unfold has_str.
      destruct (list_eq_dec N.eq_dec (c_str z) (c_str x)) as [EZ|]; auto.
      exfalso. apply H1. rewrite <- EZ. apply in_map. auto.
    + exfalso. apply H1. rewrite EY. apply in_map. auto.
  - destruct IX as [->|IX]; [congruence|]. auto.
Qed.

Theorem trie_lookup_exact : forall ops e rs k a, insert_only ops -> no_blank literal ops ->
  distinct_keys ops -> at_address a k ops -> run_new (trie_shards qlt literal) C ops = Ok (e, rs) ->
  trie_point_lookup search e k a = Ok (e, filter (has_str k) (inserted ops)).
Proof.
  intros ops e rs k a IO NB DK AA Rn.
  destruct (kept_facts (trie_shards qlt literal) C V ops e rs) as (st & win & pos & I & P & AD & O & N);
    auto using insert_only_appends.
  { apply trie_admitted; auto. }
  pose proof (rt_inserted _ _ IO P) as Q.
  assert (PS : Permutation (sdata (query_shards st)) (sdata (age st))).
  { unfold sdata. apply concat_perm, Permutation_map, query_shards_perm. }
  assert (INS : forall w, In w (sdata (query_shards st)) \/ In w win -> In (wrec w) (inserted ops)).
  { intros w Hw. apply (Permutation_in _ (Permutation_sym Q)). apply in_map. apply in_or_app.
    destruct Hw as [Hw|Hw]; auto. left. apply (Permutation_in _ PS). auto. }
  assert (ND : NoDup (strs (sdata (query_shards st) ++ win))).
  { apply (Permutation_NoDup (l := map c_str (inserted ops))); auto.
    rewrite (Permutation_map c_str Q), map_map. apply Permutation_map. apply Permutation_app_tail. symmetry. auto. }
  unfold trie_point_lookup, point_lookup_query, pl_on. rewrite (with_epoch_eq C _ _ _ _ _ _ I).
  destruct V as (V1 & V2 & V3 & _).
  destruct (einv_records C V3 V1 V2 _ _ _ _ _ I) as [VR _].
  unfold pl_local_buffer. rewrite VR. cbn [bind]. apply Forall_app in AD as [AD1 AD2].
  destruct (filter (fun w => c_addr (wrec w) =? a) win) as [|w ws] eqn:EF.
  - assert (NW : ~ In k (strs win)).
    { intros H. apply in_map_iff in H as (w & EW & Hw).
      assert (In w []) by (rewrite <- EF; apply filter_In; split; auto; apply Nat.eqb_eq, AA; auto). contradiction. }
    destruct (trie_results k (query_shards st)) as (rs' & E & K).
    + rewrite (query_shards_perm st). auto.
    + rewrite (query_shards_perm st). auto.
    + rewrite PS. auto.
    + rewrite map_app in ND. apply (nodup_parts _ _ ND).
    + rewrite E. cbn [bind]. destruct K as [[K ->]|(w & W1 & W2 & ->)].
      * rewrite filter_none; auto. intros x Hx. unfold has_str.
        destruct (list_eq_dec N.eq_dec (c_str x) k) as [EX|]; auto. exfalso.
        apply (Permutation_in _ Q) in Hx. apply in_map_iff in Hx as (w & <- & Hw).
        apply in_app_or in Hw as [Hw|Hw]; [|apply NW; rewrite <- EX; apply (in_map (fun w => c_str (wrec w))); auto].
        apply K. rewrite <- EX. apply (in_map (fun w => c_str (wrec w))). apply (Permutation_in _ (Permutation_sym PS)). auto.
      * rewrite (filter_one k _ (wrec w)); auto.
  - assert (IW : In w win /\ (c_addr (wrec w) =? a) = true).
    { apply (filter_In (fun w => c_addr (wrec w) =? a)). rewrite EF. simpl. auto. }
    destruct IW as [IW HW]. apply Nat.eqb_eq in HW. rewrite Forall_forall in AD2.
    destruct (AD2 w IW) as (T & DD & _). simpl. rewrite T, DD. simpl.
    rewrite (filter_one k _ (wrec w)); auto. apply AA; auto.
Qed.
End TK.

(** BSM executions without any condition: once a shard is empty, a flush may put a
    second shard into level 0 or leave its shard behind as a pending one that the
    next copy of the structure forgets.  The counts and the sizes stay right. *)
From Coq Require Import List Arith ZArith NArith Lia Bool Permutation Sorted.
From Verif Require Import Base ListLemmas RecordModel RecordProofs BufferModel BufferProofs
  MergeModel MergeProofs StructModel ExtModel QueryModel StructProofs StructTotal SortedProofs ExtProofs ContentProofs Spec
  QueryProofs SerialProofs TagProofs ExecProofs LevelProofs TagContent SizeProofs CountProofs.
Import ListNotations.

Section BP.
Context {R : Type} {RO : RecOps R} {RL : RecLaws R}.
Variable qlt : qorder R.
Context {QO : QOrder qlt}.
Variable C : cfg.
Hypothesis V : valid_cfg C.
Hypothesis LY : c_layout C = BSM.

Local Lemma LW : 1 <= c_lwm C. Proof. destruct V as (? & ? & ? & ?). auto. Qed.
Local Lemma WM : c_lwm C <= c_hwm C. Proof. destruct V as (? & ? & ? & ?). auto. Qed.
Local Lemma SF : 1 <= c_sf C. Proof. destruct V as (? & ? & ? & ?). auto. Qed.

Local Arguments set_nth : simpl never.
Local Arguments nth_error : simpl never.

(** ** The copy of a structure *)

Lemma copy_lvs : forall st : structure R, lvs (st_copy st) = lvs st.
Proof. intros. unfold lvs, st_copy. simpl. rewrite map_map. auto. Qed.

Lemma copy_age : forall st : structure R, age (st_copy st) = age st.
Proof. intros. unfold age, AGE, st_copy. simpl. rewrite <- map_rev, map_map. auto. Qed.

Lemma copy_tag : forall r (st st' : structure R), tagged_delete r st = Some st' ->
  tagged_delete r (st_copy st) = Some (st_copy st').
Proof.
  intros r [ls state] st' H. unfold tagged_delete, st_copy in *. simpl in *.
  assert (K : forall ls', levels_tag r ls = Some ls' ->
              levels_tag r (map lv_clone ls) = Some (map lv_clone ls')).
  { clear H. induction ls as [|l ls IH]; intros ls' H; simpl in *; [discriminate|].
    unfold lv_delete_record in *. simpl.
    destruct (shards_tag r (lv_shards l)) as [ss|].
    - inv H. auto.
    - destruct (levels_tag r ls) as [l2|]; inv H. rewrite (IH _ eq_refl). auto. }
  destruct (levels_tag r ls) as [ls'|]; inv H. rewrite (K _ eq_refl). auto.
Qed.

(** ** One flush *)

Lemma flush_w : forall (st : structure R) d v st', shape C st ->
  flush_buffer qlt C st d v = Ok st' ->
  exists l0 s, nth_error (pad 0 (lvs st)) 0 = Some l0 /\ recs l0 = 0 /\
    shard_from_view d v = Ok s /\ shape C (st_copy st') /\
    (lvs st' = set_nth 0 (l0 ++ [s]) (pad 0 (lvs st)) \/ lvs st' = pad 0 (lvs st)).
Proof.
  intros st d v st' SH H. rewrite flush_ext0 in H by auto.
  destruct (ext0_ok C SF st SH) as (SE & AE & NE).
  assert (LE : lvs (ext0 C st) = pad 0 (lvs st)).
  { unfold ext0, pad. rewrite lvs_length. destruct (st_levels st) eqn:E; simpl; auto.
    unfold lvs. simpl. rewrite E. auto. }
  revert H. rewrite <- LE. generalize dependent (ext0 C st). intros e SE AE NE LE H.
  destruct (can_reconstruct_with C 0 (v_count v) (st_state e)) eqn:CR; [|discriminate].
  unfold flush_into_l0 in H. rewrite LY in H.
  destruct e as [levels state]. simpl in *.
  destruct levels as [|l0 levels]; [congruence|].
  destruct state as [|s0 state]; [destruct SE; discriminate|].
  simpl in H. change (nth_res 0 (l0 :: levels)) with (Ok l0) in H. cbn [bind] in H.
  mon H. change (nth_res 0 (s0 :: state)) with (Ok s0) in H. cbn [bind] in H.
  rename a into l0'. inv H.
  pose proof (proj2 SE 0 l0 s0 eq_refl eq_refl) as L0. unfold lsok in L0. rewrite LY in L0.
  destruct L0 as (O1 & O2 & O3 & O4 & O5).
  unfold can_reconstruct_with in CR. change (nth_error (s0 :: state) 0) with (Some s0) in CR.
  rewrite LY in CR. apply Nat.eqb_eq in CR.
  assert (Z : recs (lv_shards l0) = 0) by (unfold recs; fold (lv_reccnt l0); lia).
  assert (G : exists s, shard_from_view d v = Ok s /\
    lsok C 0 (lv_clone l0') (LS (lv_reccnt l0') (ls_reccap s0) (lv_count l0') (ls_cap s0)) /\
    (lv_shards l0' = lv_shards l0 ++ [s] \/ lv_shards l0' = lv_shards l0)).
  { unfold lv_append_buffer in E. destruct (Nat.eqb_spec (lv_count l0) (lv_cap l0)).
    - rewrite O3 in E. mon E. inv E. exists a. split; [auto|].
      unfold lsok, lv_clone, lv_reccnt, lv_count in *. rewrite LY. simpl. repeat split; auto.
    - mon E. inv E. exists a. split; [auto|].
      unfold lsok, lv_clone, lv_reccnt, lv_count in *. rewrite LY. simpl. rewrite app_length. simpl.
      repeat split; auto. lia. }
  destruct G as (s & G1 & G2 & G3).
  exists (lv_shards l0), s. split; [reflexivity|]. split; [auto|]. split; [auto|]. split.
  - pose proof (shape_set C _ 0 (lv_clone l0') _ SE G2) as Q.
    pose proof (st_copy_id C _ SE) as I. unfold st_copy in *. simpl in *. inv I.
    change (set_nth 0 (lv_clone l0') (l0 :: levels)) with (lv_clone l0' :: levels) in Q.
    change (set_nth 0 l0' (l0 :: levels)) with (l0' :: levels). simpl. rewrite ?H1, ?H2. exact Q.
  - unfold lvs. simpl. change (set_nth 0 l0' (l0 :: levels)) with (l0' :: levels). simpl.
    destruct G3 as [-> | ->]; [left; reflexivity|right; reflexivity].
Qed.

(** ** Contents: nothing is made up *)

(** How many stored records have [p] of their record and tombstone flag. *)
Definition cnt (p : R * bool -> bool) (ws : list (wrapped R)) : nat := countb p (map rt ws).

Lemma cnt_app : forall p a b, cnt p (a ++ b) = cnt p a + cnt p b.
Proof. intros. unfold cnt. rewrite map_app, countb_app. auto. Qed.

Lemma cnt_perm : forall p a b, Permutation a b -> cnt p a = cnt p b.
Proof. intros. unfold cnt. apply countb_perm. apply Permutation_map. auto. Qed.

Lemma cnt_filter : forall p q (a : list (wrapped R)), cnt p (filter q a) <= cnt p a.
Proof.
  intros. unfold cnt. induction a as [|w a IH]; simpl; auto. destruct (q w); simpl; lia.
Qed.

Lemma cnt_mask3 : forall p a, cnt p (map mask3 a) = cnt p a.
Proof. intros. unfold cnt. rewrite map_map. f_equal. apply map_ext. apply rt_mask3. Qed.

Lemma cnt_sfv : forall p d v l s, v_copy d v = Ok l -> shard_from_view d v = Ok s ->
  cnt p (s_data s) <= cnt p l.
Proof.
  intros p d v l s VC H. apply sfv_ok in H as (l' & evs & E & CR & -> & _).
  rewrite VC in E. inv E. rewrite cnt_mask3.
  eapply Nat.le_trans; [apply cnt_filter|].
  rewrite (cnt_perm p _ _ (wsort_perm l')), (cnt_perm p _ _ (crun_perm _ _ CR)), cnt_app. lia.
Qed.

Lemma cnt_sfs : forall p m s, shard_from_shards qlt m = Ok s ->
  cnt p (s_data s) <= cnt p (sdata m).
Proof.
  intros p m s H. destruct (sfs_ok qlt m s H) as (_ & evs & M & -> & _).
  eapply Nat.le_trans; [apply cnt_filter|].
  pose proof (mrun_perm _ _ _ M) as P. fold (sdata m) in P. rewrite (cnt_perm p _ _ P), cnt_app. lia.
Qed.

Lemma cnt_seg : forall p a b, seg_steps qlt a b -> cnt p (sdata b) <= cnt p (sdata a).
Proof.
  induction 1 as [|a b c H _ IH]; auto. eapply Nat.le_trans; [exact IH|]. inv H.
  - change (s :: b0) with ([s] ++ b0). rewrite !sdata_app, !cnt_app. apply (cnt_sfs p) in H1.
    assert (sdata [s] = s_data s) as -> by (unfold sdata; simpl; apply app_nil_r). lia.
  - rewrite !sdata_app, !cnt_app. lia.
Qed.

Lemma age_lvs : forall st : structure R, Permutation (sdata (age st)) (concat (map sdata (lvs st))).
Proof.
  intros [ls state]. unfold age, lvs. simpl. induction ls; simpl; [constructor|].
  rewrite AGE_cons, sdata_app. rewrite IHls. apply Permutation_app_comm.
Qed.

Lemma cnt_age : forall p (st : structure R),
  cnt p (sdata (age st)) = cnt p (concat (map sdata (lvs st))).
Proof. intros. apply cnt_perm. apply age_lvs. Qed.

(** ** Sizes *)

(** The weight of a level that counts as occupied. *)
Definition owt (i : nat) (ss : list (shard R)) : nat := if recs ss =? 0 then 0 else bw i.

Record winv (n k : nat) (st : structure R) : Prop := {
  w_shape : shape C (st_copy st);
  w_ok : Forall shard_ok (age st);
  w_weight : wsum owt 0 (lvs st) <= k;
  w_small : forall i ss, nth_error (lvs st) i = Some ss -> recs ss <= n * bw i;
  w_height : 2 <= length (lvs st) -> 2 ^ (length (lvs st) - 2) + 1 <= k
}.

Lemma owt_le : forall i ss, owt i ss <= bw i.
Proof. intros. unfold owt. destruct (recs ss =? 0); lia. Qed.

Lemma lvs_all : forall (st : structure R) (P : shard R -> Prop),
  Forall P (age st) <-> Forall (Forall P) (lvs st).
Proof.
  intros st P. unfold age, AGE, lvs. generalize (st_levels st). intros ls.
  rewrite !Forall_forall. split; intros H.
  - intros ss Hss. apply Forall_forall. intros x Hx. apply H. apply in_concat. exists ss. split; auto.
    apply in_map_iff in Hss as (l & <- & Hl). apply in_map. rewrite <- in_rev. auto.
  - intros x Hx. apply in_concat in Hx as (ss & Hss & Hx).
    apply in_map_iff in Hss as (l & <- & Hl). rewrite <- in_rev in Hl.
    specialize (H (lv_shards l) (in_map _ _ _ Hl)). rewrite Forall_forall in H. auto.
Qed.

Lemma winv_flush : forall (st : structure R) d v st' n k, shape C st -> Forall shard_ok (age st) ->
  vok d v -> v_count v <= n -> wsum owt 0 (lvs st) <= k ->
  (forall i ss, nth_error (lvs st) i = Some ss -> recs ss <= n * bw i) ->
  (2 <= length (lvs st) -> 2 ^ (length (lvs st) - 2) + 1 <= S k) ->
  flush_buffer qlt C st d v = Ok st' -> winv n (S k) st' /\
  forall p l, v_copy d v = Ok l -> cnt p (sdata (age st')) <= cnt p (sdata (age st)) + cnt p l.
Proof.
  intros st d v st' n k SH OK VO VN WT SM HT H.
  destruct (flush_w _ _ _ _ SH H) as (l0 & s & F1 & F2 & F3 & F4 & F5).
  pose proof F3 as F3'.
  pose proof (sfv_bound _ _ _ VO F3) as B.
  apply sfv_ok in F3 as (_ & _ & _ & _ & _ & SO).
  destruct (set0_pad _ _ F1 (l0 ++ [s])) as (rest & E1 & E2).
  assert (CASE : (lvs st = [] /\ rest = [] /\ l0 = []) \/ lvs st = l0 :: rest).
  { unfold pad in E1. destruct (Nat.leb_spec (length (lvs st)) 0); [|auto].
    destruct (lvs st); [|simpl in *; lia]. simpl in E1. inv E1. auto. }
  assert (NEW : exists new, lvs st' = new :: rest /\ (new = l0 ++ [s] \/ new = l0)).
  { destruct F5 as [->| ->]; rewrite ?E2, ?E1; eauto. }
  destruct NEW as (new & N1 & N2).
  assert (RN : recs new <= n).
  { destruct N2 as [->| ->]; rewrite ?recs_app, ?F2; unfold recs, sum_list; simpl; lia. }
  assert (OK0 : Forall (Forall shard_ok) (l0 :: rest)).
  { apply lvs_all in OK. destruct CASE as [(_ & -> & ->)| <-]; [repeat constructor|auto]. }
  assert (WR : wsum owt 1 rest <= k).
  { destruct CASE as [(_ & -> & _)|Q]; [simpl; lia|]. rewrite Q in WT. simpl in WT. lia. }
  split.
  2:{ intros p l VL. pose proof (cnt_sfv p _ _ _ _ VL F3') as Q. rewrite !cnt_age, N1.
      assert (EQ : cnt p (concat (map sdata (lvs st))) = cnt p (sdata l0) + cnt p (concat (map sdata rest))).
      { destruct CASE as [(-> & -> & ->)|C2]; [auto|]. rewrite C2. simpl. apply cnt_app. }
      rewrite EQ. simpl. rewrite cnt_app. destruct N2 as [->| ->]; [|lia].
      rewrite sdata_app, cnt_app. assert (sdata [s] = s_data s) as -> by (unfold sdata; simpl; apply app_nil_r).
      lia. }
  constructor; auto; rewrite ?N1.
  - apply lvs_all. rewrite N1. inversion OK0; subst. constructor; auto.
    destruct N2 as [->| ->]; auto. apply Forall_app. auto.
  - simpl. pose proof (owt_le 0 new). simpl in H0. lia.
  - intros [|i] ss Hss.
    + inv Hss. simpl. lia.
    + destruct CASE as [(_ & -> & _)|Q]; [destruct i; discriminate|]. apply (SM (S i)). rewrite Q. auto.
  - intros L. destruct CASE as [(_ & -> & _)|Q]; [simpl in L; lia|]. rewrite Q in HT. auto.
Qed.

Lemma owt_empty : forall b i, wsum owt i (repeat [] b) = 0.
Proof. induction b; simpl; auto. Qed.

Lemma owt_firstn : forall b (ls : list (list (shard R))) n, b <= length ls ->
  (forall j ss, j < b -> nth_error ls j = Some ss -> recs ss <> 0 /\ recs ss <= n * bw j) ->
  wsum owt 0 (firstn b ls) = bsum b /\
  wsum (fun _ ss => recs ss) 0 (firstn b ls) <= n * bsum b.
Proof.
  induction b; intros ls n L H; [simpl; lia|].
  destruct (nth_error ls b) as [ss|] eqn:E.
  2:{ apply nth_error_None in E. lia. }
  rewrite (firstn_snoc _ _ _ E), !wsum_app. destruct (IHb ls n) as [I1 I2]; [lia|auto|].
  rewrite I1. rewrite firstn_length. replace (Nat.min b (length ls)) with b by lia.
  destruct (H b ss ltac:(lia) E) as [N B].
  unfold owt. simpl. destruct (Nat.eqb_spec (recs ss) 0); [congruence|]. lia.
Qed.

Lemma lv_rec : forall (st : structure R) i ss, shape C st -> nth_error (lvs st) i = Some ss ->
  exists s, nth_error (st_state st) i = Some s /\ ls_rec s = recs ss.
Proof.
  intros st i ss SH H. apply lvs_nth_inv in H as (l & H & <-).
  destruct (shape_level C _ _ _ SH H) as (s & Es & (O1 & _)). exists s. auto.
Qed.

Lemma winv_step : forall (st : structure R) d v st' n k, winv n k st -> vok d v -> v_count v <= n ->
  reconstruct_struct qlt C (st_copy st) d v = Ok st' -> winv n (S k) st' /\
  forall p l, v_copy d v = Ok l -> cnt p (sdata (age st')) <= cnt p (sdata (age st)) + cnt p l.
Proof.
  intros st0 d v st' n k [SH OK W SM HT] VO VN H.
  rewrite <- (copy_age st0). rewrite <- copy_age in OK. rewrite <- copy_lvs in W, SM, HT.
  revert SH OK W SM HT H. generalize (st_copy st0). clear st0. intros st SH OK W SM HT H.
  unfold reconstruct_struct in H. mon H. destruct a as [x ts]. mon H. rename a into st1.
  apply (get_tasks_spec C SF) in E as [(-> & D)|(D & b & T & ET)]; auto.
  - assert (st1 = st) by (unfold exec_tasks in E0; rewrite LY in E0; inv E0; auto). subst st1.
    eapply winv_flush; eauto.
  - rewrite LY in ET. destruct ET as [c ->]. unfold exec_tasks in E0. rewrite LY in E0.
    pose proof (bsm_src C SF st b _ SH LY T D) as NM.
    destruct (reconstruct_bsm_ok qlt C SF _ _ _ _ SH LY OK T NM E0) as (S1 & SS & _).
    pose proof (seg_steps_ok qlt _ _ SS OK) as OK1.
    destruct T as (s0 & ES0 & T1 & T2 & T3).
    destruct (bsm_lvs qlt C SF _ _ _ _ (proj2 T1) E0) as (s & Q1 & Q2).
    assert (FU : forall j ss, j < b -> nth_error (lvs st) j = Some ss -> recs ss <> 0 /\ recs ss <= n * bw j).
    { intros j ss Hj Hss. split; [|eauto].
      destruct (lv_rec _ _ _ SH Hss) as (sj & Es & Q).
      assert (CJ : exists m, can_reconstruct_with C j m (st_state st) = false).
      { destruct j; [eauto|]. exists (ls_rec s0). apply T3. lia. }
      destruct CJ as [m CJ]. unfold can_reconstruct_with in CJ. rewrite Es, LY in CJ.
      apply Nat.eqb_neq in CJ. congruence. }
    destruct (owt_firstn b (lvs st) n ltac:(rewrite lvs_length; lia) FU) as [W1 W2].
    rewrite (bsum_bw C SF) in W1, W2 by lia.
    assert (SPL : bw b + wsum owt (S b) (skipn (S b) (lvs st)) <= k).
    { rewrite <- (firstn_skipn b (lvs st)) in W. rewrite wsum_app, firstn_length in W.
      replace (0 + Nat.min b (length (lvs st))) with b in W by (rewrite lvs_length; lia).
      assert (wsum owt (S b) (skipn (S b) (lvs st)) <= wsum owt b (skipn b (lvs st))); [|lia].
      destruct (nth_error (lvs st) b) as [ss|] eqn:Eb.
      - rewrite (skipn_cons_nth _ _ _ Eb). simpl. lia.
      - apply nth_error_None in Eb. rewrite !skipn_all2 by lia. auto. }
    assert (SB : s_reccnt s <= n * bw b).
    { apply (sfs_bound qlt) in Q1. fold (recs (AGE (firstn b (st_levels st)))) in Q1.
      pose proof (recs_age C SF (Struct (firstn b (st_levels st)) [])) as RA.
      unfold age, lvs in RA. cbn [st_levels] in RA. rewrite <- firstn_map in RA.
      fold (lvs st) in RA. lia. }
    assert (CT : forall p, cnt p (sdata (age st1)) <= cnt p (sdata (age st))).
    { intros p. apply cnt_seg. auto. }
    enough (G : winv n (S k) st' /\ forall p l, v_copy d v = Ok l ->
                cnt p (sdata (age st')) <= cnt p (sdata (age st1)) + cnt p l).
    { destruct G as [G1 G2]. split; auto. intros p l VL. specialize (G2 p l VL). specialize (CT p). lia. }
    eapply (winv_flush st1 d v st' n k); eauto.
    + rewrite Q2, wsum_app, owt_empty, repeat_length. cbn [wsum]. pose proof (owt_le b [s]).
      change (0 + b) with b. lia.
    + intros i ss Hss. rewrite Q2 in Hss.
      destruct (Nat.lt_trichotomy i b) as [J|[J|J]].
      * rewrite nth_error_app1, nth_error_repeat in Hss by (rewrite ?repeat_length; auto).
        inv Hss. unfold recs, sum_list. simpl. lia.
      * subst. rewrite nth_error_app2, repeat_length, Nat.sub_diag in Hss by (rewrite repeat_length; auto).
        inv Hss. unfold recs, sum_list. simpl. lia.
      * rewrite nth_error_app2 in Hss by (rewrite repeat_length; lia). rewrite repeat_length in Hss.
        replace (i - b) with (S (i - b - 1)) in Hss by lia.
        change (nth_error (skipn (S b) (lvs st)) (i - b - 1) = Some ss) in Hss.
        rewrite nth_error_skipn in Hss.
        replace (S b + (i - b - 1)) with i in Hss by lia. eauto.
    + rewrite Q2, app_length, repeat_length. cbn [length]. rewrite skipn_length. intros _.
      destruct (Nat.le_gt_cases (length (lvs st)) (S b)).
      * replace (b + S (length (lvs st) - S b) - 2) with (b - 1) by lia.
        destruct b; [lia|]. simpl bw in SPL. replace (S b - 1) with b by lia. lia.
      * replace (b + S (length (lvs st) - S b)) with (length (lvs st)) by lia.
        specialize (HT ltac:(lia)). lia.
Qed.

Lemma winv_tag : forall n k r st st', tagged_delete r st = Some st' -> winv n k st -> winv n k st'.
Proof.
  intros n k r st st' T [SH OK W SM HT].
  destruct (tagged_shape C _ _ _ (copy_tag _ _ _ T)) as (T1 & _).
  destruct (tagged_shape C _ _ _ T) as (_ & _ & T3 & _ & E). apply lvs_rel in E.
  assert (LL : length (lvs st') = length (lvs st)).
  { apply (f_equal (@length _)) in E. rewrite !map_length in E. auto. }
  constructor; auto.
  - eapply Nat.le_trans; [|exact W]. apply Nat.eq_le_incl.
    set (g := fun i (l : list nat) => if sum_list l =? 0 then 0 else bw i).
    rewrite (wsum_ext owt g (map s_reccnt)) by auto.
    rewrite (wsum_ext owt g (map s_reccnt) (lvs st)) by auto. rewrite E. auto.
  - intros i ss Hss. destruct (lvs_rel_nth _ _ _ _ E Hss) as (ss0 & Q1 & Q2).
    unfold recs. rewrite Q2. apply (SM i ss0). auto.
  - rewrite LL. auto.
Qed.

(** ** Runs *)

(** What a history appends to the buffer. *)
Definition applog (ops : list (op R)) : list (R * bool) :=
  flat_map (fun o => match o with
                     | Ins r => [(r, false)]
                     | Del r => match c_del C with TOMBSTONE => [(r, true)] | TAGGING => [] end
                     end) ops.

Lemma applog_snoc : forall ops o, appends C o -> applog (ops ++ [o]) = applog ops ++ [oplog o].
Proof.
  intros ops o AP. unfold applog, appends in *. rewrite flat_map_app. simpl.
  destruct o; simpl; auto. destruct (c_del C); auto. destruct AP; discriminate.
Qed.

Lemma cnt_append : forall p r ts q, cnt p [append_rec r ts q] = countb p [(r, ts)].
Proof. intros. unfold cnt. simpl. rewrite rt_append. auto. Qed.

Lemma set_delete_rt : forall w : wrapped R, rt (set_delete w) = rt w.
Proof. intros. unfold rt. rewrite is_ts_set_delete. auto. Qed.

Lemma cnt_set_del : forall p (l : list (wrapped R)) i w, nth_error l i = Some w ->
  cnt p (set_nth i (set_delete w) l) = cnt p l.
Proof.
  intros p l i w H. destruct (set_one _ _ _ H) as (rest & P & Q).
  rewrite (cnt_perm p _ _ P), (cnt_perm p _ _ Q). unfold cnt. simpl. rewrite set_delete_rt. auto.
Qed.

Lemma cnt_tag : forall p r (st st' : structure R), tagged_delete r st = Some st' ->
  cnt p (sdata (age st')) = cnt p (sdata (age st)).
Proof.
  intros p r st st' H. destruct (tag_perm _ _ _ H) as (w & rest & _ & P & Q).
  rewrite (cnt_perm p _ _ P), (cnt_perm p _ _ Q). unfold cnt. simpl. rewrite set_delete_rt. auto.
Qed.

Record wstate (ops : list (op R)) (e : ext R) (st : structure R) (win : list (wrapped R))
  (pos tsn k : nat) : Prop := {
  ws_e : einv C e st win pos tsn;
  ws_w : winv (c_lwm C) k st;
  ws_pos : pos = k * c_lwm C;
  ws_win : 0 < pos -> win <> [];
  ws_len : pos + length win <= length ops;
  ws_tsn : tsn = ts_appended C ops;
  ws_ts : countb is_ts win <= tsn;
  ws_cnt : forall p, cnt p (cont st win) <= countb p (applog ops);
  ws_some : win = [] -> applog ops = [];
  ws_first : pos = 0 -> sdata (age st) = [] /\ countb is_ts win = tsn
}.

Lemma tsn_next : forall o (r : R) ts ops tsn, appends C o -> oplog o = (r, ts) -> tsn = ts_appended C ops ->
  (if ts then S tsn else tsn) = ts_appended C (ops ++ [o]).
Proof.
  intros o r ts ops tsn AP E ->. unfold ts_appended, appends in *. rewrite countb_app.
  destruct (c_del C), o; simpl in *; inv E; try lia; auto. destruct AP; discriminate.
Qed.

Lemma w_append : forall ops e st win pos tsn k o e' n, wstate ops e st win pos tsn k -> appends C o ->
  step qlt C e o = Ok (e', n) ->
  exists st' win' pos' tsn' k', wstate (ops ++ [o]) e' st' win' pos' tsn' k'.
Proof.
  intros ops e st win pos tsn k o e' n [I W P NE LN TN TS CN SM F] AP A. rewrite step_append in A by auto.
  destruct (oplog o) as [r ts] eqn:EO. simpl in A.
  pose proof (tsn_next _ _ _ _ _ AP EO TN) as TN'.
  destruct (Nat.eq_dec (length win) (c_lwm C)).
  - pose proof (append_flush_copy qlt C SF LW WM e st win pos tsn r ts I e0) as K.
    destruct (reconstruct_struct _ _ _ _ _) as [st'|] eqn:ER; [|congruence].
    destruct K as (e'' & A' & I'). rewrite A in A'. inv A'.
    pose proof (einv_vok C SF LW WM _ _ _ _ _ I) as VO.
    destruct (einv_records C SF LW WM _ _ _ _ _ I) as [_ VC].
    assert (VN : v_count (bview C win (k * c_lwm C) (ts_appended C ops)) <= c_lwm C).
    { rewrite (bview_count C SF LW WM). lia. }
    destruct (winv_step _ _ _ _ _ _ W VO VN ER) as [W' CT].
    eexists st', _, _, _, (S k). constructor; [exact I'| | | | | | | | | ].
    + exact W'.
    + simpl. lia.
    + discriminate.
    + rewrite app_length. simpl. lia.
    + exact TN'.
    + simpl. rewrite append_rec_ts. destruct ts; lia.
    + intros p. rewrite applog_snoc, countb_app, EO by auto. unfold cont in *.
      rewrite cnt_app, cnt_append. specialize (CT p win VC). specialize (CN p).
      rewrite cnt_app in CN. lia.
    + discriminate.
    + pose proof LW. lia.
  - assert (L : length win < c_lwm C) by (destruct I; lia).
    destruct (append_room qlt C SF LW WM e st win pos tsn r ts I L) as (e'' & A' & I').
    rewrite A in A'. inv A'.
    eexists st, _, _, _, k. constructor; [exact I'| | | | | | | | | ]; auto.
    + destruct win; discriminate.
    + rewrite !app_length. simpl. lia.
    + rewrite countb_app. simpl. rewrite append_rec_ts. destruct ts; lia.
    + intros p. rewrite applog_snoc, countb_app, EO by auto. unfold cont in *.
      rewrite app_assoc, cnt_app, cnt_append. specialize (CN p). lia.
    + destruct win; discriminate.
    + intros Q. destruct (F Q) as [F1 F2]. split; auto. rewrite countb_app. simpl.
      rewrite append_rec_ts. destruct ts; lia.
Qed.

Lemma w_step : forall ops e st win pos tsn k o e' n, wstate ops e st win pos tsn k ->
  step qlt C e o = Ok (e', n) ->
  exists st' win' pos' tsn' k', wstate (ops ++ [o]) e' st' win' pos' tsn' k'.
Proof.
  intros ops e st win pos tsn k o e' n W A. destruct o as [r|r].
  { eapply w_append; eauto. right. auto. }
  destruct (c_del C) eqn:CD.
  { eapply w_append; eauto. left. auto. }
  destruct W as [I W P NE LN TN TS CN SM F]. simpl in A.
  destruct (erase_any qlt C SF LW WM e st win pos tsn r I CD) as (e1 & n1 & st' & win' & E & I' & K).
  rewrite A in E. inv E.
  assert (TN' : ts_appended C ops = ts_appended C (ops ++ [Del r])).
  { unfold ts_appended. rewrite CD. auto. }
  assert (AL : applog (ops ++ [Del r]) = applog ops).
  { unfold applog. rewrite flat_map_app. simpl. rewrite CD. apply app_nil_r. }
  assert (LL : length (ops ++ [Del r]) = S (length ops)) by (rewrite app_length; simpl; lia).
  destruct K as [(K1 & -> & ->)|[(K1 & -> & -> & i & w & K2 & ->)|(K1 & -> & -> & K2 & K3 & K4)]].
  - exists st', win, (k * c_lwm C), (ts_appended C ops), k. constructor; auto; try lia.
    + eapply winv_tag; eauto.
    + intros p. rewrite AL. specialize (CN p). unfold cont in *. rewrite cnt_app in *.
      rewrite (cnt_tag p _ _ _ K1). auto.
    + rewrite AL. auto.
    + intros Q. destruct (F Q) as [E _]. destruct (tag_perm _ _ _ K1) as (w & rest & _ & P1 & _).
      rewrite E in P1. apply Permutation_nil in P1. discriminate.
  - destruct K2 as (K2 & _).
    eexists st, _, (k * c_lwm C), (ts_appended C ops), k. constructor; [exact I'|auto|auto| | |auto| | | | ].
    + intros Q E. apply (f_equal (@length _)) in E. rewrite set_nth_length in E.
      apply (NE Q). destruct win; [auto|discriminate].
    + rewrite set_nth_length. lia.
    + rewrite (countb_set_del _ _ _ K2). auto.
    + intros p. rewrite AL. specialize (CN p). unfold cont in *. rewrite cnt_app in *.
      rewrite (cnt_set_del p _ _ _ K2). auto.
    + intros Q. rewrite AL. apply SM. apply (f_equal (@length _)) in Q. rewrite set_nth_length in Q.
      destruct win; [auto|discriminate].
    + rewrite (countb_set_del _ _ _ K2). auto.
  - exists st, win, (k * c_lwm C), (ts_appended C ops), k. constructor; auto; try lia; rewrite AL; auto.
Qed.

Theorem run_w : forall ops e rs, run_new qlt C ops = Ok (e, rs) ->
  exists st win pos tsn k, wstate ops e st win pos tsn k.
Proof.
  intros ops e rs H. unfold run_new in H. mon H. rename a into e0.
  apply (new_einv C SF LW WM) in E.
  assert (Z : wstate [] e0 st_empty [] 0 0 0).
  { constructor; auto; try (simpl; lia).
    - constructor; simpl; auto; try lia.
      + apply (s_shape (ok := shard_ok) _ _ (empty_sinv C)).
      + constructor.
      + intros i ss Hss. destruct i; discriminate.
    - unfold ts_appended. destruct (c_del C); auto. }
  assert (K : forall ops pre e st win pos tsn k e' rs, wstate pre e st win pos tsn k ->
    run qlt C e ops = Ok (e', rs) ->
    exists st' win' pos' tsn' k', wstate (pre ++ ops) e' st' win' pos' tsn' k').
  { clear ops e rs H e0 E Z. induction ops; intros pre e st win pos tsn k e' rs W Rn; simpl in *.
    - inv Rn. rewrite !app_nil_r. eauto 10.
    - mon Rn. destruct a0 as [e1 n]. mon Rn. destruct a0 as [e2 ns]. inv Rn.
      destruct (w_step _ _ _ _ _ _ _ _ _ _ W E) as (st1 & win1 & pos1 & tsn1 & k1 & W1).
      replace (pre ++ a :: ops) with ((pre ++ [a]) ++ ops) by (rewrite <- app_assoc; auto).
      eauto. }
  eapply (K ops []); eauto.
Qed.

End BP.

(** ** All layouts *)

Section AL.
Context {R : Type} {RO : RecOps R} {RL : RecLaws R}.
Variable qlt : qorder R.
Context {QO : QOrder qlt}.
Variable C : cfg.
Hypothesis V : valid_cfg C.

Local Lemma LW' : 1 <= c_lwm C. Proof. destruct V as (? & ? & ? & ?). auto. Qed.
Local Lemma WM' : c_lwm C <= c_hwm C. Proof. destruct V as (? & ? & ? & ?). auto. Qed.
Local Lemma SF' : 1 <= c_sf C. Proof. destruct V as (? & ? & ? & ?). auto. Qed.

Local Arguments nth_error : simpl never.

Record astate (ops : list (op R)) (e : ext R) (st : structure R) (win : list (wrapped R))
  (pos tsn k : nat) : Prop := {
  as_e : einv C e st win pos tsn;
  as_shape : shape C (st_copy st);
  as_ok : Forall shard_ok (age st);
  as_size : match c_layout C with BSM => winv C (c_lwm C) k st | _ => zinv C k st /\ sinv C shard_ok st end;
  as_pos : pos = k * c_lwm C;
  as_win : 0 < pos -> win <> [];
  as_len : pos + length win <= length ops;
  as_tsn : tsn = ts_appended C ops;
  as_ts : countb is_ts win <= tsn;
  as_cnt : forall p, cnt p (cont st win) <= countb p (applog C ops);
  as_some : win = [] -> applog C ops = [];
  as_first : pos = 0 -> sdata (age st) = [] /\ countb is_ts win = tsn
}.

Lemma exec_cnt : forall ops rs st win pos tsn, exec qlt C ops rs st win pos tsn ->
  forall p, cnt p (cont st win) <= countb p (applog C ops).
Proof.
  assert (AL : forall (ops : list (op R)) r, c_del C = TAGGING -> applog C (ops ++ [Del r]) = applog C ops).
  { intros ops r CD. unfold applog. rewrite flat_map_app. simpl. rewrite CD. apply app_nil_r. }
  intros ops rs st win pos tsn X. induction X; intros p; rewrite ?applog_snoc, ?AL by auto; unfold cont in *.
  - auto.
  - rewrite countb_app, H0, app_assoc, cnt_app, cnt_append. specialize (IHX p). lia.
  - rewrite countb_app, H0, cnt_app, cnt_append. specialize (IHX p). rewrite cnt_app in IHX.
    destruct (exec_sinv qlt C V _ _ _ _ _ _ X) as [S1 S2 S3].
    destruct (recon_ok qlt C SF' _ _ _ _ S1 H2 S3 H6 H5) as (_ & _ & _ & s' & T3 & T4).
    apply (cnt_seg qlt p) in T4. rewrite sdata_app, cnt_app in T4.
    assert (sdata [s'] = s_data s') as SE by (unfold sdata; simpl; apply app_nil_r). rewrite SE in T4.
    pose proof (cnt_sfv p _ _ _ _ H3 T3). lia.
  - rewrite cnt_app, (cnt_tag p _ _ _ H0), <- cnt_app. auto.
  - destruct H1 as (H1 & _). rewrite cnt_app, (cnt_set_del p _ _ _ H1), <- cnt_app. auto.
  - auto.
Qed.

Lemma exec_some : forall ops rs st win pos tsn, exec qlt C ops rs st win pos tsn ->
  win = [] -> applog C ops = [].
Proof.
  assert (AL : forall (ops : list (op R)) r, c_del C = TAGGING -> applog C (ops ++ [Del r]) = applog C ops).
  { intros ops r CD. unfold applog. rewrite flat_map_app. simpl. rewrite CD. apply app_nil_r. }
  intros ops rs st win pos tsn X. induction X; rewrite ?AL by auto; auto; try discriminate.
  - destruct win; discriminate.
  - intros Q. apply IHX. apply (f_equal (@length _)) in Q. rewrite set_nth_length in Q.
    destruct win; [auto|discriminate].
Qed.

Theorem run_any : forall ops e rs, run_new qlt C ops = Ok (e, rs) ->
  exists st win pos tsn k, astate ops e st win pos tsn k.
Proof.
  intros ops e rs H.
  assert (D : c_layout C = BSM \/ c_layout C <> BSM) by (destruct (c_layout C); auto; right; discriminate).
  destruct D as [LY|NB].
  - destruct (run_w qlt C V LY _ _ _ H) as (st & win & pos & tsn & k & [W1 W2 W3 W4 W5 W6 W7 W8 W9 W10]).
    exists st, win, pos, tsn, k. constructor; auto.
    + apply W2.
    + apply W2.
    + rewrite LY. auto.
  - assert (B : bsm_safe qlt C ops) by (intro; congruence).
    destruct (run_sizes qlt C V _ _ _ B H) as (st & win & pos & tsn & k & I & S & X & P & Z & W).
    destruct (exec_win_ts qlt C V _ _ _ _ _ _ X) as [E1 E2].
    destruct (exec_pos qlt C LW' _ _ _ _ _ _ X) as (_ & _ & L1).
    exists st, win, pos, tsn, k. constructor; auto.
    + rewrite (st_copy_id C) by apply S. apply S.
    + apply S.
    + destruct (c_layout C); auto. congruence.
    + eapply exec_tsn; eauto.
    + eapply exec_cnt; eauto.
    + eapply exec_some; eauto.
Qed.

Lemma level_any : forall e st win pos tsn i ls, einv C e st win pos tsn -> Forall shard_ok (age st) ->
  nth_error (levels_of e) i = Some ls ->
  exists ss, nth_error (lvs st) i = Some ss /\ length ls = length ss /\ length (concat ls) = recs ss.
Proof.
  intros e st win pos tsn i ls I OK H. rewrite (levels_of_eq C _ _ _ _ _ I), nth_error_map in H.
  destruct (nth_error (lvs st) i) as [ss|] eqn:E; inv H. exists ss.
  rewrite map_length, recs_length; auto.
  apply lvs_all in OK. rewrite Forall_forall in OK. apply OK. eapply nth_error_In; eauto.
Qed.

Theorem record_capacity : forall ops e rs i ls, c_layout C <> LEVELING ->
  run_new qlt C ops = Ok (e, rs) -> nth_error (levels_of e) i = Some ls ->
  length (concat ls) <= c_lwm C * c_sf C ^ (i + 1).
Proof.
  intros ops e rs i ls NL H N. destruct (c_layout C) eqn:LY; [congruence| |].
  - assert (B : bsm_safe qlt C ops) by (intro; congruence).
    eapply (level_capacity qlt C V); eauto. congruence.
  - destruct (run_w qlt C V LY _ _ _ H) as (st & win & pos & tsn & k & W).
    pose proof (ws_w _ _ _ _ _ _ _ _ W) as Q.
    destruct (level_any _ _ _ _ _ _ _ (ws_e _ _ _ _ _ _ _ _ W) (w_ok _ _ _ _ Q) N) as (ss & N1 & _ & ->).
    pose proof (w_small _ _ _ _ Q _ _ N1) as BD. destruct V as (_ & _ & _ & B2). rewrite (B2 LY).
    eapply Nat.le_trans; [exact BD|]. apply Nat.mul_le_mono_l.
    destruct i; simpl; [lia|]. replace (i + 1) with (S i) by lia. cbn [Nat.pow]. lia.
Qed.

Theorem shard_capacity : forall ops e rs i ls, bsm_safe qlt C ops ->
  run_new qlt C ops = Ok (e, rs) -> nth_error (levels_of e) i = Some ls ->
  length ls <= max_shards C.
Proof.
  intros ops e rs i ls B H N. destruct (c_layout C) eqn:LY.
  - unfold max_shards. rewrite LY. eapply (leveling_capacity qlt C V); eauto.
  - eapply (level_capacity qlt C V); eauto. congruence.
  - eapply (level_capacity qlt C V); eauto. congruence.
Qed.

Theorem height_any : forall ops e rs h, run_new qlt C ops = Ok (e, rs) -> get_height e = Ok (e, h) ->
  match c_layout C with
  | TIERING => 1 <= h -> c_lwm C * c_sf C ^ (h - 1) < length ops
  | BSM => 2 <= h -> c_lwm C * (2 ^ (h - 2) + 1) < length ops
  | LEVELING => 3 <= h -> c_hwm C * c_sf C ^ (h - 1) < length ops
  end.
Proof.
  intros ops e rs h H G.
  assert (D : c_layout C = BSM \/ c_layout C <> BSM) by (destruct (c_layout C); auto; right; discriminate).
  destruct D as [LY|NB].
  - rewrite LY. intros Hh.
    destruct (run_w qlt C V LY _ _ _ H) as (st & win & pos & tsn & k & [I W P NE LN _ _ _ _ _]).
    unfold get_height in G. rewrite (with_epoch_eq C _ _ _ _ _ _ I) in G. simpl in G. inv G.
    unfold st_height in *. rewrite <- (lvs_length st) in *.
    pose proof (w_height _ _ _ _ W Hh) as K. pose proof LW' as L1.
    assert (1 <= length win).
    { destruct win; [|simpl; lia]. exfalso. apply NE; auto. nia. }
    nia.
  - eapply (height_bound qlt C V); eauto. intro; congruence.
Qed.

Theorem bookkeeping_any : forall ops e rs, run_new qlt C ops = Ok (e, rs) ->
  planned_counts e = map (fun ls => (length (concat ls), length ls)) (levels_of e).
Proof.
  intros ops e rs H. destruct (run_any _ _ _ H) as (st & win & pos & tsn & k & [I SH OK _ _ _ _ _ _ _ _ _]).
  assert (E : planned_counts e = map (fun s => (ls_rec s, ls_cnt s)) (st_state st)).
  { destruct I. unfold planned_counts. rewrite i_cur. auto. }
  rewrite E. rewrite (levels_of_eq C _ _ _ _ _ I). unfold lvs. rewrite !map_map.
  destruct SH as [L SH]. unfold st_copy in *. simpl in *. rewrite map_length in L.
  apply nth_error_ext; [rewrite !map_length; auto|].
  intros i Hi. rewrite map_length in Hi. rewrite !nth_error_map.
  destruct (nth_error (st_levels st) i) as [l|] eqn:EL.
  2:{ apply nth_error_None in EL. lia. }
  destruct (nth_error (st_state st) i) as [s|] eqn:ES.
  2:{ apply nth_error_None in ES. lia. }
  simpl. pose proof (SH i (lv_clone l) s) as Q. rewrite nth_error_map, EL in Q.
  destruct (Q eq_refl ES) as (O1 & O2 & _). rewrite O1, O2, map_length.
  rewrite recs_length; auto.
  apply Forall_forall. intros x Hx. rewrite Forall_forall in OK. apply OK. eapply lv_in_age; eauto.
Qed.

Theorem proportion_any : forall ops e rs, c_layout C <> LEVELING ->
  run_new qlt C ops = Ok (e, rs) -> validate_ts_prop C e = Ok (e, true).
Proof.
  intros ops e rs NL H.
  destruct (run_any _ _ _ H) as (st & win & pos & tsn & k & [I SH OK _ _ _ _ _ _ _ _ _]).
  unfold validate_ts_prop. rewrite (with_epoch_eq C _ _ _ _ _ _ I). simpl.
  do 2 f_equal. unfold validate_tombstone_proportion. f_equal. apply validate_true.
  intros j l Hl. simpl.
  assert (N : nth_error (levels_of e) j = Some (map s_data (lv_shards l))).
  { rewrite (levels_of_eq C _ _ _ _ _ I), nth_error_map, (lvs_nth _ _ _ Hl). auto. }
  pose proof (record_capacity _ _ _ _ _ NL H N) as LC.
  assert (OKl : Forall shard_ok (lv_shards l)).
  { apply lvs_all in OK. rewrite Forall_forall in OK. apply OK.
    eapply nth_error_In. apply lvs_nth. eauto. }
  rewrite (recs_length _ OKl) in LC. pose proof (ts_le_rec _ OKl).
  unfold lv_tscnt, level_cap. pose proof WM'.
  eapply Nat.le_trans; [exact H0|]. eapply Nat.le_trans; [exact LC|].
  apply Nat.mul_le_mono_r. auto.
Qed.

Lemma ts_count_any : forall e st win pos tsn, einv C e st win pos tsn -> Forall shard_ok (age st) ->
  get_tombstone_count e = Ok (e, tsn + countb is_ts (shard_records e)).
Proof.
  intros e st win pos tsn I OK. unfold get_tombstone_count. rewrite (with_epoch_eq C _ _ _ _ _ _ I).
  simpl. do 2 f_equal. f_equal.
  rewrite (shard_ts C V _ _ _ _ _ is_ts I), st_tscnt_len by auto. auto.
Qed.

Theorem tombstone_value_any : forall ops e rs, run_new qlt C ops = Ok (e, rs) ->
  get_tombstone_count e = Ok (e, ts_appended C ops + countb is_ts (shard_records e)).
Proof.
  intros ops e rs H. destruct (run_any _ _ _ H) as (st & win & pos & tsn & k & [I SH OK _ _ _ _ -> _ _ _ _]).
  eapply ts_count_any; eauto.
Qed.

Theorem tombstone_ge_any : forall ops e rs, run_new qlt C ops = Ok (e, rs) ->
  exists n, get_tombstone_count e = Ok (e, n) /\ countb is_ts (stored e) <= n /\
    (c_del C = TAGGING \/ length ops <= c_lwm C -> n = countb is_ts (stored e)).
Proof.
  intros ops e rs H. destruct (run_any _ _ _ H) as (st & win & pos & tsn & k & [I SH OK _ P W LN TN TS _ _ F]).
  eexists. split; [eapply ts_count_any; eauto|].
  unfold stored. rewrite countb_app. destruct (stored_eq C V _ _ _ _ _ I) as [_ EB]. rewrite EB.
  split; [lia|]. intros [TG|L].
  - assert (T : tsn = 0) by (rewrite TN; unfold ts_appended; rewrite TG; auto). lia.
  - assert (Z : pos = 0).
    { destruct k; [lia|]. exfalso. destruct win; [|simpl in *; nia].
      apply W; auto. pose proof LW'. nia. }
    destruct (F Z) as [_ <-]. lia.
Qed.

(** ** Contents *)

Theorem record_count_any : forall ops e rs, run_new qlt C ops = Ok (e, rs) ->
  get_record_count e = Ok (e, length (stored e)).
Proof.
  intros ops e rs H. destruct (run_any _ _ _ H) as (st & win & pos & tsn & k & A).
  eapply (record_count_stored C V); [apply A|apply A].
Qed.

Lemma applog_plain : forall r (ops : list (op R)),
  countb (fun x => req r (fst x) && negb (snd x)) (applog C ops) = n_ins r ops.
Proof.
  intros r ops. unfold n_ins, applog. induction ops as [|[x|x] ops IH]; simpl; auto.
  - rewrite andb_true_r, IH. auto.
  - rewrite <- IH. destruct (c_del C); simpl; auto. rewrite andb_false_r. auto.
Qed.

Lemma applog_tomb : forall r (ops : list (op R)),
  countb (fun x => req r (fst x) && snd x) (applog C ops) <= n_del r ops /\
  (c_del C = TAGGING -> countb (fun x => req r (fst x) && snd x) (applog C ops) = 0).
Proof.
  intros r ops. unfold n_del, applog. induction ops as [|[x|x] ops [I1 I2]]; simpl; auto.
  - rewrite andb_false_r. auto.
  - destruct (c_del C); simpl; rewrite ?andb_true_r.
    + split; [destruct (req r x); lia|discriminate].
    + split; [destruct (req r x); lia|auto].
Qed.

Theorem nothing_made_up : forall ops e rs r, run_new qlt C ops = Ok (e, rs) ->
  n_plain r (stored e) <= n_ins r ops /\ n_tomb r (stored e) <= n_del r ops /\
  (c_del C = TAGGING -> n_tomb r (stored e) = 0).
Proof.
  intros ops e rs r H. destruct (run_any _ _ _ H) as (st & win & pos & tsn & k & A).
  pose proof (plain_stored C V _ _ _ _ _ (as_e _ _ _ _ _ _ _ A)) as P.
  assert (E1 : n_plain r (stored e) = cnt (fun x => req r (fst x) && negb (snd x)) (cont st win)).
  { unfold n_plain, cnt. rewrite countb_map. apply countb_perm. auto. }
  assert (E2 : n_tomb r (stored e) = cnt (fun x => req r (fst x) && snd x) (cont st win)).
  { unfold n_tomb, cnt. rewrite countb_map. apply countb_perm. auto. }
  rewrite E1, E2.
  pose proof (as_cnt _ _ _ _ _ _ _ A) as Q.
  pose proof (Q (fun x => req r (fst x) && negb (snd x))) as Q1. rewrite applog_plain in Q1.
  pose proof (Q (fun x => req r (fst x) && snd x)) as Q2.
  destruct (applog_tomb r ops) as [T1 T2]. repeat split; try lia.
  intros TG. rewrite (T2 TG) in Q2. lia.
Qed.

Theorem erase_tagging_any : forall ops e rs r, c_del C = TAGGING -> run_new qlt C ops = Ok (e, rs) ->
  exists e' n, erase qlt C e r = Ok (e', n) /\
    (0 < n_live r (stored e) -> n = 1) /\
    (n = 0 -> n_live r (stored e) = 0 /\ n_tagged r (stored e) = 0) /\
    (inserted ops <> [] -> n = 1 -> 0 < n_live r (stored e) + n_tagged r (stored e)) /\
    (forall x, req x r = false -> n_live x (stored e') = n_live x (stored e)) /\
    (exists i, i <= 1 /\ (forall x, req x r = true -> n_live x (stored e) = n_live x (stored e') + i) /\
       (inserted ops <> [] -> n_tagged r (stored e) = 0 -> i = n)).
Proof.
  intros ops e rs r TG H. destruct (run_any _ _ _ H) as (st & win & pos & tsn & k & A).
  apply (erase_tagging qlt C V ops e st win pos tsn r TG (as_e _ _ _ _ _ _ _ A)).
  - apply Forall_forall. intros w Hw.
    destruct (nothing_made_up _ _ _ (wrec w) H) as (_ & _ & Z). specialize (Z TG).
    destruct (is_ts w) eqn:T; auto. exfalso.
    pose proof (plain_stored C V _ _ _ _ _ (as_e _ _ _ _ _ _ _ A)) as P.
    apply (Permutation_in _ (Permutation_sym P)) in Hw. unfold n_tomb in Z.
    apply in_split in Hw as (l1 & l2 & E). rewrite E, countb_app in Z. simpl in Z.
    rewrite T, req_refl in Z. simpl in Z. lia.
  - intros NI ->. apply NI. pose proof (as_some _ _ _ _ _ _ _ A eq_refl) as Q.
    clear -Q. unfold inserted, applog in *. induction ops as [|[x|x] ops IH]; simpl in *; auto; try discriminate.
    destruct (c_del C); simpl in *; auto. discriminate.
Qed.

(** ** The next operation *)

Lemma exec_nodel : forall ops rs st win pos tsn, exec qlt C ops rs st win pos tsn ->
  c_del C = TOMBSTONE -> Forall nodel win.
Proof.
  intros ops rs st win pos tsn X TB. induction X; try congruence.
  - constructor.
  - apply Forall_app. split; auto. constructor; auto. apply append_rec_del.
  - constructor; auto. apply append_rec_del.
Qed.

(** A buffer in which some record has another number of untagged copies than of
    tombstones does not cancel completely. *)
Lemma shard_of_some : forall (win : list (wrapped R)) s r, shard_of win = Ok s ->
  Forall nodel win \/ Forall plain win -> n_live r win <> n_tomb r win -> s_data s <> [].
Proof.
  intros win s r H K N E. apply shard_of_ok in H as (evs & CR & E1 & _). rewrite E in E1.
  symmetry in E1. apply map_eq_nil in E1.
  pose proof (Permutation_trans (wsort_perm win) (crun_perm _ _ CR)) as P.
  pose proof (crun_cancelled _ _ CR) as CA.
  destruct K as [K|K].
  - assert (EM : emits evs = []).
    { rewrite filter_keep_id in E1; auto. apply (nodel_in _ _ K). intros x Hx.
      apply (Permutation_in _ (Permutation_sym P)). apply in_app_iff. auto. }
    rewrite EM in P. simpl in P. apply N. unfold n_live, n_tomb.
    rewrite !(countb_perm _ _ _ P), !countb_app, !countb_map.
    assert (KC : Forall (fun p => nodel (fst p)) (cancelled evs)).
    { apply Forall_forall. intros p Hp. rewrite Forall_forall in K. apply K.
      apply (Permutation_in _ (Permutation_sym P)). apply in_app_iff. left. apply in_map. auto. }
    clear -CA KC RL. induction CA as [|p ps H _ IH]; [auto|]. inv KC. specialize (IH H3). simpl.
    unfold cancels in H. apply andb_true_iff in H as [H T]. apply andb_true_iff in H as [H Q].
    apply negb_true_iff in H. unfold nodel in H2. rewrite H, H2, T. cbn [negb].
    rewrite !andb_true_r, !andb_false_r. cbn [Nat.add]. rewrite (req_swap _ _ r Q).
    rewrite !andb_false_l in *. lia.
  - pose proof (no_cancel _ _ P CA K) as P'. apply N. unfold n_live, n_tomb.
    rewrite !(countb_perm _ _ _ P').
    assert (PE : Forall plain (emits evs)).
    { rewrite Forall_forall in *. intros x Hx. apply K. apply (Permutation_in _ (Permutation_sym P')). auto. }
    clear -E1 PE. induction PE as [|w l PW _ IH]; [auto|]. simpl in *. unfold plain in PW.
    unfold keep in *. destruct (is_del w); simpl in E1; [|discriminate].
    rewrite PW. simpl. rewrite !andb_false_r. simpl. auto.
Qed.

Theorem next_step : forall ops e rs o, run_new qlt C ops = Ok (e, rs) ->
  (forall ls d, In ls (levels_of e) -> In d ls -> d <> []) ->
  (c_layout C = LEVELING -> length (buffer_records e) = c_lwm C ->
   exists r, n_live r (buffer_records e) <> n_tomb r (buffer_records e)) ->
  exists e' n, step qlt C e o = Ok (e', n).
Proof.
  intros ops e rs o H NE LV. destruct (run_any _ _ _ H) as (st & win & pos & tsn & k & A).
  pose proof (as_e _ _ _ _ _ _ _ A) as I.
  destruct (stored_eq C V _ _ _ _ _ I) as [_ EB]. rewrite EB in LV.
  assert (AP : appends C o -> exists e' n, step qlt C e o = Ok (e', n)).
  { intros AP. rewrite step_append by auto. destruct (oplog o) as [r ts]. simpl.
    destruct (Nat.eq_dec (length win) (c_lwm C)) as [L|L].
    - pose proof (append_flush_copy qlt C SF' LW' WM' e st win pos tsn r ts I L) as K.
      destruct (einv_records C SF' LW' WM' _ _ _ _ _ I) as [_ VC].
      destruct (shard_of_total win) as [s ES].
      assert (G : Forall (good shard_ok) (age st)).
      { apply Forall_forall. intros x Hx. split.
        - pose proof (as_ok _ _ _ _ _ _ _ A) as OK. rewrite Forall_forall in OK. auto.
        - destruct (levels_age C _ _ _ _ _ _ I Hx) as (ls & H1 & H2). eauto. }
      destruct (recon_total qlt C SF' (st_copy st) (b_data (e_buf e)) (bview C win pos tsn) s) as [st' ER].
      + apply A.
      + intros LY. pose proof (as_size _ _ _ _ _ _ _ A) as Z. rewrite LY in Z. destruct Z as [_ S].
        rewrite (st_copy_id C) by apply S. apply S. auto.
      + rewrite copy_age. auto.
      + eapply einv_vok; eauto using SF', LW', WM'.
      + rewrite (bview_count C SF' LW' WM'). pose proof WM'. lia.
      + pose proof LW'. pose proof WM'. lia.
      + simpl. rewrite (sfv_shard_of _ _ _ VC). auto.
      + intros LY. destruct (LV LY L) as [x N]. apply (shard_of_some win s x ES); auto.
        assert (B : bsm_safe qlt C ops) by (intro; congruence).
        destruct (run_sizes qlt C V _ _ _ B H) as (st2 & win2 & pos2 & tsn2 & k2 & I2 & _ & X & _).
        assert (win2 = win) as ->.
        { destruct (stored_eq C V _ _ _ _ _ I2) as [_ EB2]. congruence. }
        destruct (c_del C) eqn:CD; [left; eapply exec_nodel; eauto|right].
        destruct (exec_tagged qlt C V ops ops rs st2 win pos2 tsn2 CD X [] (eq_sym (app_nil_r _))).
        unfold cont in tg_plain. apply Forall_app in tg_plain as [_ F]. auto.
      + rewrite ER in K. destruct K as (e' & K & _). rewrite K. eauto.
    - destruct (append_room qlt C SF' LW' WM' e st win pos tsn r ts I) as (e' & K & _).
      { destruct I. lia. }
      rewrite K. eauto. }
  destruct o as [r|r]; [apply AP; right; auto|]. destruct (c_del C) eqn:CD; [apply AP; left; auto|].
  destruct (erase_any qlt C SF' LW' WM' e st win pos tsn r I CD) as (e' & n & st' & win' & E & _).
  exists e', n. auto.
Qed.

End AL.

Section QL.
Context {R : Type} {RO : RecOps R} {RL : RecLaws R} {KO : KeyOps R} {KL : KeyLaws R}.
Variable qlt : qorder R.
Context {QO : QOrder qlt}.
Variable C : cfg.
Hypothesis V : valid_cfg C.
Variable lbf : list (wrapped R) -> Z -> res nat.
Hypothesis LB : lb_sound lbf.

Theorem range_count_any : forall ops e rs l u e' n,
  run_new qlt C ops = Ok (e, rs) -> range_count lbf e l u = Ok (e', n) ->
  e' = e /\ n = counted l u (stored e).
Proof.
  intros ops e rs l u e' n H Q. destruct (run_any qlt C V _ _ _ H) as (st & win & pos & tsn & k & A).
  eapply (range_count_inv C V lbf LB); [apply A|apply A|exact Q].
Qed.

Theorem range_count_ok_any : forall ops e rs l u, run_new qlt C ops = Ok (e, rs) ->
  (forall ls d, In ls (levels_of e) -> In d ls -> exists w, In w d /\ (l <= rkey (wrec w))%Z) ->
  range_count lbf e l u = Ok (e, counted l u (stored e)).
Proof.
  intros ops e rs l u H F. destruct (run_any qlt C V _ _ _ H) as (st & win & pos & tsn & k & A).
  pose proof (as_e _ _ _ _ _ _ _ _ A) as I.
  eapply (range_count_total C V lbf LB); [exact I|apply A|]. apply Forall_forall. intros s Hs.
  destruct (levels_age C _ _ _ _ _ _ I Hs) as (ls & H1 & H2). eauto.
Qed.

Theorem range_query_sound : forall ops e rs l u e' out,
  run_new qlt C ops = Ok (e, rs) -> range_query qlt lbf e l u = Ok (e', out) ->
  e' = e /\ forall r, if key_in l u r then occ r out <= n_plain r (stored e) /\ occ r out <= n_ins r ops
                     else occ r out = 0.
Proof.
  intros ops e rs l u e' out H Q. destruct (run_any qlt C V _ _ _ H) as (st & win & pos & tsn & k & A).
  pose proof (as_e _ _ _ _ _ _ _ _ A) as I.
  destruct (range_query_inv qlt C V lbf LB _ _ _ _ _ _ _ _ _ I (as_ok _ _ _ _ _ _ _ _ A) Q)
    as (-> & cs & evs & M & P & ->).
  split; auto. intros r.
  pose proof (Permutation_trans (Permutation_sym (mrun_perm qlt _ _ M)) P) as PI.
  assert (EO : occ r (map wrec (filter (fun w => negb (is_ts w)) (emits evs))) = n_plain r (emits evs)).
  { unfold occ, n_plain. rewrite countb_map. clear. induction (emits evs); simpl; auto.
    destruct (is_ts a); simpl; rewrite ?andb_false_r, ?andb_true_r, IHl; auto. }
  rewrite EO.
  assert (LE : n_plain r (emits evs) <= n_plain r (filter (inr l u) (cont st win))).
  { unfold n_plain. unfold cont. rewrite <- (countb_perm _ _ _ PI), countb_app. lia. }
  assert (NF : n_plain r (filter (inr l u) (cont st win)) =
               if key_in l u r then n_plain r (stored e) else 0).
  { pose proof (plain_stored C V _ _ _ _ _ I) as PS.
    assert (n_plain r (stored e) = n_plain r (cont st win)) as -> by (apply countb_perm; auto).
    clear -KL. unfold n_plain. induction (cont st win) as [|w ws IH]; simpl; [destruct key_in; auto|].
    assert (KE : req r (wrec w) = true -> inr l u w = key_in l u r).
    { intro RQ. unfold inr, in_range, key_in. rewrite (rkey_eq _ _ RQ). auto. }
    destruct (req r (wrec w)) eqn:RQ.
    - rewrite (KE eq_refl). destruct (key_in l u r); simpl; rewrite ?RQ, ?IH; auto.
    - destruct (inr l u w); simpl; rewrite ?RQ, IH; destruct (key_in l u r); auto. }
  destruct (nothing_made_up qlt C V _ _ _ r H) as (NM & _). rewrite NF in LE.
  destruct (key_in l u r); lia.
Qed.

Theorem next_query : forall ops e rs l u, run_new qlt C ops = Ok (e, rs) ->
  (forall ls d, In ls (levels_of e) -> In d ls -> d <> []) ->
  exists out, range_query qlt lbf e l u = Ok (e, out).
Proof.
  intros ops e rs l u H NE. destruct (run_any qlt C V _ _ _ H) as (st & win & pos & tsn & k & A).
  pose proof (as_e _ _ _ _ _ _ _ _ A) as I.
  destruct (range_query_ok qlt C (SF' C V) (LW' C V) (WM' C V) lbf LB _ _ _ _ _ l u I
    (as_ok _ _ _ _ _ _ _ _ A)) as (evs & _ & EQ); [|eauto].
  apply Forall_forall. intros x Hx. destruct (levels_age C _ _ _ _ _ _ I Hx) as (ls & H1 & H2).
  unfold nonempty. eauto.
Qed.

End QL.

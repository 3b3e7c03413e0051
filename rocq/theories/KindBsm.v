(** BSM histories over any kind of shards, in which shards may become empty: heights and
    counts. *)
From Coq Require Import List Arith ZArith NArith Lia Bool Permutation Sorted.
From Verif Require Import Base ListLemmas RecordModel RecordProofs BufferModel BufferProofs
  MergeModel MergeProofs StructModel ExtModel QueryModel StructProofs StructTotal SortedProofs ExtProofs ContentProofs Spec
  QueryProofs SerialProofs TagProofs ExecProofs LevelProofs TagContent SizeProofs CountProofs BsmProofs
  KindModel KindSpec KindProofs KindTag KindSize.
Import ListNotations.

Section KB.
Context {R : Type} {RO : RecOps R}.
Variable BD : builders R.
Context {ok : shard R -> Prop} {SL : ShardLaws BD ok}.
Variable C : cfg.
Hypothesis V : valid_cfg C.
Hypothesis LY : c_layout C = BSM.
Hypothesis tagging_ok : forall s i w, ok s -> nth_error (s_data s) i = Some w -> ok (tagged_at s i w).

Local Lemma LW : 1 <= c_lwm C. Proof. destruct V as (? & ? & ? & ?). auto. Qed.
Local Lemma WM : c_lwm C <= c_hwm C. Proof. destruct V as (? & ? & ? & ?). auto. Qed.
Local Lemma SF : 1 <= c_sf C. Proof. destruct V as (? & ? & ? & ?). auto. Qed.

Local Arguments set_nth : simpl never.
Local Arguments nth_error : simpl never.

Lemma kw_flush_lvs : forall (st : structure R) d v st', shape C st ->
  flush_buffer BD C st d v = Ok st' ->
  exists l0 s, nth_error (pad 0 (lvs st)) 0 = Some l0 /\ recs l0 = 0 /\
    from_view BD d v = Ok s /\ shape C (st_copy st') /\
    (lvs st' = set_nth 0 (l0 ++ [s]) (pad 0 (lvs st)) \/ lvs st' = pad 0 (lvs st)).
Proof.
  intros st d v st' SH H. rewrite flush_ext0 in H by auto.
  destruct (ext0_ok C SF st SH) as (SE & AE & NE).
  assert (LE : lvs (ext0 C st) = pad 0 (lvs st)).
  { unfold ext0, pad. rewrite lvs_length. destruct (st_levels st) eqn:E; simpl; auto.
    unfold lvs. simpl. rewrite E. auto. }
  revert H. rewrite <- LE. generalize dependent (ext0 C st). intros e SE AE NE LE H.
  destruct (can_reconstruct_with C 0 (v_count v) (st_state e)) eqn:CR; [|discriminate].
  unfold flush_into_l0 in H. rewrite LY in H.
  destruct e as [levels state]. simpl in *.
  destruct levels as [|l0 levels]; [congruence|].
  destruct state as [|s0 state]; [destruct SE; discriminate|].
  simpl in H. change (nth_res 0 (l0 :: levels)) with (Ok l0) in H. cbn [bind] in H.
  mon H. change (nth_res 0 (s0 :: state)) with (Ok s0) in H. cbn [bind] in H.
  rename a into l0'. inv H.
  pose proof (proj2 SE 0 l0 s0 eq_refl eq_refl) as L0. unfold lsok in L0. rewrite LY in L0.
  destruct L0 as (O1 & O2 & O3 & O4 & O5).
  unfold can_reconstruct_with in CR. change (nth_error (s0 :: state) 0) with (Some s0) in CR.
  rewrite LY in CR. apply Nat.eqb_eq in CR.
  assert (Z : recs (lv_shards l0) = 0) by (unfold recs; fold (lv_reccnt l0); lia).
  assert (G : exists s, from_view BD d v = Ok s /\
    lsok C 0 (lv_clone l0') (LS (lv_reccnt l0') (ls_reccap s0) (lv_count l0') (ls_cap s0)) /\
    (lv_shards l0' = lv_shards l0 ++ [s] \/ lv_shards l0' = lv_shards l0)).
  { unfold lv_append_buffer in E. destruct (Nat.eqb_spec (lv_count l0) (lv_cap l0)).
    - rewrite O3 in E. mon E. inv E. exists a. split; [auto|].
      unfold lsok, lv_clone, lv_reccnt, lv_count in *. rewrite LY. simpl. repeat split; auto.
    - mon E. inv E. exists a. split; [auto|].
      unfold lsok, lv_clone, lv_reccnt, lv_count in *. rewrite LY. simpl. rewrite app_length. simpl.
      repeat split; auto. lia. }
  destruct G as (s & G1 & G2 & G3).
  exists (lv_shards l0), s. split; [reflexivity|]. split; [auto|]. split; [auto|]. split.
  - pose proof (shape_set C _ 0 (lv_clone l0') _ SE G2) as Q.
    pose proof (st_copy_id C _ SE) as I. unfold st_copy in *. simpl in *. inv I.
    change (set_nth 0 (lv_clone l0') (l0 :: levels)) with (lv_clone l0' :: levels) in Q.
    change (set_nth 0 l0' (l0 :: levels)) with (l0' :: levels). simpl. rewrite ?H1, ?H2. exact Q.
  - unfold lvs. simpl. change (set_nth 0 l0' (l0 :: levels)) with (l0' :: levels). simpl.
    destruct G3 as [-> | ->]; [left; reflexivity|right; reflexivity].
Qed.

Record kwinv (n k : nat) (st : structure R) : Prop := {
  kw_shape : shape C (st_copy st);
  kw_ok : Forall ok (age st);
  kw_weight : wsum owt 0 (lvs st) <= k;
  kw_small : forall i ss, nth_error (lvs st) i = Some ss -> recs ss <= n * bw i;
  kw_height : 2 <= length (lvs st) -> 2 ^ (length (lvs st) - 2) + 1 <= k
}.

Lemma kwinv_flush : forall (st : structure R) d v st' n k, shape C st -> Forall ok (age st) ->
  vok d v -> v_count v <= n -> wsum owt 0 (lvs st) <= k ->
  (forall i ss, nth_error (lvs st) i = Some ss -> recs ss <= n * bw i) ->
  (2 <= length (lvs st) -> 2 ^ (length (lvs st) - 2) + 1 <= S k) ->
  flush_buffer BD C st d v = Ok st' -> kwinv n (S k) st'.
Proof.
  intros st d v st' n k SH OK VO VN WT SM HT H.
  destruct (kw_flush_lvs _ _ _ _ SH H) as (l0 & s & F1 & F2 & F3 & F4 & F5).
  destruct (view_ok _ _ _ VO F3) as [SO B].
  destruct (set0_pad _ _ F1 (l0 ++ [s])) as (rest & E1 & E2).
  assert (CASE : (lvs st = [] /\ rest = [] /\ l0 = []) \/ lvs st = l0 :: rest).
  { unfold pad in E1. destruct (Nat.leb_spec (length (lvs st)) 0); [|auto].
    destruct (lvs st); [|simpl in *; lia]. simpl in E1. inv E1. auto. }
  assert (NEW : exists new, lvs st' = new :: rest /\ (new = l0 ++ [s] \/ new = l0)).
  { destruct F5 as [->| ->]; rewrite ?E2, ?E1; eauto. }
  destruct NEW as (new & N1 & N2).
  assert (RN : recs new <= n).
  { destruct N2 as [->| ->]; rewrite ?recs_app, ?F2; unfold recs, sum_list; simpl; lia. }
  assert (OK0 : Forall (Forall ok) (l0 :: rest)).
  { apply lvs_all in OK. destruct CASE as [(_ & -> & ->)| <-]; [repeat constructor|auto]. }
  assert (WR : wsum owt 1 rest <= k).
  { destruct CASE as [(_ & -> & _)|Q]; [simpl; lia|]. rewrite Q in WT. simpl in WT. lia. }
  constructor; auto; rewrite ?N1.
  - apply lvs_all. rewrite N1. inversion OK0; subst. constructor; auto.
    destruct N2 as [->| ->]; auto. apply Forall_app. auto.
  - simpl. pose proof (owt_le 0 new). simpl in H0. lia.
  - intros [|i] ss Hss.
    + inv Hss. simpl. lia.
    + destruct CASE as [(_ & -> & _)|Q]; [destruct i; discriminate|]. apply (SM (S i)). rewrite Q. auto.
  - intros L. destruct CASE as [(_ & -> & _)|Q]; [simpl in L; lia|]. rewrite Q in HT. auto.
Qed.

Lemma kwinv_step : forall (st : structure R) d v st' n k, kwinv n k st -> vok d v -> v_count v <= n ->
  reconstruct_struct BD C (st_copy st) d v = Ok st' -> kwinv n (S k) st'.
Proof.
  intros st0 d v st' n k [SH OK W SM HT] VO VN H.
  rewrite <- copy_age in OK. rewrite <- copy_lvs in W, SM, HT.
  revert SH OK W SM HT H. generalize (st_copy st0). clear st0. intros st SH OK W SM HT H.
  unfold reconstruct_struct in H. mon H. destruct a as [x ts]. mon H. rename a into st1.
  apply (get_tasks_spec C SF) in E as [(-> & D)|(D & b & T & ET)]; auto.
  - assert (st1 = st) by (unfold exec_tasks in E0; rewrite LY in E0; inv E0; auto). subst st1.
    eapply kwinv_flush; eauto.
  - rewrite LY in ET. destruct ET as [c ->]. unfold exec_tasks in E0. rewrite LY in E0.
    pose proof (bsm_src C SF st b _ SH LY T D) as NM.
    destruct (reconstruct_bsm_ok BD C SF _ _ _ _ SH LY OK T NM E0) as (S1 & SS & _).
    pose proof (seg_steps_ok BD _ _ SS OK) as OK1.
    destruct T as (s0 & ES0 & T1 & T2 & T3).
    destruct (bsm_lvs BD C SF _ _ _ _ (proj2 T1) E0) as (s & Q1 & Q2).
    assert (FU : forall j ss, j < b -> nth_error (lvs st) j = Some ss -> recs ss <> 0 /\ recs ss <= n * bw j).
    { intros j ss Hj Hss. split; [|eauto].
      destruct (lv_rec C _ _ _ SH Hss) as (sj & Es & Q).
      assert (CJ : exists m, can_reconstruct_with C j m (st_state st) = false).
      { destruct j; [eauto|]. exists (ls_rec s0). apply T3. lia. }
      destruct CJ as [m CJ]. unfold can_reconstruct_with in CJ. rewrite Es, LY in CJ.
      apply Nat.eqb_neq in CJ. congruence. }
    destruct (owt_firstn b (lvs st) n ltac:(rewrite lvs_length; lia) FU) as [W1 W2].
    rewrite (bsum_bw C SF) in W1, W2 by lia.
    assert (SPL : bw b + wsum owt (S b) (skipn (S b) (lvs st)) <= k).
    { rewrite <- (firstn_skipn b (lvs st)) in W. rewrite wsum_app, firstn_length in W.
      replace (0 + Nat.min b (length (lvs st))) with b in W by (rewrite lvs_length; lia).
      assert (wsum owt (S b) (skipn (S b) (lvs st)) <= wsum owt b (skipn b (lvs st))); [|lia].
      destruct (nth_error (lvs st) b) as [ss|] eqn:Eb.
      - rewrite (skipn_cons_nth _ _ _ Eb). simpl. lia.
      - apply nth_error_None in Eb. rewrite !skipn_all2 by lia. auto. }
    assert (SB : s_reccnt s <= n * bw b).
    { apply shards_bound in Q1. fold (recs (AGE (firstn b (st_levels st)))) in Q1.
      pose proof (recs_age C SF (Struct (firstn b (st_levels st)) [])) as RA.
      unfold age, lvs in RA. cbn [st_levels] in RA. rewrite <- firstn_map in RA.
      fold (lvs st) in RA. lia. }
    eapply (kwinv_flush st1 d v st' n k); eauto.
    + rewrite Q2, wsum_app, owt_empty, repeat_length. cbn [wsum]. pose proof (owt_le b [s]).
      change (0 + b) with b. lia.
    + intros i ss Hss. rewrite Q2 in Hss.
      destruct (Nat.lt_trichotomy i b) as [J|[J|J]].
      * rewrite nth_error_app1, nth_error_repeat in Hss by (rewrite ?repeat_length; auto).
        inv Hss. unfold recs, sum_list. simpl. lia.
      * subst. rewrite nth_error_app2, repeat_length, Nat.sub_diag in Hss by (rewrite repeat_length; auto).
        inv Hss. unfold recs, sum_list. simpl. lia.
      * rewrite nth_error_app2 in Hss by (rewrite repeat_length; lia). rewrite repeat_length in Hss.
        replace (i - b) with (S (i - b - 1)) in Hss by lia.
        change (nth_error (skipn (S b) (lvs st)) (i - b - 1) = Some ss) in Hss.
        rewrite nth_error_skipn in Hss.
        replace (S b + (i - b - 1)) with i in Hss by lia. eauto.
    + rewrite Q2, app_length, repeat_length. cbn [length]. rewrite skipn_length. intros _.
      destruct (Nat.le_gt_cases (length (lvs st)) (S b)).
      * replace (b + S (length (lvs st) - S b) - 2) with (b - 1) by lia.
        destruct b; [lia|]. simpl bw in SPL. replace (S b - 1) with b by lia. lia.
      * replace (b + S (length (lvs st) - S b)) with (length (lvs st)) by lia.
        specialize (HT ltac:(lia)). lia.
Qed.

Lemma kwinv_tag : forall n k r st st', tagged_delete r st = Some st' -> kwinv n k st -> kwinv n k st'.
Proof.
  intros n k r st st' T [SH OK W SM HT].
  assert (OK' : Forall ok (age st')).
  { destruct (tag_age _ _ _ T) as (a & s & b & i & w' & EA & EA' & F1 & F2 & _).
    rewrite EA in OK. rewrite EA'. apply Forall_app in OK as [G1 G2]. inv G2. apply Forall_app. split; auto. }
  destruct (tagged_shape C _ _ _ (copy_tag _ _ _ T)) as (T1 & _).
  destruct (tagged_shape C _ _ _ T) as (_ & _ & T3 & _ & E). apply lvs_rel in E.
  assert (LL : length (lvs st') = length (lvs st)).
  { apply (f_equal (@length _)) in E. rewrite !map_length in E. auto. }
  constructor; auto.
  - eapply Nat.le_trans; [|exact W]. apply Nat.eq_le_incl.
    set (g := fun i (l : list nat) => if sum_list l =? 0 then 0 else bw i).
    rewrite (wsum_ext owt g (map s_reccnt)) by auto.
    rewrite (wsum_ext owt g (map s_reccnt) (lvs st)) by auto. rewrite E. auto.
  - intros i ss Hss. destruct (lvs_rel_nth _ _ _ _ E Hss) as (ss0 & Q1 & Q2).
    unfold recs. rewrite Q2. apply (SM i ss0). auto.
  - rewrite LL. auto.
Qed.

(** ** Runs *)

Record kwstate (ops : list (op R)) (e : ext R) (st : structure R) (win : list (wrapped R))
  (pos tsn k : nat) : Prop := {
  kws_e : einv C e st win pos tsn;
  kws_w : kwinv (c_lwm C) k st;
  kws_pos : pos = k * c_lwm C;
  kws_win : 0 < pos -> win <> [];
  kws_len : pos + length win <= length ops
}.

Lemma kw_append : forall ops e st win pos tsn k o r ts e' n, kwstate ops e st win pos tsn k ->
  internal_append BD C e r ts = Ok (e', n) ->
  exists st' win' pos' tsn' k', kwstate (ops ++ [o]) e' st' win' pos' tsn' k'.
Proof.
  intros ops e st win pos tsn k o r ts e' n [I W P NE LN] A.
  destruct (Nat.eq_dec (length win) (c_lwm C)).
  - pose proof (append_flush_copy BD C SF LW WM e st win pos tsn r ts I e0) as K.
    destruct (reconstruct_struct _ _ _ _ _) as [st'|] eqn:ER; [|congruence].
    destruct K as (e'' & A' & I'). rewrite A in A'. inv A'.
    pose proof (einv_vok C SF LW WM _ _ _ _ _ I) as VO.
    assert (VN : v_count (bview C win (k * c_lwm C) tsn) <= c_lwm C) by (rewrite (bview_count C SF LW WM); lia).
    pose proof (kwinv_step _ _ _ _ _ _ W VO VN ER) as W'.
    eexists st', _, _, _, (S k). constructor; [exact I'|exact W'|simpl; lia|discriminate|].
    rewrite app_length. simpl. lia.
  - assert (L : length win < c_lwm C) by (destruct I; lia).
    destruct (append_room BD C SF LW WM e st win pos tsn r ts I L) as (e'' & A' & I').
    rewrite A in A'. inv A'.
    eexists st, _, _, _, k. constructor; [exact I'|auto|auto| |].
    + destruct win; discriminate.
    + rewrite !app_length. simpl. lia.
Qed.

Lemma kw_step : forall ops e st win pos tsn k o e' n, kwstate ops e st win pos tsn k ->
  step BD C e o = Ok (e', n) ->
  exists st' win' pos' tsn' k', kwstate (ops ++ [o]) e' st' win' pos' tsn' k'.
Proof.
  intros ops e st win pos tsn k o e' n G H.
  assert (D : c_del C = TAGGING \/ c_del C = TOMBSTONE) by (destruct (c_del C); auto).
  destruct o as [r|r]; simpl in H; [unfold insert in H; eapply kw_append; eauto|].
  destruct D as [TG|TB]; [|unfold erase in H; rewrite TB in H; eapply kw_append; eauto].
  destruct G as [I W P NE LN].
  destruct (erase_any by_version C SF LW WM e st win pos tsn r I TG) as (e1 & n1 & st' & win' & X & I' & Y).
  assert (X' : erase BD C e r = Ok (e1, n1)) by (rewrite <- X; unfold erase; rewrite TG; auto).
  rewrite H in X'. inv X'. exists st', win', (k * c_lwm C), tsn, k.
  assert (LL : length (ops ++ [Del r]) = length ops + 1) by (rewrite app_length; auto).
  destruct Y as [(K1 & -> & ->)|[(K1 & -> & -> & i & w & K2 & ->)|(K1 & -> & -> & K2 & K3 & K4)]].
  - constructor; auto; [|lia]. eapply kwinv_tag; eauto.
  - constructor; auto; [|rewrite set_nth_length; lia].
    intros Q1 Q2. apply (f_equal (@length _)) in Q2. rewrite set_nth_length in Q2.
    apply (NE Q1). destruct win; [auto|discriminate].
  - constructor; auto. lia.
Qed.

Theorem kw_run : forall ops e rs, run_new BD C ops = Ok (e, rs) ->
  exists st win pos tsn k, kwstate ops e st win pos tsn k.
Proof.
  intros ops e rs H. unfold run_new in H. mon H. rename a into e0.
  apply (new_einv C SF LW WM) in E.
  assert (Z : kwstate [] e0 st_empty [] 0 0 0).
  { constructor; auto; try (simpl; lia). constructor; simpl; auto; try lia.
    - apply (s_shape (ok := ok) _ _ (empty_sinv C)).
    - constructor.
    - intros i ss Hss. destruct i; discriminate. }
  assert (K : forall ops pre e st win pos tsn k e' rs, kwstate pre e st win pos tsn k ->
    run BD C e ops = Ok (e', rs) ->
    exists st' win' pos' tsn' k', kwstate (pre ++ ops) e' st' win' pos' tsn' k').
  { clear ops e rs H e0 E Z. induction ops; intros pre e st win pos tsn k e' rs W Rn; simpl in *.
    - inv Rn. rewrite !app_nil_r. eauto 10.
    - mon Rn. destruct a0 as [e1 n]. mon Rn. destruct a0 as [e2 ns]. inv Rn.
      destruct (kw_step _ _ _ _ _ _ _ _ _ _ W E) as (st1 & win1 & pos1 & tsn1 & k1 & W1).
      replace (pre ++ a :: ops) with ((pre ++ [a]) ++ ops) by (rewrite <- app_assoc; auto).
      eauto. }
  eapply (K ops []); eauto.
Qed.
End KB.

Section KA.
Context {R : Type} {RO : RecOps R}.
Variable BD : builders R.
Context {ok : shard R -> Prop} {SL : ShardLaws BD ok}.
Variable C : cfg.
Hypothesis V : valid_cfg C.
Hypothesis tagging_ok : forall s i w, ok s -> nth_error (s_data s) i = Some w -> ok (tagged_at s i w).

Local Lemma layout_case : c_layout C = BSM \/ (forall ops : list (op R), bsm_safe BD C ops) /\ c_layout C <> BSM.
Proof. destruct (c_layout C) eqn:E; auto; right; (split; [intros ops Q; congruence|discriminate]). Qed.

Theorem any_records : forall ops e rs i ls, c_layout C <> LEVELING -> run_new BD C ops = Ok (e, rs) ->
  nth_error (levels_of e) i = Some ls -> length (concat ls) <= c_lwm C * c_sf C ^ (i + 1).
Proof.
  intros ops e rs i ls NL H N. destruct layout_case as [LY|[NB _]].
  - destruct (kw_run BD C V LY tagging_ok _ _ _ H) as (st & win & pos & tsn & k & [I [SH OK W SM HT] _ _ _]).
    rewrite (levels_of_eq C _ _ _ _ _ I), nth_error_map in N.
    destruct (nth_error (lvs st) i) as [ss|] eqn:E; inv N.
    rewrite (ok_recs BD (ok := ok)). 2:{ apply lvs_all in OK. rewrite Forall_forall in OK. apply OK. eapply nth_error_In; eauto. }
    specialize (SM _ _ E). assert (c_sf C = 2) as -> by (destruct V as (_ & _ & _ & Q); auto).
    eapply Nat.le_trans; [exact SM|]. apply Nat.mul_le_mono_l.
    destruct i; simpl; [lia|]. replace (i + 1) with (S i) by lia. cbn [Nat.pow]. lia.
  - destruct (kind_sizes BD C V tagging_ok ops e rs i ls (NB ops) H N) as [_ Q].
    destruct (c_layout C); congruence || auto.
Qed.

Theorem any_height : forall ops e rs h, run_new BD C ops = Ok (e, rs) -> get_height e = Ok (e, h) ->
  match c_layout C with
  | TIERING => 1 <= h -> c_lwm C * c_sf C ^ (h - 1) < length ops
  | BSM => 2 <= h -> c_lwm C * (2 ^ (h - 2) + 1) < length ops
  | LEVELING => 3 <= h -> c_hwm C * c_sf C ^ (h - 1) < length ops
  end.
Proof.
  intros ops e rs h H G. destruct layout_case as [LY|[NB _]].
  - rewrite LY. intros Hh.
    destruct (kw_run BD C V LY tagging_ok _ _ _ H) as (st & win & pos & tsn & k & [I [SH OK W SM HT] P NE LN]).
    unfold get_height in G. rewrite (with_epoch_eq C _ _ _ _ _ _ I) in G. simpl in G. inv G.
    unfold st_height in *. rewrite <- (lvs_length st) in *.
    specialize (HT Hh). assert (L1 : 1 <= c_lwm C) by (destruct V as (? & ? & ? & ?); auto).
    assert (1 <= length win).
    { destruct win; [|simpl; lia]. exfalso. apply NE; auto. nia. }
    nia.
  - exact (kind_height BD C V tagging_ok ops e rs h (NB ops) H G).
Qed.

Theorem any_bookkeeping : forall ops e rs, run_new BD C ops = Ok (e, rs) ->
  planned_counts e = map (fun ls => (length (concat ls), length ls)) (levels_of e).
Proof.
  intros ops e rs H. destruct layout_case as [LY|[NB _]]; [|exact (kind_bookkeeping BD C V tagging_ok ops e rs (NB ops) H)].
  destruct (kw_run BD C V LY tagging_ok _ _ _ H) as (st & win & pos & tsn & k & [I [SH OK _ _ _] _ _ _]).
  assert (E : planned_counts e = map (fun s => (ls_rec s, ls_cnt s)) (st_state st)).
  { destruct I. unfold planned_counts. rewrite i_cur. auto. }
  rewrite E. rewrite (levels_of_eq C _ _ _ _ _ I). unfold lvs. rewrite !map_map.
  destruct SH as [L SH]. unfold st_copy in *. simpl in *. rewrite map_length in L.
  apply nth_error_ext; [rewrite !map_length; auto|].
  intros i Hi. rewrite map_length in Hi. rewrite !nth_error_map.
  destruct (nth_error (st_levels st) i) as [l|] eqn:EL.
  2:{ apply nth_error_None in EL. lia. }
  destruct (nth_error (st_state st) i) as [s|] eqn:ES.
  2:{ apply nth_error_None in ES. lia. }
  simpl. pose proof (SH i (lv_clone l) s) as Q. rewrite nth_error_map, EL in Q.
  destruct (Q eq_refl ES) as (O1 & O2 & _). rewrite O1, O2, map_length.
  rewrite (ok_recs BD); auto.
  apply Forall_forall. intros x Hx. rewrite Forall_forall in OK. apply OK. eapply lv_in_age; eauto.
Qed.
End KA.

(** ** VPTree and tries *)

Section VT.
Variable C : cfg.
Hypothesis V : valid_cfg C.

Theorem vp_any_records {R : Type} {RO : RecOps R} : forall (ops : list (op R)) e rs i ls, c_layout C <> LEVELING ->
  run_new vp_shards C ops = Ok (e, rs) -> nth_error (levels_of e) i = Some ls ->
  length (concat ls) <= c_lwm C * c_sf C ^ (i + 1).
Proof. exact (any_records vp_shards C V vp_tagging_ok). Qed.

Theorem vp_any_height {R : Type} {RO : RecOps R} : forall (ops : list (op R)) e rs h,
  run_new vp_shards C ops = Ok (e, rs) -> get_height e = Ok (e, h) ->
  match c_layout C with
  | TIERING => 1 <= h -> c_lwm C * c_sf C ^ (h - 1) < length ops
  | BSM => 2 <= h -> c_lwm C * (2 ^ (h - 2) + 1) < length ops
  | LEVELING => 3 <= h -> c_hwm C * c_sf C ^ (h - 1) < length ops
  end.
Proof. exact (any_height vp_shards C V vp_tagging_ok). Qed.

Theorem vp_any_bookkeeping {R : Type} {RO : RecOps R} : forall (ops : list (op R)) e rs,
  run_new vp_shards C ops = Ok (e, rs) ->
  planned_counts e = map (fun ls => (length (concat ls), length ls)) (levels_of e).
Proof. exact (any_bookkeeping vp_shards C V vp_tagging_ok). Qed.

Variable qlt : qorder crec.
Context {QO : QOrder qlt}.
Variable literal : nat.

Theorem trie_any_records : forall ops e rs i ls, c_layout C <> LEVELING ->
  run_new (trie_shards qlt literal) C ops = Ok (e, rs) -> nth_error (levels_of e) i = Some ls ->
  length (concat ls) <= c_lwm C * c_sf C ^ (i + 1).
Proof. exact (any_records (trie_shards qlt literal) C V (trie_tagging_ok qlt literal)). Qed.

Theorem trie_any_height : forall ops e rs h,
  run_new (trie_shards qlt literal) C ops = Ok (e, rs) -> get_height e = Ok (e, h) ->
  match c_layout C with
  | TIERING => 1 <= h -> c_lwm C * c_sf C ^ (h - 1) < length ops
  | BSM => 2 <= h -> c_lwm C * (2 ^ (h - 2) + 1) < length ops
  | LEVELING => 3 <= h -> c_hwm C * c_sf C ^ (h - 1) < length ops
  end.
Proof. exact (any_height (trie_shards qlt literal) C V (trie_tagging_ok qlt literal)). Qed.

Theorem trie_any_bookkeeping : forall ops e rs, run_new (trie_shards qlt literal) C ops = Ok (e, rs) ->
  planned_counts e = map (fun ls => (length (concat ls), length ls)) (levels_of e).
Proof. exact (any_bookkeeping (trie_shards qlt literal) C V (trie_tagging_ok qlt literal)). Qed.
End VT.

(** Successive reconstructions for every kind of shard that keeps its records, and the
    other reads of an epoch: static structure, range count, point lookup and kNN. *)
From Coq Require Import List Arith ZArith NArith Lia Bool Permutation Sorted.
From Verif Require Import Base ListLemmas RecordModel RecordProofs BufferModel BufferProofs
  MergeModel MergeProofs StructModel ExtModel QueryModel StructProofs StructTotal SortedProofs ExtProofs ContentProofs
  Spec QueryProofs SerialProofs LevelProofs SizeProofs CountProofs HeaderProofs WordProofs QueryWord
  FlushModel FlushSpec FlushProofs VPModel VPSpec VPProofs KNNProofs KNNAny KindModel KindSpec KindProofs.
Import ListNotations.

Section KeepFlush.
Context {R : Type} {RO : RecOps R}.
Variable BD : builders R.
Context {ok : shard R -> Prop} {SL : ShardLaws BD ok}.
Context {adm : wrapped R -> Prop} {KL : KeepLaws BD ok adm}.
Variable C : cfg.
Hypothesis V : valid_cfg C.

Local Lemma sdata_1 : forall s : shard R, sdata [s] = s_data s.
Proof. intros. unfold sdata. simpl. apply app_nil_r. Qed.

Definition kQ (ws : list (wrapped R)) : Prop := ws <> [] /\ Forall adm ws.
Definition kA (ss : list (shard R)) : Prop := Forall adm (sdata ss).

Lemma keep_step : forall ss ws s ss', kA ss -> Forall ok ss -> Forall nonempty ss -> kQ ws -> built BD ws = Ok s ->
  seg_steps BD (ss ++ [s]) ss' -> nonempty s /\ kept (ok := ok) (adm := adm) (ss ++ [s]) ss' /\ Forall nonempty ss' /\
    Permutation (map rt ws) (map rt (s_data s)).
Proof.
  intros ss ws s ss' A O N [W1 W2] B G. destruct (keep_built _ _ B W2) as [P A1].
  assert (NS : nonempty s) by (unfold nonempty; eapply rt_nonempty; eauto).
  assert (K : kept (ok := ok) (adm := adm) (ss ++ [s]) ss').
  { apply (seg_steps_kept BD); auto.
    - apply Forall_app. split; auto. constructor; auto. exact (proj1 (built_ok BD _ _ B)).
    - rewrite sdata_app, sdata_1. apply Forall_app. auto. }
  split; auto. split; auto. split; auto. apply K. apply Forall_app. auto.
Qed.

Lemma fhist_kept : forall runs ss, fhist BD runs ss -> Forall kQ runs ->
  Permutation (map rt (concat runs)) (map rt (sdata ss)) /\ Forall adm (sdata ss) /\ Forall ok ss /\ Forall nonempty ss.
Proof.
  induction 1; intros M.
  - repeat split; constructor.
  - apply Forall_app in M as [M1 M2]. inv M2. destruct (IHfhist M1) as (P & A & O & N).
    destruct (keep_step _ _ _ _ A O N H4 H0 H1) as (NS & (K1 & K2 & K3 & _) & K4 & PS).
    split; auto. rewrite concat_app. cbn [concat]. rewrite app_nil_r, map_app. rewrite <- K1.
    rewrite sdata_app, sdata_1, map_app. apply Permutation_app; auto.
Qed.

Lemma keep_flush_inv : forall bs runs, Forall2 shows bs runs -> Forall (Forall adm) runs ->
  Forall (run_size (c_hwm C)) runs ->
  exists st, flush_all BD C st_empty bs = Ok st /\ sinv C ok st /\
    ginv C (c_hwm C) (length runs) (length (concat runs)) st /\ fhist BD runs (age st) /\ Forall kQ runs.
Proof.
  intros bs runs F M L.
  assert (Q : Forall kQ runs).
  { rewrite Forall_forall in *. intros ws W. split; auto. specialize (L ws W). destruct ws; [cbv in L; lia|discriminate]. }
  destruct (flush_all_inv BD C V nonempty (fun s H => H) kQ kA) with (bs := bs) (runs := runs)
    (st := @st_empty R) (runs0 := @nil (list (wrapped R))) (k := 0) (p := 0) as (st & E1 & E2 & E3 & _ & _ & E6); auto.
  - intros ss ws s ss' A O N W B G. destruct (keep_step _ _ _ _ A O N W B G) as (K1 & (_ & K2 & _) & K3 & _). auto.
  - intros ws s [W1 W2] B. destruct (keep_built _ _ B W2) as [P _]. unfold nonempty. eapply rt_nonempty; eauto.
  - eapply Forall_impl; [|exact L]. intros a [_ H]. auto.
  - apply empty_sinv.
  - constructor.
  - constructor.
  - constructor.
  - apply ginv_empty.
  - exists st. auto.
Qed.

Lemma keep_flush_facts : forall bs runs, Forall2 shows bs runs -> Forall (Forall adm) runs ->
  Forall (run_size (c_hwm C)) runs ->
  exists st, flush_all BD C st_empty bs = Ok st /\
    Permutation (map rt (concat runs)) (map rt (sdata (age st))) /\ Forall adm (sdata (age st)) /\
    Forall ok (age st) /\ Forall nonempty (age st).
Proof.
  intros bs runs F M L. destruct (keep_flush_inv bs runs F M L) as (st & E & _ & _ & H & Q).
  exists st. split; auto. apply (fhist_kept _ _ H). auto.
Qed.

Theorem keep_flush_result : forall bs runs st, Forall2 shows bs runs -> Forall (Forall adm) runs ->
  Forall (run_size (c_hwm C)) runs -> flush_all BD C st_empty bs = Ok st ->
  Permutation (map rt (concat runs)) (map rt (sdata (age st))) /\ Forall adm (sdata (age st)) /\
  Forall ok (age st) /\ Forall nonempty (age st).
Proof.
  intros bs runs st F M L E. destruct (keep_flush_facts bs runs F M L) as (st' & E' & X). rewrite E in E'. inv E'. auto.
Qed.

(** The static structure of an epoch, on its own. *)
Lemma keep_static_on : forall st d v win, shows (d, v) win ->
  Forall adm (sdata (age st) ++ win) -> Forall ok (age st) -> Forall nonempty (age st) ->
  exists s, static_on BD st d v = Ok s /\ ok s /\
    Permutation (map rt (sdata (age st) ++ win)) (map rt (s_data s)) /\ Forall adm (s_data s).
Proof.
  intros st d v win SH AD O N. destruct (shows_ok d v win SH) as (VO & VC & VR).
  unfold static_on. rewrite VC, (view_built BD _ _ _ VO VR).
  apply Forall_app in AD as [AD1 AD2].
  assert (EQ : concat (map lv_shards (rev (st_levels st))) = age st) by reflexivity.
  destruct (combined_kept BD (rev (st_levels st))) as (ss & E & K1 & K2 & K3 & K4); try (rewrite EQ; auto).
  rewrite EQ in *. rewrite E. simpl.
  assert (B : exists bs, (if 0 <? length win then do s <- built BD win; Ok [s] else Ok []) = Ok bs /\
    Permutation (map rt win) (map rt (sdata bs)) /\ Forall adm (sdata bs) /\ Forall ok bs /\ Forall nonempty bs).
  { destruct win as [|w win]; simpl; [exists []; repeat split; auto|].
    destruct (built_total BD (w :: win)) as [s Es]. rewrite Es. simpl. exists [s].
    destruct (keep_built _ _ Es AD2) as [Q1 Q2]. rewrite sdata_1. repeat split; auto.
    - constructor; auto. exact (proj1 (built_ok BD _ _ Es)).
    - constructor; auto. unfold nonempty. apply (rt_nonempty (w :: win)); auto. discriminate. }
  destruct B as (bs & -> & B1 & B2 & B3 & B4). simpl.
  destruct (shards_total (B := BD) (ss ++ bs)) as [s Es]; try (apply Forall_app; split; auto).
  exists s. split; auto.
  assert (OS : Forall ok (ss ++ bs)) by (apply Forall_app; auto).
  assert (AS : Forall adm (sdata (ss ++ bs))) by (rewrite sdata_app; apply Forall_app; auto).
  split; [eapply shards_ok; eauto|].
  destruct (keep_shards _ _ Es OS AS) as [Q Q2]. split; auto. rewrite <- Q, sdata_app, !map_app.
  apply Permutation_app; auto.
Qed.

Theorem keep_flush_static : forall bs runs st d v win, Forall2 shows bs runs -> Forall (Forall adm) runs ->
  Forall (run_size (c_hwm C)) runs -> flush_all BD C st_empty bs = Ok st -> shows (d, v) win -> Forall adm win ->
  exists s, static_on BD st d v = Ok s /\ ok s /\ Permutation (map rt (concat runs ++ win)) (map rt (s_data s)) /\
    Forall adm (s_data s).
Proof.
  intros bs runs st d v win F M L E SH AW. destruct (keep_flush_result _ _ _ F M L E) as (P & A & O & N).
  destruct (keep_static_on st d v win SH) as (s & S1 & S2 & S3 & S4); auto.
  { apply Forall_app. auto. }
  exists s. split; auto. split; auto. split; auto. rewrite <- S3, !map_app. apply Permutation_app_tail. auto.
Qed.

Theorem keep_flush_count : forall bs runs st d v win, Forall2 shows bs runs -> Forall (Forall adm) runs ->
  Forall (run_size (c_hwm C)) runs -> flush_all BD C st_empty bs = Ok st -> shows (d, v) win ->
  v_count v + st_reccnt st = length (concat runs ++ win).
Proof.
  intros bs runs st d v win F M L E SH. destruct (keep_flush_result _ _ _ F M L E) as (P & _ & O & _).
  destruct (shows_ok _ _ _ SH) as (_ & -> & _). rewrite (reccnt_len BD) by auto. rewrite app_length.
  apply Permutation_length in P. rewrite !map_length in P. lia.
Qed.

Theorem keep_flush_all : forall bs runs d v win, Forall2 shows bs runs -> Forall (Forall adm) runs ->
  Forall (run_size (c_hwm C)) runs -> shows (d, v) win -> Forall adm win ->
  exists st s, flush_all BD C st_empty bs = Ok st /\ static_on BD st d v = Ok s /\
    Permutation (map rt (concat runs ++ win)) (map rt (s_data s)) /\
    v_count v + st_reccnt st = length (concat runs ++ win).
Proof.
  intros bs runs d v win F M L SH AW. destruct (keep_flush_facts bs runs F M L) as (st & E & _).
  destruct (keep_flush_static _ _ _ _ _ _ F M L E SH AW) as (s & S1 & _ & S2 & _).
  exists st, s. split; [exact E|]. split; [exact S1|]. split; [exact S2|].
  exact (keep_flush_count _ _ _ _ _ _ F M L E SH).
Qed.

End KeepFlush.

(** ** Sorted shards without tombstones *)

Section SortedKeep.
Context {R : Type} {RO : RecOps R} {RL : RecLaws R}.
Variable qlt : qorder R.
Context {QO : QOrder qlt}.

Definition plainw (w : wrapped R) : Prop := is_ts w = false /\ is_del w = false.

Lemma all_plain_forall : forall ws : list (wrapped R), all_plain ws <-> Forall plainw ws.
Proof. intros. unfold all_plain, plainw. rewrite Forall_forall. tauto. Qed.

Lemma plain_cancel : forall (l m : list (wrapped R)) ps, Forall plainw l -> Forall nodel m ->
  cancel_of (map rt l) (map rt m) ps -> Permutation (map rt l) (map rt m) /\ Forall plainw m.
Proof.
  intros l m ps PL ND K.
  assert (T : forall x, In x (map rt l) -> snd x = false).
  { intros x Hx. apply in_map_iff in Hx as (w & <- & Hw). rewrite Forall_forall in PL. apply (PL w Hw). }
  destruct (cancel_of_plain _ _ _ T K) as (_ & P). split; auto.
  rewrite Forall_forall in *. intros w Hw. split; [|apply ND; auto].
  apply (T (rt w)). apply (Permutation_in _ (Permutation_sym P)). apply in_map. auto.
Qed.

Lemma plain_nodel : forall l : list (wrapped R), Forall plainw l -> Forall nodel l.
Proof. intros l. apply Forall_impl. intros w [_ H]. exact H. Qed.

#[global] Instance sorted_keep : KeepLaws qlt shard_ok plainw.
Proof.
  constructor.
  - intros l s H A. rewrite built_sorted in H.
    destruct (shard_of_cancel _ _ H (plain_nodel _ A)) as (N & ps & F). eapply plain_cancel; eauto.
  - intros ss s H O A. destruct (sfs_cancel qlt _ _ H (plain_nodel _ A)) as (N & ps & F). eapply plain_cancel; eauto.
Qed.

End SortedKeep.

(** ** Reads of sorted shards *)

Section SortedReads.
Context {R : Type} {RO : RecOps R} {RL : RecLaws R}.
Variable qlt : qorder R.
Context {QO : QOrder qlt}.
Variable C : cfg.
Hypothesis V : valid_cfg C.

Lemma forall_plain : forall runs : list (list (wrapped R)), Forall all_plain runs -> Forall (Forall plainw) runs.
Proof. intros runs. apply Forall_impl. intros a. apply all_plain_forall. Qed.

Theorem flushes_static : forall bs runs st d v win, Forall2 shows bs runs -> Forall all_plain runs ->
  Forall (run_size (c_hwm C)) runs -> flush_all qlt C st_empty bs = Ok st -> shows (d, v) win -> all_plain win ->
  exists s, static_on qlt st d v = Ok s /\ Permutation (map wrec (s_data s)) (map wrec (concat runs ++ win)) /\
    sorted (s_data s) /\ all_plain (s_data s) /\ s_reccnt s = length (concat runs ++ win) /\ s_tscnt s = 0.
Proof.
  intros bs runs st d v win F P L E SH W.
  destruct (keep_flush_static qlt C V bs runs st d v win F (forall_plain _ P) L E SH) as (s & S1 & (O1 & O2 & O3) & S3 & S4).
  { apply all_plain_forall. auto. }
  apply all_plain_forall in S4. exists s. split; auto. split; [|split; [|split; [|split]]]; auto.
  - rewrite <- !map_wrec_rt. apply Permutation_map. symmetry. auto.
  - rewrite O1. apply Permutation_length in S3. rewrite !map_length in S3. auto.
  - rewrite O2. unfold ts_count. apply countb_false. intros w Hw. apply (S4 w Hw).
Qed.

(** With tombstones. *)
Theorem flushes_static_bounds : forall bs runs st d v win, Forall2 shows bs runs -> Forall mostly_plain runs ->
  Forall (run_size (c_hwm C)) runs -> flush_all qlt C st_empty bs = Ok st -> shows (d, v) win ->
  (win = [] \/ mostly_plain win) ->
  exists s, static_on qlt st d v = Ok s /\ sorted (s_data s) /\
    forall r, let ws := concat runs ++ win in
      n_plain r (s_data s) + n_tomb r ws = n_tomb r (s_data s) + n_plain r ws /\
      n_plain r (s_data s) <= n_plain r ws.
Proof.
  intros bs runs st d v win F M L E SH W.
  destruct (flush_result qlt C V _ _ _ F M L E) as (S & FH & PP & _).
  destruct (fhist_cancel qlt _ _ FH M) as (N & ps & K).
  destruct (shows_ok d v win SH) as (VO & VC & VR).
  unfold static_on. rewrite VC. rewrite (view_built qlt _ _ _ VO VR), built_sorted.
  destruct (combined_total qlt (rev (st_levels st)) PP (s_ok _ _ S) N) as (ss & EC & PS & OS).
  pose proof (combined_steps qlt _ _ EC (s_ok _ _ S)) as G.
  destruct (seg_steps_cancel qlt _ _ G N) as (N3 & qs & K2).
  rewrite EC. cbn [bind].
  assert (B : exists bl, (if 0 <? length win then do s <- shard_of win; Ok [s] else Ok []) = Ok bl /\
    Forall pos_shard bl /\ Forall shard_ok bl /\ Forall nodel (sdata bl) /\
    exists us, cancel_of (map rt win) (map rt (sdata bl)) us).
  { destruct win as [|w win].
    - exists []. repeat split; auto; try constructor. exists []. apply cancel_of_refl.
    - destruct W as [W|W]; [discriminate|]. destruct (mostly_net _ W) as [W1 W2].
      cbn [length]. rewrite (proj2 (Nat.ltb_lt 0 (Datatypes.S (length win)))) by lia.
      destruct (shard_of_total (w :: win)) as [b Eb]. rewrite Eb. cbn [bind]. exists [b].
      destruct (shard_of_cancel _ _ Eb W2) as (N4 & us & K4). rewrite sdata_1. repeat split; auto; eauto.
      + constructor; auto. unfold pos_shard. rewrite <- (net_cancel _ _ _ K4). auto.
      + constructor; auto. apply shard_of_ok in Eb as (_ & _ & _ & ?). auto. }
  destruct B as (bl & -> & B1 & B2 & B3 & us & B4). cbn [bind].
  assert (OB : Forall shard_ok (ss ++ bl)) by (apply Forall_app; auto).
  destruct (sfs_total qlt (ss ++ bl)) as [s Es]; auto.
  { apply Forall_app. split; [eapply Forall_impl; [|exact PS]|eapply Forall_impl; [|exact B1]]; apply pos_nonempty. }
  exists s. split; auto.
  assert (OS' : shard_ok s) by (eapply sfs_shard_ok; eauto). destruct OS' as (_ & _ & SO). split; auto.
  intros r. cbv zeta. set (ws := concat runs ++ win).
  destruct (sfs_cancel qlt _ _ Es) as (N5 & vs & K5).
  { rewrite sdata_app. apply Forall_app. auto. }
  assert (KK : cancel_of (map rt ws) (map rt (s_data s)) ((ps ++ us) ++ (qs ++ []) ++ vs)).
  { unfold ws. rewrite map_app. eapply cancel_of_trans; [apply cancel_of_app; [exact K|exact B4]|].
    eapply cancel_of_trans; [|exact K5]. rewrite sdata_app, map_app. apply cancel_of_app; [exact K2|apply cancel_of_refl]. }
  destruct (cancel_balance _ _ _ KK r) as (k & X1 & X2).
  rewrite <- !n_plain_rt, <- !n_tomb_rt in *. lia.
Qed.

(** ** Range count *)

Context {KO : KeyOps R} {KL : KeyLaws R}.
Variable lbf : list (wrapped R) -> Z -> res nat.
Hypothesis LB : lb_sound lbf.

Lemma st_runs_age : forall (st : structure R) s, In s (age st) -> exists ls, In ls (st_runs st) /\ In (s_data s) ls.
Proof.
  intros st s H. apply (Permutation_in _ (Permutation_sym (query_shards_perm st))) in H.
  unfold query_shards in H. apply in_concat in H as (ss & H1 & H2). apply in_map_iff in H1 as (l & <- & H1).
  exists (map s_data (lv_shards l)). split; [apply in_map_iff; eauto|apply in_map; auto].
Qed.

Lemma rc_on_ok : forall st d v win l u, shows (d, v) win -> Forall shard_ok (age st) ->
  Forall (fun s => exists w, In w (s_data s) /\ (l <= rkey (wrec w))%Z) (age st) ->
  rc_on lbf l u st d v = Ok (countb (fun w => rcp l u w && negb (is_ts w)) (st_records st ++ win)).
Proof.
  intros st d v win l u SH S F. destruct (shows_ok d v win SH) as (_ & _ & VR).
  unfold rc_on, rc_local_buffer. rewrite VR. cbn [bind].
  rewrite (map_res_total _ (fun s => [rc_count (filter (inr l u) (s_data s))])).
  2:{ intros s Hs. assert (HA : In s (age st)) by (apply (Permutation_in _ (query_shards_perm st)); auto).
      apply (rc_local_total lbf LB).
      - rewrite Forall_forall in S. auto.
      - rewrite Forall_forall in F. auto. }
  cbn [bind].
  rewrite <- (map_map s_data (fun x => [rc_count (filter (inr l u) x)])).
  change ([rc_count (filter (fun w => in_range l u (wrec w)) win)] ::
    map (fun x => [rc_count (filter (inr l u) x)]) (map s_data (query_shards st)))
    with (map (fun x => [rc_count (filter (inr l u) x)]) (win :: map s_data (query_shards st))).
  rewrite rc_value. f_equal. apply countb_perm.
  rewrite (concat_query st win). unfold TagContent.cont. apply Permutation_app_tail. symmetry. apply st_records_perm.
Qed.

Theorem flushes_range_count : forall bs runs st d v win l u, Forall2 shows bs runs -> Forall all_plain runs ->
  Forall (run_size (c_hwm C)) runs -> flush_all qlt C st_empty bs = Ok st -> shows (d, v) win -> all_plain win ->
  (forall ls a, In ls (st_runs st) -> In a ls -> exists w, In w a /\ (l <= rkey (wrec w))%Z) ->
  rc_on lbf l u st d v = Ok (length (filter (key_in l u) (map wrec (concat runs ++ win)))).
Proof.
  intros bs runs st d v win l u F P L E SH W HI.
  destruct (plain_contents qlt C V _ _ _ F P L E) as (Q & A & O & NE).
  rewrite (rc_on_ok st d v win l u SH O).
  2:{ apply Forall_forall. intros s Hs. destruct (st_runs_age st s Hs) as (ls & H1 & H2). eapply HI; eauto. }
  f_equal. rewrite (countb_perm _ _ (sdata (age st) ++ win)) by (apply Permutation_app_tail, st_records_perm).
  transitivity (length (filter (key_in l u) (map wrec (sdata (age st) ++ win)))).
  - assert (AA : all_plain (sdata (age st) ++ win)).
    { intros w Hw. apply in_app_or in Hw as [Hw|Hw]; [apply A|apply W]; auto. }
    revert AA. generalize (sdata (age st) ++ win). clear. induction l0 as [|w ws IH]; intros A; auto.
    cbn [map filter countb]. destruct (A w (or_introl eq_refl)) as [T D].
    assert (rcp l u w = key_in l u (wrec w)) as ->.
    { unfold rcp, inr, in_range, key_in. rewrite D. cbn. rewrite ?andb_true_r. auto. }
    rewrite T. destruct (key_in l u (wrec w)); cbn; rewrite IH; auto; intros x Hx; apply A; right; auto.
  - apply Permutation_length. apply Permutation_filter. rewrite !map_app. apply Permutation_app_tail.
    rewrite <- !map_wrec_rt. apply Permutation_map. symmetry. auto.
Qed.

(** ** Point lookup *)

Variable hit : R -> bool.
Variable plf : list (wrapped R) -> res (option (wrapped R)).
Hypothesis PL : pl_sound hit plf.

Theorem flushes_point_lookup : forall bs runs st d v win, Forall2 shows bs runs -> Forall all_plain runs ->
  Forall (run_size (c_hwm C)) runs -> flush_all qlt C st_empty bs = Ok st -> shows (d, v) win -> all_plain win ->
  exists out, pl_on hit plf st d v = Ok out /\
    match out with
    | [] => filter hit (map wrec (concat runs ++ win)) = []
    | [x] => In x (map wrec (concat runs ++ win)) /\ hit x = true
    | _ => False
    end.
Proof.
  intros bs runs st d v win F P L E SH W.
  destruct (plain_contents qlt C V _ _ _ F P L E) as (Q & A & O & NE).
  destruct (shows_ok d v win SH) as (_ & _ & VR).
  assert (PQ : Permutation (sdata (query_shards st)) (sdata (age st))).
  { unfold sdata. apply concat_perm. apply Permutation_map. apply query_shards_perm. }
  assert (OK : Forall shard_ok (query_shards st)) by (rewrite (query_shards_perm st); auto).
  assert (NQ : Forall nonempty (query_shards st)) by (rewrite (query_shards_perm st); auto).
  assert (PC : Permutation (map wrec (concat runs)) (map wrec (sdata (query_shards st)))).
  { rewrite PQ. rewrite <- !map_wrec_rt. apply Permutation_map. auto. }
  unfold pl_on, pl_local_buffer. rewrite VR. cbn [bind].
  destruct (filter (fun w => hit (wrec w)) win) as [|w ws] eqn:EF.
  - destruct (pl_results_ok hit plf PL _ OK NQ) as (rs' & ER & D). rewrite ER. cbn [bind].
    eexists. split; [reflexivity|].
    destruct D as [[N ->]|(a & s & b & w & EQ & N & IW & HW & ->)].
    + apply filter_none. intros x Hx. rewrite map_app in Hx. apply in_app_or in Hx as [Hx|Hx].
      * apply (Permutation_in _ PC) in Hx. apply in_map_iff in Hx as (y & <- & Hy). apply N. auto.
      * apply in_map_iff in Hx as (y & <- & Hy). destruct (hit (wrec y)) eqn:EH; auto.
        assert (In y []) by (rewrite <- EF; apply filter_In; auto). contradiction.
    + assert (IQ : In w (sdata (query_shards st))).
      { rewrite EQ, sdata_app. apply in_or_app. right. unfold sdata. simpl. apply in_or_app. auto. }
      assert (IA : In w (sdata (age st))) by (apply (Permutation_in _ PQ); auto).
      destruct (A w IA) as [-> ->]. simpl. split; auto. rewrite map_app. apply in_or_app. left.
      apply (Permutation_in _ (Permutation_sym PC)). apply in_map. auto.
  - eexists. split; [reflexivity|].
    assert (IW : In w win /\ hit (wrec w) = true).
    { apply (filter_In (fun w => hit (wrec w))). rewrite EF. simpl. auto. }
    destruct IW as [IW HW]. simpl. destruct (W w IW) as [-> ->]. simpl. split; auto.
    rewrite map_app. apply in_or_app. right. apply in_map. auto.
Qed.

End SortedReads.

(** ** kNN over VPTree shards *)

Section VPReads.
Context {R : Type} {RO : RecOps R}.
Context {D : Type} {DO : DistOps D} {DL : DistLaws D} {MO : MetricOps R D} {ML : MetricLaws R D}.
Variable C : cfg.
Hypothesis V : valid_cfg C.

Theorem vp_flush_knn : forall pop (PM : PQMax pop) leafsz rng bs runs st d v win p k, 0 < k ->
  Forall2 shows bs runs -> Forall (Forall nodel) runs ->
  Forall (run_size (c_hwm C)) runs -> flush_all vp_shards C st_empty bs = Ok st -> shows (d, v) win ->
  Forall nodel win ->
  exists out, knn_on leafsz pop rng p k st d v = Ok out /\
    nearest (fun x y => dleb (dist p x) (dist p y)) k (map wrec (concat runs ++ win)) out.
Proof.
  intros pop PM leafsz rng bs runs st d v win p k K F M L E SH W.
  destruct (keep_flush_result vp_shards C V _ _ _ F M L E) as (P & A & O & N).
  destruct (shows_ok d v win SH) as (_ & _ & VR).
  destruct (vp_trees_ok leafsz rng (query_shards st) 0) as (ts & T & Q & AT).
  unfold knn_on. rewrite T. cbn [bind].
  destruct (knn_exact pop PM leafsz p k d v win ts K VR AT) as (out & X & NN).
  exists out. split; auto. eapply nearest_perm; [|exact NN].
  rewrite (filter_untagged win W : filter (fun w => negb (is_del w)) win = win).
  rewrite Q, !map_app, Permutation_app_comm. apply Permutation_app_tail.
  assert (PQ : Permutation (sdata (query_shards st)) (sdata (age st))).
  { unfold sdata. apply concat_perm. apply Permutation_map. apply query_shards_perm. }
  rewrite PQ. apply (Permutation_map fst) in P. rewrite !map_map in P. symmetry. exact P.
Qed.

End VPReads.

(** ** Point lookup over tries *)

Section TrieReads.
Variable qlt : qorder crec.
Context {QO : QOrder qlt}.
Variable literal : nat.
Variable C : cfg.
Hypothesis V : valid_cfg C.
Variable search : list (list N) -> list N -> option nat.
Hypothesis SE : search_exact search.

(** Specification: a record that a trie shard keeps and finds again. *)
Definition trie_plain (w : wrapped crec) : Prop :=
  is_ts w = false /\ is_del w = false /\ is_vis w = true /\ c_addr (wrec w) <> literal.

Lemma fit_adm : forall w, trie_plain w -> trie_adm literal w.
Proof. intros w (T & D & I & B). repeat split; auto. unfold blank. apply Nat.eqb_neq. auto. Qed.
Lemma fit_adms : forall ws, Forall trie_plain ws -> Forall (trie_adm literal) ws.
Proof. intros ws H. eapply Forall_impl; [|exact H]. exact fit_adm. Qed.
Lemma fit_runs : forall runs, Forall (Forall trie_plain) runs -> Forall (Forall (trie_adm literal)) runs.
Proof. intros ws H. eapply Forall_impl; [|exact H]. exact fit_adms. Qed.

Theorem trie_flush_all : forall bs runs d v win,
  Forall2 shows bs runs -> Forall (Forall trie_plain) runs -> Forall (run_size (c_hwm C)) runs ->
  shows (d, v) win -> Forall trie_plain win ->
  exists st s, flush_all (trie_shards qlt literal) C st_empty bs = Ok st /\
    static_on (trie_shards qlt literal) st d v = Ok s /\
    Permutation (map rt (concat runs ++ win)) (map rt (s_data s)) /\
    v_count v + st_reccnt st = length (concat runs ++ win).
Proof.
  intros bs runs d v win F M L SH AW.
  exact (keep_flush_all (trie_shards qlt literal) C V bs runs d v win F (fit_runs _ M) L SH (fit_adms _ AW)).
Qed.

Theorem trie_flush_lookup : forall bs runs st d v win k a, 
  Forall2 shows bs runs -> Forall (Forall (trie_adm literal)) runs -> Forall (run_size (c_hwm C)) runs ->
  flush_all (trie_shards qlt literal) C st_empty bs = Ok st -> shows (d, v) win -> Forall (trie_adm literal) win ->
  NoDup (map c_str (map wrec (concat runs ++ win))) ->
  (forall r, In r (map wrec (concat runs ++ win)) -> (c_addr r = a <-> c_str r = k)) ->
  pl_on (fun r => c_addr r =? a) (trie_lookup search k) st d v =
    Ok (filter (has_str k) (map wrec (concat runs ++ win))).
Proof.
  intros bs runs st d v win k a F M L E SH W DK AA.
  destruct (keep_flush_result (trie_shards qlt literal) C V _ _ _ F M L E) as (P & AD1 & O & N).
  destruct (shows_ok d v win SH) as (_ & _ & VR).
  assert (PS : Permutation (sdata (query_shards st)) (sdata (age st))).
  { unfold sdata. apply concat_perm, Permutation_map, query_shards_perm. }
  set (all := map wrec (concat runs ++ win)) in *.
  assert (Q : Permutation all (map wrec (sdata (query_shards st) ++ win))).
  { unfold all. rewrite !map_app. apply Permutation_app_tail. rewrite PS.
    apply (Permutation_map fst) in P. rewrite !map_map in P. exact P. }
  assert (INS : forall w, In w (sdata (query_shards st)) \/ In w win -> In (wrec w) all).
  { intros w Hw. apply (Permutation_in _ (Permutation_sym Q)). apply in_map. apply in_or_app. auto. }
  assert (ND : NoDup (map (fun w => c_str (wrec w)) (sdata (query_shards st) ++ win))).
  { apply (Permutation_NoDup (l := map c_str all)); auto.
    rewrite (Permutation_map c_str Q), map_map. apply Permutation_refl. }
  unfold pl_on, pl_local_buffer. rewrite VR. cbn [bind].
  destruct (filter (fun w => c_addr (wrec w) =? a) win) as [|w ws] eqn:EF.
  - assert (NW : ~ In k (map (fun w => c_str (wrec w)) win)).
    { intros H. apply in_map_iff in H as (w & EW & Hw).
      assert (In w []) by (rewrite <- EF; apply filter_In; split; auto; apply Nat.eqb_eq, AA; auto). contradiction. }
    destruct (trie_results literal search SE k (query_shards st)) as (rs' & ER & K).
    + rewrite (query_shards_perm st). auto.
    + rewrite (query_shards_perm st). auto.
    + rewrite PS. auto.
    + rewrite map_app in ND. apply (nodup_parts _ _ ND).
    + rewrite ER. cbn [bind]. f_equal. destruct K as [[K ->]|(w & W1 & W2 & ->)].
      * rewrite filter_none; auto. intros x Hx. unfold has_str.
        destruct (list_eq_dec N.eq_dec (c_str x) k) as [EX|]; auto. exfalso.
        apply (Permutation_in _ Q) in Hx. apply in_map_iff in Hx as (w & <- & Hw).
        apply in_app_or in Hw as [Hw|Hw]; [|apply NW; rewrite <- EX; apply (in_map (fun w => c_str (wrec w))); auto].
        apply K. rewrite <- EX. apply (in_map (fun w => c_str (wrec w))). auto.
      * rewrite (filter_one k _ (wrec w)); auto.
  - assert (IW : In w win /\ (c_addr (wrec w) =? a) = true).
    { apply (filter_In (fun w => c_addr (wrec w) =? a)). rewrite EF. simpl. auto. }
    destruct IW as [IW HW]. apply Nat.eqb_eq in HW. rewrite Forall_forall in W.
    destruct (W w IW) as (T & DD & _). simpl. rewrite T, DD. simpl.
    rewrite (filter_one k _ (wrec w)); auto. apply AA; auto.
Qed.

Theorem trie_flush_find : forall bs runs st d v win k a,
  Forall2 shows bs runs -> Forall (Forall trie_plain) runs -> Forall (run_size (c_hwm C)) runs ->
  flush_all (trie_shards qlt literal) C st_empty bs = Ok st -> shows (d, v) win -> Forall trie_plain win ->
  NoDup (map c_str (map wrec (concat runs ++ win))) ->
  (forall r, In r (map wrec (concat runs ++ win)) -> (c_addr r = a <-> c_str r = k)) ->
  pl_on (fun r => c_addr r =? a) (trie_lookup search k) st d v =
    Ok (filter (has_str k) (map wrec (concat runs ++ win))).
Proof.
  intros bs runs st d v win k a F M L E SH W.
  exact (trie_flush_lookup bs runs st d v win k a F (fit_runs _ M) L E SH (fit_adms _ W)).
Qed.

End TrieReads.

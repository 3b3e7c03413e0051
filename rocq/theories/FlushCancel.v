(** Reconstructions of any sizes for every kind of shard that only loses cancelled pairs of
    records and tombstones, if each has more records than tombstones. *)
From Coq Require Import List Arith ZArith NArith Lia Bool Permutation Sorted.
From Verif Require Import Base ListLemmas RecordModel RecordProofs BufferModel BufferProofs BufConcModel
  MergeModel MergeProofs StructModel ExtModel StructProofs StructTotal SortedProofs ExtProofs ContentProofs
  QueryModel Spec QueryProofs SerialProofs LevelProofs SizeProofs KindModel KindSpec KindProofs FlushModel FlushSpec FlushProofs
  FlushMore SysModel SysStill SysBatch SysSpec SysQuery SysReads.
Import ListNotations.

Section CancelFlush.
Context {R : Type} {RO : RecOps R} {RL : RecLaws R}.
Variable BD : builders R.
Context {ok : shard R -> Prop} {SL : ShardLaws BD ok}.
Context {adm : wrapped R -> Prop} {CL : CancelLaws BD ok adm}.
Variable C : cfg.
Hypothesis V : valid_cfg C.
Local Notation reduced := (reduced (ok := ok) (adm := adm)).

Definition cQ (ws : list (wrapped R)) : Prop := Forall adm ws /\ (0 < net (map rt ws))%Z.
Definition cA (ss : list (shard R)) : Prop := Forall adm (sdata ss).

Lemma cancel_one : forall ws s, cQ ws -> built BD ws = Ok s ->
  ok s /\ pos_shard s /\ Forall adm (s_data s) /\ exists ps, cancel_of (map rt ws) (map rt (s_data s)) ps.
Proof.
  intros ws s [A P] B. destruct (cancel_built _ _ B A) as [A' (ps & K)].
  split; [exact (proj1 (built_ok BD _ _ B))|]. split; [|split; eauto].
  unfold pos_shard. rewrite <- (net_cancel _ _ _ K). auto.
Qed.

Lemma cancel_step : forall ss ws s ss', cA ss -> Forall ok ss -> cQ ws -> built BD ws = Ok s ->
  seg_steps BD (ss ++ [s]) ss' -> reduced (ss ++ [s]) ss'.
Proof.
  intros ss ws s ss' A O Q B G. destruct (cancel_one _ _ Q B) as (K1 & _ & K3 & _).
  apply (seg_steps_reduced BD _ _ G).
  - apply Forall_app. auto.
  - rewrite sdata_app, sdata1. apply Forall_app. auto.
Qed.

Lemma fhist_reduced : forall runs ss, fhist BD runs ss -> Forall cQ runs ->
  cA ss /\ Forall ok ss /\ Forall pos_shard ss /\ exists ps, cancel_of (map rt (concat runs)) (map rt (sdata ss)) ps.
Proof.
  induction 1; intros M.
  - repeat split; try constructor. exists []. apply cancel_of_refl.
  - apply Forall_app in M as [M1 M2]. inv M2. destruct (IHfhist M1) as (A & O & P & ps & K).
    destruct (cancel_one _ _ H4 H0) as (K1 & K2 & K3 & qs & K4).
    destruct (cancel_step _ _ _ _ A O H4 H0 H1) as (B1 & B2 & B3 & us & B4).
    split; [exact B1|]. split; [exact B2|]. split; [apply B3; apply Forall_app; auto|].
    exists ((ps ++ qs) ++ us). eapply cancel_of_trans; [|exact B4].
    rewrite concat_app. cbn [concat]. rewrite app_nil_r, sdata_app, sdata1, !map_app. apply cancel_of_app; auto.
Qed.

Lemma cancel_flush_inv : forall bs runs, Forall2 shows bs runs -> Forall cQ runs ->
  Forall (run_size (c_hwm C)) runs ->
  exists st, flush_all BD C st_empty bs = Ok st /\ sinv C ok st /\ fhist BD runs (age st).
Proof.
  intros bs runs F M L.
  destruct (flush_all_inv BD C V pos_shard pos_nonempty cQ cA) with (bs := bs) (runs := runs)
    (st := @st_empty R) (runs0 := @nil (list (wrapped R))) (k := 0) (p := 0) as (st & E1 & E2 & E3 & _); auto.
  - intros ss ws s ss' A O P W B G. destruct (cancel_one _ _ W B) as (K1 & K2 & _).
    destruct (cancel_step _ _ _ _ A O W B G) as (B1 & B2 & B3 & _). split; auto. split; auto.
    apply B3. apply Forall_app. auto.
  - intros ws s W B. apply (cancel_one _ _ W B).
  - eapply Forall_impl; [|exact L]. intros a [_ H]. auto.
  - apply empty_sinv.
  - constructor.
  - constructor.
  - constructor.
  - apply ginv_empty.
  - exists st. auto.
Qed.

Lemma combined_reduced : forall ls, Forall ok (concat (map lv_shards ls)) ->
  Forall adm (sdata (concat (map lv_shards ls))) -> Forall pos_shard (concat (map lv_shards ls)) ->
  exists ss, combined_shards BD ls = Ok ss /\ reduced (concat (map lv_shards ls)) ss.
Proof.
  induction ls; simpl; intros O A N; [exists []; split; auto; apply reduced_refl; auto|].
  apply Forall_app in O as [O1 O2]. apply Forall_app in N as [N1 N2].
  rewrite sdata_app in A. apply Forall_app in A as [A1 A2].
  destruct (IHls O2 A2 N2) as (ss & E & K).
  assert (N1' : Forall nonempty (lv_shards a)) by (eapply Forall_impl; [|exact N1]; apply pos_nonempty).
  destruct (Nat.ltb_spec 0 (lv_reccnt a)).
  - unfold lv_combined. destruct (Nat.eqb_spec (lv_count a) 0).
    { unfold lv_count in e. unfold lv_reccnt in H. destruct (lv_shards a); [simpl in H; lia|discriminate]. }
    destruct (shards_total (B := BD) (lv_shards a)) as [s Es]; auto.
    rewrite Es. simpl. rewrite E. simpl. eexists. split; [reflexivity|].
    change (s :: ss) with ([s] ++ ss). apply reduced_app; auto. apply (merge_reduced BD); auto.
    unfold lv_count in n. destruct (lv_shards a); [simpl in n; congruence|discriminate].
  - exists ss. split; auto. destruct (lv_shards a) as [|s l] eqn:EL; auto.
    exfalso. inv O1. inv N1'. apply ok_count in H2. unfold nonempty in H4.
    unfold lv_reccnt, sum_list in H. rewrite EL in H. simpl in H.
    destruct (s_data s); [congruence|simpl in *; lia].
Qed.

(** All succeed, and what they leave. *)
Theorem cancel_flush : forall bs runs, Forall2 shows bs runs -> Forall cQ runs ->
  Forall (run_size (c_hwm C)) runs ->
  exists st, flush_all BD C st_empty bs = Ok st /\ Forall ok (age st) /\
    (forall r, n_plain r (st_records st) + n_tomb r (concat runs) = n_tomb r (st_records st) + n_plain r (concat runs) /\
               n_plain r (st_records st) <= n_plain r (concat runs)) /\
    forall d v win, shows (d, v) win -> (win = [] \/ cQ win) ->
      exists s, static_on BD st d v = Ok s /\ ok s /\ Forall adm (s_data s) /\
        forall r, let ws := concat runs ++ win in
          n_plain r (s_data s) + n_tomb r ws = n_tomb r (s_data s) + n_plain r ws /\
          n_plain r (s_data s) <= n_plain r ws.
Proof.
  intros bs runs F M L. destruct (cancel_flush_inv bs runs F M L) as (st & E & S & H).
  destruct (fhist_reduced _ _ H M) as (A & O & P & ps & K).
  exists st. split; auto. split; auto. split.
  - intros r. destruct (cancel_balance _ _ _ K r) as (k & K1 & K2).
    rewrite <- !n_plain_rt, <- !n_tomb_rt in *.
    assert (X : n_plain r (st_records st) = n_plain r (sdata (age st)) /\ n_tomb r (st_records st) = n_tomb r (sdata (age st))).
    { split; apply countb_perm; apply st_records_perm. }
    destruct X as [-> ->]. lia.
  - intros d v win SH W. destruct (shows_ok d v win SH) as (VO & VC & VR).
    unfold static_on. rewrite VC. rewrite (view_built BD _ _ _ VO VR).
    destruct (combined_reduced (rev (st_levels st))) as (ss & EC & C1 & C2 & C3 & qs & C4); auto.
    specialize (C3 P). rewrite EC. cbn [bind].
    assert (B : exists bl, (if 0 <? length win then do s <- built BD win; Ok [s] else Ok []) = Ok bl /\
      Forall pos_shard bl /\ Forall ok bl /\ Forall adm (sdata bl) /\
      exists us, cancel_of (map rt win) (map rt (sdata bl)) us).
    { destruct win as [|w win].
      - exists []. repeat split; auto; try constructor. exists []. apply cancel_of_refl.
      - destruct W as [W|W]; [discriminate|].
        cbn [length]. rewrite (proj2 (Nat.ltb_lt 0 (Datatypes.S (length win)))) by lia.
        destruct (built_total BD (w :: win)) as [b Eb]. rewrite Eb. cbn [bind]. exists [b].
        destruct (cancel_one _ _ W Eb) as (B1 & B2 & B3 & us & B4). rewrite sdata1. repeat split; auto; eauto. }
    destruct B as (bl & -> & B1 & B2 & B3 & us & B4). cbn [bind].
    assert (OB : Forall ok (ss ++ bl)) by (apply Forall_app; auto).
    assert (AB : Forall adm (sdata (ss ++ bl))) by (rewrite sdata_app; apply Forall_app; auto).
    destruct (shards_total (B := BD) (ss ++ bl)) as [s Es]; auto.
    { apply Forall_app. split; [eapply Forall_impl; [|exact C3]|eapply Forall_impl; [|exact B1]]; apply pos_nonempty. }
    exists s. split; auto. split; [eapply shards_ok; eauto|].
    destruct (cancel_shards _ _ Es OB AB) as [A5 (vs & K5)]. split; auto.
    intros r. cbv zeta. set (ws := concat runs ++ win).
    assert (KK : cancel_of (map rt ws) (map rt (s_data s)) ((ps ++ us) ++ (qs ++ []) ++ vs)).
    { unfold ws. rewrite map_app. eapply cancel_of_trans; [apply cancel_of_app; [exact K|exact B4]|].
      eapply cancel_of_trans; [|exact K5]. rewrite sdata_app, map_app. apply cancel_of_app; [exact C4|apply cancel_of_refl]. }
    destruct (cancel_balance _ _ _ KK r) as (k & X1 & X2).
    rewrite <- !n_plain_rt, <- !n_tomb_rt in *. lia.
Qed.
End CancelFlush.

(** ** Tries *)

Section Tries.
Variable qlt : qorder crec.
Context {QO : QOrder qlt}.
Variable literal : nat.
Local Notation TS := (trie_shards qlt literal).
Variable C : cfg.
Hypothesis V : valid_cfg C.

(** Specification: a record or tombstone that a trie shard keeps. *)
Definition trie_shown (w : wrapped crec) : Prop := is_vis w = true /\ c_addr (wrec w) <> literal.

Lemma trie_cQ : forall ws, mostly_plain ws -> Forall trie_shown ws -> cQ (adm := trie_adm_ts literal) ws.
Proof.
  intros ws M S. split; [|apply (mostly_net ws M)]. destruct M as [_ D].
  rewrite Forall_forall in *. intros w W. destruct (S w W) as [S1 S2]. split; auto. split; auto.
  unfold blank. apply Nat.eqb_neq. auto.
Qed.
Lemma trie_cQs : forall runs, Forall mostly_plain runs -> Forall (Forall trie_shown) runs ->
  Forall (cQ (adm := trie_adm_ts literal)) runs.
Proof. intros runs M S. rewrite Forall_forall in *. intros ws W. apply trie_cQ; auto. Qed.

Theorem trie_flush_erases : forall bs runs, Forall2 shows bs runs -> Forall mostly_plain runs ->
  Forall (Forall trie_shown) runs -> Forall (run_size (c_hwm C)) runs ->
  exists st, flush_all TS C st_empty bs = Ok st /\
    (forall r, n_plain r (st_records st) + n_tomb r (concat runs) = n_tomb r (st_records st) + n_plain r (concat runs) /\
               n_plain r (st_records st) <= n_plain r (concat runs)) /\
    forall d v win, shows (d, v) win -> (win = [] \/ mostly_plain win) -> Forall trie_shown win ->
      exists s, static_on TS st d v = Ok s /\ sorted (s_data s) /\
        forall r, let ws := concat runs ++ win in
          n_plain r (s_data s) + n_tomb r ws = n_tomb r (s_data s) + n_plain r ws /\
          n_plain r (s_data s) <= n_plain r ws.
Proof.
  intros bs runs F M S L.
  destruct (cancel_flush TS C V bs runs F (trie_cQs _ M S) L) as (st & E & _ & B & W).
  exists st. split; auto. split; auto. intros d v win SH WM WS.
  destruct (W d v win SH) as (s & W1 & W2 & _ & W4).
  { destruct WM; auto. right. apply trie_cQ; auto. }
  exists s. split; auto. split; auto. apply W2.
Qed.

Variable cap : nat.
Hypothesis CAP : 2 * c_hwm C <= cap.

Lemma job_shown : forall n (s : sys crec) seen runs buf,
  sreach (c_lwm C) (c_hwm C) cap still (sys_init (c_hwm C) cap n) s ->
  (forall r, In r (a_recs (cs_done (y_buf s))) -> c_addr r <> literal) -> In (AList seen runs buf) (y_ans s) ->
  Forall (run_size (c_hwm C)) runs /\ Forall (Forall trie_shown) runs /\ Forall trie_shown buf /\
  exists l, incl seen l /\ incl l (cs_done (y_buf s)) /\ NoDup (map fst l) /\
    Permutation (concat runs ++ buf) (map (placed cap) l).
Proof.
  intros n s seen runs buf SR NB A.
  destruct (job_read C V cap CAP n s seen runs buf SR A) as (Z & l & L1 & L2 & L3 & P).
  assert (IR : incl (a_recs l) (a_recs (cs_done (y_buf s)))) by (apply incl_map; exact L2).
  destruct (runs_forall cap trie_shown l runs buf P) as [PR PB].
  { intros [y [r ts]] X. unfold placed. cbn [fst snd]. split; [apply append_rec_vis|].
    apply NB. apply IR. apply (in_map (fun x => fst (snd x)) l _ X). }
  eauto 10.
Qed.

Theorem concurrent_trie_bounds : forall n (s : sys crec) seen runs buf bs,
  sreach (c_lwm C) (c_hwm C) cap still (sys_init (c_hwm C) cap n) s ->
  (forall r, In r (a_recs (cs_done (y_buf s))) -> c_addr r <> literal) ->
  In (AList seen runs buf) (y_ans s) -> Forall mostly_plain runs -> (buf = [] \/ mostly_plain buf) ->
  Forall2 shows bs runs ->
  exists st l, flush_all TS C st_empty bs = Ok st /\
    incl seen l /\ incl l (cs_done (y_buf s)) /\ NoDup (map fst l) /\
    forall d v, shows (d, v) buf ->
      exists sh, static_on TS st d v = Ok sh /\ sorted (s_data sh) /\
        forall r, n_plain r (s_data sh) + a_del r l = n_tomb r (s_data sh) + a_ins r l /\
                  n_plain r (s_data sh) <= a_ins r l.
Proof.
  intros n s seen runs buf bs SR NB A MP MB F.
  destruct (job_shown n s seen runs buf SR NB A) as (Z & PR & PB & l & L1 & L2 & L3 & P).
  destruct (trie_flush_erases bs runs F MP PR Z) as (st & E & _ & W).
  exists st, l. split; [exact E|]. split; [exact L1|]. split; [exact L2|]. split; [exact L3|].
  intros d v SH. destruct (W d v buf SH MB PB) as (sh & S1 & S2 & S3).
  exists sh. split; [exact S1|]. split; [exact S2|]. intros r. specialize (S3 r). cbv zeta in S3.
  destruct (placed_counts cap r l) as [P1 P2]. rewrite <- P1, <- P2.
  unfold n_plain, n_tomb in *. rewrite !(countb_perm _ _ _ P) in S3. exact S3.
Qed.
End Tries.

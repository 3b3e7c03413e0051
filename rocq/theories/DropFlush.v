(** The same for reconstructions of any sizes, and for concurrent executions. *)
From Coq Require Import List Arith ZArith NArith Lia Bool Permutation Sorted.
From Verif Require Import Base ListLemmas RecordModel RecordProofs BufferModel BufferProofs BufConcModel
  MergeModel MergeProofs StructModel ExtModel StructProofs StructTotal SortedProofs ExtProofs ContentProofs
  QueryModel Spec QueryProofs SerialProofs LevelProofs SizeProofs KindModel KindSpec KindProofs FlushModel FlushSpec FlushProofs
  FlushMore SysModel SysStill SysBatch SysSpec SysQuery SysReads LearnHist MemModel DropModel DropProofs FlushCancel.
Import ListNotations.

Section Drop.
Variable qlt : qorder crec.
Context {QO : QOrder qlt}.
Variable literal : nat.
Local Notation TS := (trie_shards qlt literal).
Local Notation FS := (fst_shards qlt literal).
Variable C : cfg.
Hypothesis V : valid_cfg C.

Lemma flush_all_app : forall B (bs bs' : list (batch crec)) st,
  flush_all B C st (bs ++ bs') = do st' <- flush_all B C st bs; flush_all B C st' bs'.
Proof.
  intros B. induction bs as [|[d v] bs IH]; intros bs' st; simpl; auto.
  destruct (reconstruct_struct B C (st_copy st) d v); cbn [bind]; auto.
Qed.

Theorem fst_flushes : forall bs runs, Forall2 shows bs runs -> Forall (Forall (trie_adm literal)) runs ->
  Forall (run_size (c_hwm C)) runs ->
  exists st, flush_all TS C st_empty bs = Ok st /\ flush_all FS C st_empty bs = Ok st /\
    forall l s, In l (st_levels st) -> In s (lv_shards l) -> fst_destroy s = Ok tt.
Proof.
  pose proof V as (LW & WM & SF & _).
  induction bs as [|[d v] bs IH] using rev_ind; intros runs F A Z.
  - exists st_empty. split; [reflexivity|]. split; [reflexivity|]. intros l s [].
  - destruct (keep_flush_inv TS C V _ _ F A Z) as (st & E & S & _ & H & Q).
    destruct (fhist_kept TS _ _ H Q) as (_ & _ & O & N).
    exists st. split; auto. split.
    + apply Forall2_app_inv_l in F as (r1 & r2 & F1 & F2 & ->). inv F2. inv H4.
      apply Forall_app in A as [A1 A2]. apply Forall_app in Z as [Z1 Z2]. inv A2. inv Z2.
      destruct (IH r1 F1 A1 Z1) as (st1 & E1 & E2 & _).
      destruct (keep_flush_inv TS C V _ _ F1 A1 Z1) as (st1' & E1' & S1 & _ & H1 & Q1).
      rewrite E1 in E1'. inv E1'. destruct (fhist_kept TS _ _ H1 Q1) as (_ & B1 & B2 & B3).
      rewrite flush_all_app in *. rewrite E1 in E. rewrite E2. cbn [bind flush_all] in *.
      mon E. inv E. destruct (shows_ok _ _ _ H2) as (VO & VC & VR).
      assert (le (reconstruct_struct TS C (st_copy st1') d v) (reconstruct_struct FS C (st_copy st1') d v)) as L.
      { rewrite (st_copy_id C) by apply S1.
        eapply (a_recon TS FS C (ok2 literal) (wadm2 literal)); eauto.
        - apply view2. auto.
        - apply merge2. auto.
        - intros d' v' G x Hx. destruct (view2 _ _ _ _ _ G Hx) as (X1 & _ & X2). apply view_nonempty; auto.
        - intros ss NE G x Hx. destruct (merge2 _ _ _ _ NE G Hx) as (X1 & _ & X2). apply merge_nonempty; auto.
        - apply S1.
        - apply ok2_parts. auto.
        - split; auto. split; [destruct H5; lia|]. exists y. split; auto. split; auto. intros ->. destruct H5; simpl in *; lia. }
      rewrite (L _ E0). auto.
    + intros l s Hl Hs. apply In_nth_error in Hl as [i Hi]. assert (I : In s (age st)) by (eapply lv_in_age; eauto).
      rewrite Forall_forall in O, N. apply destroy_ok; auto.
Qed.

(** With erases, if each reconstruction has more records than tombstones. *)
Theorem fst_flush_erases : forall bs runs, Forall2 shows bs runs -> Forall mostly_plain runs ->
  Forall (Forall (trie_shown literal)) runs -> Forall (run_size (c_hwm C)) runs ->
  exists st, flush_all TS C st_empty bs = Ok st /\ flush_all FS C st_empty bs = Ok st /\
    forall l s, In l (st_levels st) -> In s (lv_shards l) -> fst_destroy s = Ok tt.
Proof.
  pose proof V as (LW & WM & SF & _).
  intros bs runs F M S Z. pose proof (trie_cQs literal _ M S) as A. clear M S. revert runs F A Z.
  induction bs as [|[d v] bs IH] using rev_ind; intros runs F A Z.
  - exists st_empty. split; [reflexivity|]. split; [reflexivity|]. intros l s [].
  - destruct (cancel_flush_inv TS C V _ _ F A Z) as (st & E & S & H).
    destruct (fhist_reduced TS _ _ H A) as (_ & O & N & _).
    exists st. split; auto. split.
    + apply Forall2_app_inv_l in F as (r1 & r2 & F1 & F2 & ->). inv F2. inv H4.
      apply Forall_app in A as [A1 A2]. apply Forall_app in Z as [Z1 Z2]. inv A2. inv Z2.
      destruct (IH r1 F1 A1 Z1) as (st1 & E1 & E2 & _).
      destruct (cancel_flush_inv TS C V _ _ F1 A1 Z1) as (st1' & E1' & S1 & H1).
      rewrite E1 in E1'. inv E1'. destruct (fhist_reduced TS _ _ H1 A1) as (B1 & B2 & B3 & _).
      rewrite flush_all_app in *. rewrite E1 in E. rewrite E2. cbn [bind flush_all] in *.
      mon E. inv E. destruct (shows_ok _ _ _ H2) as (VO & VC & VR).
      assert (le (reconstruct_struct TS C (st_copy st1') d v) (reconstruct_struct FS C (st_copy st1') d v)) as L.
      { rewrite (st_copy_id C) by apply S1.
        eapply (a_recon TS FS C (ok1 literal) (wadm1 literal)); eauto.
        - apply view1. auto.
        - apply merge1. auto.
        - intros d' v' G x Hx. destruct (view1 _ _ _ _ _ G Hx) as (X1 & _ & X2). apply view_nonempty; auto. apply pos_nonempty; auto.
        - intros ss NE G x Hx. destruct (merge1 _ _ _ _ NE G Hx) as (X1 & _ & X2). apply merge_nonempty; auto. apply pos_nonempty; auto.
        - apply S1.
        - apply ok1_parts. auto.
        - split; auto. split; [destruct H5; lia|]. exists y. split; auto. }
      rewrite (L _ E0). auto.
    + intros l s Hl Hs. apply In_nth_error in Hl as [i Hi]. assert (I : In s (age st)) by (eapply lv_in_age; eauto).
      rewrite Forall_forall in O, N. apply destroy_ok; auto. apply pos_nonempty. auto.
Qed.

(** ** Concurrent executions *)

Variable cap : nat.
Hypothesis CAP : 2 * c_hwm C <= cap.

Theorem fst_concurrent : forall n (s : sys crec) seen runs buf bs,
  sreach (c_lwm C) (c_hwm C) cap still (sys_init (c_hwm C) cap n) s ->
  no_erase (cs_done (y_buf s)) -> (forall r, In r (a_recs (cs_done (y_buf s))) -> c_addr r <> literal) ->
  In (AList seen runs buf) (y_ans s) -> Forall2 shows bs runs ->
  exists st, flush_all TS C st_empty bs = Ok st /\ flush_all FS C st_empty bs = Ok st /\
    forall l s, In l (st_levels st) -> In s (lv_shards l) -> fst_destroy s = Ok tt.
Proof.
  intros n s seen runs buf bs SR NE NB A F.
  destruct (job_read C V cap CAP n s seen runs buf SR A) as (Z & l & L1 & L2 & L3 & P).
  assert (IR : incl (a_recs l) (a_recs (cs_done (y_buf s)))) by (apply incl_map; exact L2).
  destruct (runs_forall cap (trie_adm literal) l runs buf P) as [PR PB].
  { intros [y [r ts]] X. assert (ts = false) by (eapply NE; eauto). subst ts. unfold placed. cbn [fst snd].
    split; [apply append_rec_ts|]. split; [apply append_rec_del|]. split; [apply append_rec_vis|].
    unfold blank. apply Nat.eqb_neq. apply NB. apply IR. apply (in_map (fun x => fst (snd x)) l _ X). }
  apply (fst_flushes bs runs); auto.
Qed.

Theorem fst_concurrent_erases : forall n (s : sys crec) seen runs buf bs,
  sreach (c_lwm C) (c_hwm C) cap still (sys_init (c_hwm C) cap n) s ->
  (forall r, In r (a_recs (cs_done (y_buf s))) -> c_addr r <> literal) ->
  In (AList seen runs buf) (y_ans s) -> Forall mostly_plain runs -> Forall2 shows bs runs ->
  exists st, flush_all TS C st_empty bs = Ok st /\ flush_all FS C st_empty bs = Ok st /\
    forall l s, In l (st_levels st) -> In s (lv_shards l) -> fst_destroy s = Ok tt.
Proof.
  intros n s seen runs buf bs SR NB A M F.
  destruct (job_shown literal C V cap CAP n s seen runs buf SR NB A) as (Z & PR & _).
  apply (fst_flush_erases bs runs); auto.
Qed.
End Drop.

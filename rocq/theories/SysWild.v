(** Reads of any execution. *)
From Coq Require Import List Arith ZArith Lia Bool Permutation.
From Verif Require Import Base ListLemmas RecordModel RecordProofs BufferModel MergeModel MergeProofs StructModel ExtModel QueryModel
  ContentProofs Spec QueryProofs SerialProofs FlushModel FlushSpec FlushProofs FlushAny
  BufConcModel SysModel SysBatch SysSpec SysTrace SysQuery SysOrigin VPModel VPSpec VPProofs KNNProofs KNNAny KindModel KindSpec KindProofs FlushMore.
Import ListNotations.

Section SW.
Context {R : Type} {RO : RecOps R} {RL : RecLaws R} {KO : KeyOps R} {KL : KeyLaws R}.
Variable qlt : qorder R.
Context {QO : QOrder qlt}.
Variable C : cfg.
Hypothesis V : valid_cfg C.
Variable lbf : list (wrapped R) -> Z -> res nat.
Hypothesis LB : lb_sound lbf.
Variable cap : nat.
Hypothesis CAP : 2 * c_hwm C <= cap.
Notation sys_init := (sys_init (c_hwm C) cap).
Notation ssched := (ssched (c_lwm C) (c_hwm C) cap).
Notation sreach := (sreach (c_lwm C) (c_hwm C) cap).

(** What is read is what is returned. *)
Lemma wild_query : forall s seen runs buf bs, oinv cap (fun _ ts => ts = false) s -> In (AList seen runs buf) (y_ans s) ->
  Forall (run_size (c_hwm C)) runs -> Forall2 shows bs runs ->
  exists st, flush_all qlt C st_empty bs = Ok st /\
    forall d v lo hi, shows (d, v) buf ->
      exists out, rq_on qlt lbf lo hi st d v = Ok out /\ Permutation out (filter (key_in lo hi) (map wrec (concat runs ++ buf))).
Proof.
  intros s seen runs buf bs O A Z F.
  assert (AP : all_plain (concat runs ++ buf)).
  { intros w W. destruct (answer_from _ _ _ _ _ _ _ O A W) as [[X Y]| ->]; auto. }
  destruct (all_plain_parts _ _ AP) as [PR PB].
  destruct (flushes_succeed qlt C V bs runs F (plain_runs C runs PR Z) Z) as (st & E).
  exists st. split; [exact E|]. intros d v lo hi W.
  exact (flushes_range_query qlt C V lbf LB bs runs st d v buf lo hi F PR Z E W PB).
Qed.

(** C69 *)
Theorem wild_range_query : forall l n s seen runs buf bs, ssched (sys_init n) l = Some s ->
  (forall t r ts, In (UCall t (UInsert r ts)) l -> ts = false) ->
  In (AList seen runs buf) (y_ans s) -> Forall2 shows bs runs ->
  exists st, flush_all qlt C st_empty bs = Ok st /\
    forall d v lo hi, shows (d, v) buf ->
      exists out, rq_on qlt lbf lo hi st d v = Ok out /\ length out <= cb_tail (cs_buf (y_buf s)) /\
        forall r, In r out -> key_in lo hi r = true /\ ((exists t, In (UCall t (UInsert r false)) l) \/ r = rzero).
Proof.
  intros l n s seen runs buf bs E NE A F.
  assert (SR : sreach (fun _ _ => True) (sys_init n) s) by (eapply sched_reach; eauto).
  assert (SO : sreach (only (fun _ ts => ts = false)) (sys_init n) s).
  { eapply sched_reach; eauto. intros s0 x I. destruct x as [t []| | |]; cbn; eauto. }
  pose proof (answer_runs _ _ _ _ _ _ _ _ _ SR A) as Z.
  destruct (wild_query _ _ _ _ _ (origin_reach _ _ _ _ _ _ SO) A Z F) as (st & E1 & Q). exists st. split; auto.
  intros d v lo hi W. destruct (Q d v lo hi W) as (out & O1 & O2). exists out. split; auto. split.
  - rewrite (Permutation_length O2). pose proof (sized _ _ _ _ _ _ _ _ _ (hwm_pos C V cap CAP) CAP SR A) as LE.
    etransitivity; [apply filter_length_le|]. rewrite map_length. lia.
  - intros r I. apply (Permutation_in _ O2) in I. apply filter_In in I as [I K]. split; auto.
    apply in_map_iff in I as (w & <- & I). destruct (answers_origin _ _ _ _ _ _ _ _ _ _ E A I) as [[t T]| ->]; auto.
    left. exists t. rewrite <- (NE _ _ _ T). auto.
Qed.

(** C71 *)
Theorem range_query_on : forall (f : nat -> bool) n s seen runs buf bs,
  sreach (fun s x => calm_on cap (fun i => f i = true) s x /\ plain_act s x) (sys_init n) s ->
  In (AList seen runs buf) (y_ans s) -> Forall2 shows bs runs ->
  exists st, flush_all qlt C st_empty bs = Ok st /\
    forall d v lo hi, shows (d, v) buf ->
      exists out extra, rq_on qlt lbf lo hi st d v = Ok out /\
        Permutation out (filter (key_in lo hi) (a_recs (filter (fun x => f (fst x mod cap)) seen)) ++ extra).
Proof.
  intros f n s seen runs buf bs SR A F.
  assert (SO : sreach (only (fun _ ts => ts = false)) (sys_init n) s).
  { clear A F. induction SR; econstructor; eauto. apply H. }
  assert (SC : sreach (calm_on cap (fun i => f i = true)) (sys_init n) s).
  { clear A F SO. induction SR; econstructor; eauto. apply H. }
  pose proof (answer_runs _ _ _ _ _ _ _ _ _ SR A) as Z.
  destruct (wild_query _ _ _ _ _ (origin_reach _ _ _ _ _ _ SO) A Z F) as (st & E1 & Q). exists st. split; auto.
  intros d v lo hi W. destruct (Q d v lo hi W) as (out & O1 & O2).
  destruct (snapshot_on _ _ _ f _ _ _ _ _ (hwm_pos C V cap CAP) CAP SC A) as (ex & P).
  exists out, (filter (key_in lo hi) (map wrec ex)). split; auto. rewrite O2, <- filter_app. apply Permutation_filter.
  rewrite P, map_app. apply Permutation_app_tail. rewrite map_map. reflexivity.
Qed.

(** ** With erases *)

(** C69 *)
Lemma part_origin : forall l n s seen runs buf (a : list (wrapped R)) w, ssched (sys_init n) l = Some s ->
  In (AList seen runs buf) (y_ans s) -> part_of a (concat runs ++ buf) -> In w a ->
  (exists t, In (UCall t (UInsert (wrec w) (is_ts w))) l) \/ (wrec w = rzero /\ is_ts w = false).
Proof.
  intros l n s seen runs buf a w E A P I. destruct (part_in _ _ _ P I) as (w' & I' & <- & <-).
  destruct (answers_origin _ _ _ _ _ _ _ _ _ _ E A I') as [X| ->]; auto.
Qed.

Lemma plain_origin : forall l n s seen runs buf r, ssched (sys_init n) l = Some s ->
  In (AList seen runs buf) (y_ans s) -> In r (map wrec (filter (fun w => negb (is_ts w)) (concat runs ++ buf))) ->
  (exists t, In (UCall t (UInsert r false)) l) \/ r = rzero.
Proof.
  intros l n s seen runs buf r E A I. apply in_map_iff in I as (w & <- & I). apply filter_In in I as [I T].
  apply negb_true_iff in T. destruct (answers_origin _ _ _ _ _ _ _ _ _ _ E A I) as [X| ->]; auto. rewrite T in X. auto.
Qed.

Lemma part_size : forall l n s seen runs buf (a : list (wrapped R)), ssched (sys_init n) l = Some s ->
  In (AList seen runs buf) (y_ans s) -> part_of a (concat runs ++ buf) -> length a <= cb_tail (cs_buf (y_buf s)).
Proof.
  intros l n s seen runs buf a E A P. apply part_length in P.
  assert (SR : sreach (fun _ _ => True) (sys_init n) s) by (eapply sched_reach; eauto).
  pose proof (sized _ _ _ _ _ _ _ _ _ (hwm_pos C V cap CAP) CAP SR A). lia.
Qed.

Theorem wild_static : forall l n s seen runs buf bs st d v sh, ssched (sys_init n) l = Some s ->
  In (AList seen runs buf) (y_ans s) -> Forall2 shows bs runs -> flush_all qlt C st_empty bs = Ok st ->
  shows (d, v) buf -> static_on qlt st d v = Ok sh ->
  length (s_data sh) <= cb_tail (cs_buf (y_buf s)) /\ sorted (s_data sh) /\
  forall w, In w (s_data sh) ->
    (exists t, In (UCall t (UInsert (wrec w) (is_ts w))) l) \/ (wrec w = rzero /\ is_ts w = false).
Proof.
  intros l n s seen runs buf bs st d v sh E A F H W Q.
  destruct (flushes_static_any qlt C V _ _ _ _ _ _ _ F H W Q) as [P SO].
  split; [eapply part_size; eauto|]. split; auto. intros w I. eapply part_origin; eauto.
Qed.

Theorem wild_range : forall l n s seen runs buf bs st d v lo hi out, ssched (sys_init n) l = Some s ->
  In (AList seen runs buf) (y_ans s) -> Forall2 shows bs runs -> flush_all qlt C st_empty bs = Ok st ->
  shows (d, v) buf -> rq_on qlt lbf lo hi st d v = Ok out ->
  length out <= cb_tail (cs_buf (y_buf s)) /\
  forall r, In r out -> key_in lo hi r = true /\ ((exists t, In (UCall t (UInsert r false)) l) \/ r = rzero).
Proof.
  intros l n s seen runs buf bs st d v lo hi out E A F H W Q.
  destruct (flushes_range_any qlt C V lbf LB _ _ _ _ _ _ _ _ _ F H W Q) as (rest & P). split.
  - pose proof (part_size _ _ _ _ _ _ _ E A (part_refl _)) as LE. pose proof (Permutation_length P) as PL.
    rewrite app_length in PL. pose proof (filter_length_le (key_in lo hi) (map wrec (filter (fun w => negb (is_ts w)) (concat runs ++ buf)))) as L1.
    rewrite map_length in L1. pose proof (filter_length_le (fun w => negb (is_ts w)) (concat runs ++ buf)). lia.
  - intros r I. assert (J : In r (out ++ rest)) by (apply in_or_app; auto).
    apply (Permutation_in _ (Permutation_sym P)) in J. apply filter_In in J as [J K]. split; auto.
    eapply plain_origin; eauto.
Qed.

Theorem wild_count : forall l n s seen runs buf bs st d v, ssched (sys_init n) l = Some s ->
  In (AList seen runs buf) (y_ans s) -> Forall2 shows bs runs -> flush_all qlt C st_empty bs = Ok st ->
  shows (d, v) buf ->
  v_count v + st_reccnt st <= cb_tail (cs_buf (y_buf s)) /\
  forall lo hi m, rc_on lbf lo hi st d v = Ok m -> m <= cb_tail (cs_buf (y_buf s)).
Proof.
  intros l n s seen runs buf bs st d v E A F H W.
  pose proof (part_size _ _ _ _ _ _ _ E A (part_refl _)) as LE. split.
  - pose proof (flushes_count_any qlt C V _ _ _ _ _ _ F H W). lia.
  - intros lo hi m Q. pose proof (flushes_range_count_any qlt C V lbf LB _ _ _ _ _ _ _ _ _ F H W Q) as L0.
    pose proof (filter_length_le (key_in lo hi) (map wrec (filter (fun w => negb (is_ts w)) (concat runs ++ buf)))) as L1.
    rewrite map_length in L1. pose proof (filter_length_le (fun w => negb (is_ts w)) (concat runs ++ buf)). lia.
Qed.

Theorem wild_lookup : forall hit plf, pl_sound hit plf -> (forall w, plf [] <> Ok (Some w)) ->
  forall l n s seen runs buf bs st d v out, ssched (sys_init n) l = Some s ->
  In (AList seen runs buf) (y_ans s) -> Forall2 shows bs runs -> flush_all qlt C st_empty bs = Ok st ->
  shows (d, v) buf -> pl_on hit plf st d v = Ok out ->
  length out <= 1 /\
  forall r, In r out -> hit r = true /\ ((exists t, In (UCall t (UInsert r false)) l) \/ r = rzero).
Proof.
  intros hit plf PL PE l n s seen runs buf bs st d v out E A F H W Q.
  destruct (flushes_lookup_any qlt C V hit plf PL PE _ _ _ _ _ _ _ F H W Q) as [L P]. split; auto.
  intros r I. destruct (P r I) as [P1 P2]. split; auto. eapply plain_origin; eauto.
Qed.

End SW.

(** ** kNN over VPTree shards *)

Section SWK.
Context {R : Type} {RO : RecOps R}.
Context {D : Type} {DO : DistOps D} {DL : DistLaws D} {MO : MetricOps R D} {ML : MetricLaws R D}.
Variable C : cfg.
Hypothesis V : valid_cfg C.
Variable cap : nat.
Hypothesis CAP : 2 * c_hwm C <= cap.

(** C69 *)
Theorem wild_knn : forall l n (s : sys R) seen runs buf bs,
  ssched (c_lwm C) (c_hwm C) cap (sys_init (c_hwm C) cap n) l = Some s ->
  In (AList seen runs buf) (y_ans s) -> Forall2 shows bs runs ->
  exists st, flush_all vp_shards C st_empty bs = Ok st /\
    forall pop (PM : PQMax pop) leafsz rng d v p k, 0 < k -> shows (d, v) buf ->
      exists out, knn_on leafsz pop rng p k st d v = Ok out /\
        nearest (fun x y => dleb (dist p x) (dist p y)) k (map wrec (concat runs ++ buf)) out /\
        forall r, In r out -> (exists t ts, In (UCall t (UInsert r ts)) l) \/ r = rzero.
Proof.
  intros l n s seen runs buf bs E A F.
  assert (SR : sreach (c_lwm C) (c_hwm C) cap (fun _ _ => True) (sys_init (c_hwm C) cap n) s) by (eapply sched_reach; eauto).
  pose proof (answer_runs _ _ _ _ _ _ _ _ _ SR A) as Z.
  assert (ND : forall w, In w (concat runs ++ buf) -> nodel w).
  { intros w W. destruct (answer_from _ _ _ _ _ _ _ (sched_origin _ _ _ _ _ _ E) A W) as [[_ Y]| ->]; auto. reflexivity. }
  assert (PR : Forall (Forall nodel) runs).
  { apply Forall_forall. intros ws W. apply Forall_forall. intros w I. apply ND. apply in_or_app. left.
    apply in_concat. eauto. }
  assert (PB : Forall nodel buf) by (apply Forall_forall; intros w I; apply ND; apply in_or_app; auto).
  destruct (keep_flush_facts vp_shards C V bs runs F PR Z) as (st & H & _). exists st. split; [exact H|].
  intros pop PM leafsz rng d v p k K W.
  destruct (vp_flush_knn C V pop PM leafsz rng bs runs st d v buf p k K F PR Z H W PB) as (out & O1 & O2).
  exists out. split; [exact O1|]. split; [exact O2|]. intros r I.
  assert (J : In r (map wrec (concat runs ++ buf))).
  { destruct O2 as (rest & P & _). apply (Permutation_in _ (Permutation_sym P)). apply in_or_app. auto. }
  apply in_map_iff in J as (w & <- & J). destruct (answers_origin _ _ _ _ _ _ _ _ _ _ E A J) as [[t T]| ->]; eauto.
Qed.

End SWK.

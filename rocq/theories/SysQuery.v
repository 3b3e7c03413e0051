(** Range queries during concurrent appends and reconstructions: the records a query job
    reads, through the structure built by the flushes of its epoch. *)
From Coq Require Import List Arith ZArith NArith Lia Bool Permutation.
From Verif Require Import Base ListLemmas RecordModel RecordProofs BufferModel MergeModel StructModel ExtModel QueryModel
  ContentProofs Spec QueryProofs SerialProofs FlushModel FlushSpec FlushProofs
  BufConcModel SysModel SysStill SysBatch SysSpec.
Import ListNotations.

Section SQ.
Context {R : Type} {RO : RecOps R} {RL : RecLaws R} {KO : KeyOps R} {KL : KeyLaws R}.
Variable qlt : qorder R.
Context {QO : QOrder qlt}.
Variable C : cfg.
Hypothesis V : valid_cfg C.
Variable lbf : list (wrapped R) -> Z -> res nat.
Hypothesis LB : lb_sound lbf.
Variable cap : nat.
Hypothesis CAP : 2 * c_hwm C <= cap.

Lemma hwm_pos : 0 < c_hwm C.
Proof. destruct V as (? & ? & _). lia. Qed.

Lemma placed_all_plain : forall l : list (nat * (R * bool)), no_erase l -> all_plain (map (placed cap) l).
Proof.
  intros l NE w W. apply in_map_iff in W as ([y [r ts]] & <- & X). unfold placed. cbn.
  rewrite append_rec_ts, append_rec_del. split; auto. eapply NE; eauto.
Qed.

Lemma placed_recs : forall l : list (nat * (R * bool)), map wrec (map (placed cap) l) = a_recs l.
Proof. intros. rewrite map_map. auto. Qed.

Lemma placed_counts : forall (r : R) l, n_plain r (map (placed cap) l) = a_ins r l /\ n_tomb r (map (placed cap) l) = a_del r l.
Proof.
  intros r l. unfold n_plain, n_tomb, a_ins, a_del. rewrite !countb_map.
  split; apply countb_ext; intros x _; unfold placed; rewrite append_rec_ts; auto.
Qed.

Lemma all_plain_perm : forall a b : list (wrapped R), Permutation a b -> all_plain b -> all_plain a.
Proof. intros a b P A w W. apply A. apply (Permutation_in _ P). auto. Qed.

Lemma all_plain_parts : forall (runs : list (list (wrapped R))) buf, all_plain (concat runs ++ buf) ->
  Forall all_plain runs /\ all_plain buf.
Proof.
  intros runs buf A. split.
  - apply Forall_forall. intros ws W w Hw. apply A. apply in_app_iff. left. apply in_concat. eauto.
  - intros w Hw. apply A. apply in_app_iff. auto.
Qed.

(** C58 *)
Theorem concurrent_range_query : forall n (s : sys R) seen runs buf bs,
  sreach (c_lwm C) (c_hwm C) cap still (sys_init (c_hwm C) cap n) s ->
  no_erase (cs_done (y_buf s)) -> In (AList seen runs buf) (y_ans s) -> Forall2 shows bs runs ->
  exists st l, flush_all qlt C st_empty bs = Ok st /\
    incl seen l /\ incl l (cs_done (y_buf s)) /\ NoDup (map fst l) /\
    forall d v lo hi, shows (d, v) buf ->
      exists out, rq_on qlt lbf lo hi st d v = Ok out /\ Permutation out (filter (key_in lo hi) (a_recs l)).
Proof.
  intros n s seen runs buf bs SR NE A F.
  destruct (exact_snapshot _ _ _ hwm_pos CAP n s seen runs buf SR A) as (l & L1 & L2 & L3 & P).
  pose proof (answer_runs _ _ _ _ _ _ _ _ _ SR A) as Z.
  assert (NL : no_erase l) by (intros y r ts X; eapply NE; eauto).
  pose proof (all_plain_perm _ _ P (placed_all_plain l NL)) as AP.
  destruct (all_plain_parts _ _ AP) as [PR PB].
  destruct (flushes_succeed qlt C V bs runs F (plain_runs C runs PR Z) Z) as (st & E).
  exists st, l. split; [exact E|]. split; [exact L1|]. split; [exact L2|]. split; [exact L3|].
  intros d v lo hi W.
  destruct (flushes_range_query qlt C V lbf LB bs runs st d v buf lo hi F PR Z E W PB) as (out & O1 & O2).
  exists out. split; [exact O1|]. rewrite O2. apply Permutation_filter. rewrite <- placed_recs.
  apply Permutation_map. exact P.
Qed.

Theorem concurrent_range_bounds : forall n (s : sys R) seen runs buf bs,
  sreach (c_lwm C) (c_hwm C) cap still (sys_init (c_hwm C) cap n) s ->
  In (AList seen runs buf) (y_ans s) -> Forall mostly_plain runs -> Forall2 shows bs runs ->
  exists st l, flush_all qlt C st_empty bs = Ok st /\
    incl seen l /\ incl l (cs_done (y_buf s)) /\ NoDup (map fst l) /\
    forall d v lo hi, shows (d, v) buf ->
      exists out, rq_on qlt lbf lo hi st d v = Ok out /\
        forall r, if key_in lo hi r then a_ins r l <= occ r out + a_del r l /\ occ r out <= a_ins r l
                  else occ r out = 0.
Proof.
  intros n s seen runs buf bs SR A MP F.
  destruct (exact_snapshot _ _ _ hwm_pos CAP n s seen runs buf SR A) as (l & L1 & L2 & L3 & P).
  pose proof (answer_runs _ _ _ _ _ _ _ _ _ SR A) as Z.
  destruct (flushes_succeed qlt C V bs runs F MP Z) as (st & E).
  exists st, l. split; [exact E|]. split; [exact L1|]. split; [exact L2|]. split; [exact L3|].
  intros d v lo hi W.
  destruct (flushes_range_bounds qlt C V lbf LB bs runs st d v buf lo hi F MP Z E W) as (out & O1 & O2).
  exists out. split; [exact O1|]. intros r. specialize (O2 r). cbv zeta in O2.
  destruct (placed_counts r l) as [P1 P2]. rewrite <- P1, <- P2.
  unfold n_plain, n_tomb in *. rewrite !(countb_perm _ _ _ P) in O2. exact O2.
Qed.

End SQ.

(** The other reads during concurrent appends and reconstructions: static structure,
    range count, point lookup, and kNN and lookups over VPTree and trie shards. *)
From Coq Require Import List Arith ZArith NArith Lia Bool Permutation Sorted.
From Verif Require Import Base ListLemmas RecordModel RecordProofs BufferModel MergeModel MergeProofs StructModel ExtModel QueryModel
  ContentProofs Spec QueryProofs SerialProofs FlushModel FlushSpec FlushProofs
  VPModel VPSpec KNNProofs KindModel KindSpec KindProofs FlushMore
  BufConcModel SysModel SysStill SysBatch SysSpec SysQuery.
Import ListNotations.

Section SR.
Context {R : Type} {RO : RecOps R}.
Variable C : cfg.
Hypothesis V : valid_cfg C.
Variable cap : nat.
Hypothesis CAP : 2 * c_hwm C <= cap.

(** What a job has read. *)
Lemma job_read : forall n (s : sys R) seen runs buf,
  sreach (c_lwm C) (c_hwm C) cap still (sys_init (c_hwm C) cap n) s -> In (AList seen runs buf) (y_ans s) ->
  Forall (run_size (c_hwm C)) runs /\
  exists l, incl seen l /\ incl l (cs_done (y_buf s)) /\ NoDup (map fst l) /\
    Permutation (concat runs ++ buf) (map (placed cap) l).
Proof.
  intros n s seen runs buf SR A. split; [exact (answer_runs _ _ _ _ _ _ _ _ _ SR A)|].
  exact (exact_snapshot _ _ _ (hwm_pos C V cap CAP) CAP n s seen runs buf SR A).
Qed.

Lemma runs_forall : forall (P : wrapped R -> Prop) l runs buf, Permutation (concat runs ++ buf) (map (placed cap) l) ->
  (forall x, In x l -> P (placed cap x)) -> Forall (Forall P) runs /\ Forall P buf.
Proof.
  intros P l runs buf Q H.
  assert (A : forall w, In w (concat runs ++ buf) -> P w).
  { intros w W. apply (Permutation_in _ Q) in W. apply in_map_iff in W as (x & <- & X). auto. }
  split.
  - apply Forall_forall. intros ws W. apply Forall_forall. intros w Hw. apply A. apply in_app_iff. left.
    apply in_concat. eauto.
  - apply Forall_forall. intros w Hw. apply A. apply in_app_iff. auto.
Qed.

Lemma read_recs : forall l (ws : list (wrapped R)), Permutation ws (map (placed cap) l) ->
  Permutation (map wrec ws) (a_recs l).
Proof. intros l ws P. rewrite <- (placed_recs cap l). apply Permutation_map. auto. Qed.

Lemma read_all_plain : forall l runs buf, no_erase l -> Permutation (concat runs ++ buf) (map (placed cap) l) ->
  Forall (@all_plain R) runs /\ all_plain buf.
Proof.
  intros l runs buf NE P. apply all_plain_parts. apply (all_plain_perm _ _ P). apply placed_all_plain. auto.
Qed.

(** ** Sorted shards *)

Section Sorted.
Context {RL : RecLaws R}.
Variable qlt : qorder R.
Context {QO : QOrder qlt}.

Theorem concurrent_static : forall n (s : sys R) seen runs buf bs,
  sreach (c_lwm C) (c_hwm C) cap still (sys_init (c_hwm C) cap n) s ->
  no_erase (cs_done (y_buf s)) -> In (AList seen runs buf) (y_ans s) -> Forall2 shows bs runs ->
  exists st l, flush_all qlt C st_empty bs = Ok st /\
    incl seen l /\ incl l (cs_done (y_buf s)) /\ NoDup (map fst l) /\
    forall d v, shows (d, v) buf ->
      exists sh, static_on qlt st d v = Ok sh /\ Permutation (map wrec (s_data sh)) (a_recs l) /\
        sorted (s_data sh) /\ all_plain (s_data sh) /\ s_reccnt sh = length l.
Proof.
  intros n s seen runs buf bs SR NE A F.
  destruct (job_read n s seen runs buf SR A) as (Z & l & L1 & L2 & L3 & P).
  assert (NL : no_erase l) by (intros y r ts X; eapply NE; eauto).
  destruct (read_all_plain _ _ _ NL P) as [PR PB].
  destruct (flushes_succeed qlt C V bs runs F (plain_runs C runs PR Z) Z) as (st & E).
  exists st, l. split; [exact E|]. split; [exact L1|]. split; [exact L2|]. split; [exact L3|].
  intros d v W.
  destruct (flushes_static qlt C V bs runs st d v buf F PR Z E W PB) as (sh & S1 & S2 & S3 & S4 & S5 & _).
  exists sh. split; [exact S1|]. split; [rewrite S2; apply read_recs; auto|]. split; [exact S3|]. split; [exact S4|].
  rewrite S5, (Permutation_length P), map_length. auto.
Qed.

Theorem concurrent_static_bounds : forall n (s : sys R) seen runs buf bs,
  sreach (c_lwm C) (c_hwm C) cap still (sys_init (c_hwm C) cap n) s ->
  In (AList seen runs buf) (y_ans s) -> Forall mostly_plain runs -> (buf = [] \/ mostly_plain buf) ->
  Forall2 shows bs runs ->
  exists st l, flush_all qlt C st_empty bs = Ok st /\
    incl seen l /\ incl l (cs_done (y_buf s)) /\ NoDup (map fst l) /\
    forall d v, shows (d, v) buf ->
      exists sh, static_on qlt st d v = Ok sh /\ sorted (s_data sh) /\
        forall r, n_plain r (s_data sh) + a_del r l = n_tomb r (s_data sh) + a_ins r l /\
                  n_plain r (s_data sh) <= a_ins r l.
Proof.
  intros n s seen runs buf bs SR A MP MB F.
  destruct (job_read n s seen runs buf SR A) as (Z & l & L1 & L2 & L3 & P).
  destruct (flushes_succeed qlt C V bs runs F MP Z) as (st & E).
  exists st, l. split; [exact E|]. split; [exact L1|]. split; [exact L2|]. split; [exact L3|].
  intros d v W.
  destruct (flushes_static_bounds qlt C V bs runs st d v buf F MP Z E W MB) as (sh & S1 & S2 & S3).
  exists sh. split; [exact S1|]. split; [exact S2|]. intros r. specialize (S3 r). cbv zeta in S3.
  destruct (placed_counts cap r l) as [P1 P2]. rewrite <- P1, <- P2.
  unfold n_plain, n_tomb in *. rewrite !(countb_perm _ _ _ P) in S3. exact S3.
Qed.

Context {KO : KeyOps R} {KL : KeyLaws R}.
Variable lbf : list (wrapped R) -> Z -> res nat.
Hypothesis LB : lb_sound lbf.

Theorem concurrent_range_count : forall n (s : sys R) seen runs buf bs,
  sreach (c_lwm C) (c_hwm C) cap still (sys_init (c_hwm C) cap n) s ->
  no_erase (cs_done (y_buf s)) -> In (AList seen runs buf) (y_ans s) -> Forall2 shows bs runs ->
  exists st l, flush_all qlt C st_empty bs = Ok st /\
    incl seen l /\ incl l (cs_done (y_buf s)) /\ NoDup (map fst l) /\
    forall d v lo hi, shows (d, v) buf ->
      (forall ls a, In ls (st_runs st) -> In a ls -> exists w, In w a /\ (lo <= rkey (wrec w))%Z) ->
      rc_on lbf lo hi st d v = Ok (length (filter (key_in lo hi) (a_recs l))).
Proof.
  intros n s seen runs buf bs SR NE A F.
  destruct (job_read n s seen runs buf SR A) as (Z & l & L1 & L2 & L3 & P).
  assert (NL : no_erase l) by (intros y r ts X; eapply NE; eauto).
  destruct (read_all_plain _ _ _ NL P) as [PR PB].
  destruct (flushes_succeed qlt C V bs runs F (plain_runs C runs PR Z) Z) as (st & E).
  exists st, l. split; [exact E|]. split; [exact L1|]. split; [exact L2|]. split; [exact L3|].
  intros d v lo hi W HI.
  rewrite (flushes_range_count qlt C V lbf LB bs runs st d v buf lo hi F PR Z E W PB HI).
  f_equal. apply Permutation_length, Permutation_filter, read_recs. auto.
Qed.

Variable hit : R -> bool.
Variable plf : list (wrapped R) -> res (option (wrapped R)).
Hypothesis PL : pl_sound hit plf.

Theorem concurrent_point_lookup : forall n (s : sys R) seen runs buf bs,
  sreach (c_lwm C) (c_hwm C) cap still (sys_init (c_hwm C) cap n) s ->
  no_erase (cs_done (y_buf s)) -> In (AList seen runs buf) (y_ans s) -> Forall2 shows bs runs ->
  exists st l, flush_all qlt C st_empty bs = Ok st /\
    incl seen l /\ incl l (cs_done (y_buf s)) /\ NoDup (map fst l) /\
    forall d v, shows (d, v) buf ->
      exists out, pl_on hit plf st d v = Ok out /\
        match out with
        | [] => forall r, In r (a_recs l) -> hit r = false
        | [x] => In x (a_recs l) /\ hit x = true
        | _ => False
        end.
Proof.
  intros n s seen runs buf bs SR NE A F.
  destruct (job_read n s seen runs buf SR A) as (Z & l & L1 & L2 & L3 & P).
  assert (NL : no_erase l) by (intros y r ts X; eapply NE; eauto).
  destruct (read_all_plain _ _ _ NL P) as [PR PB].
  destruct (flushes_succeed qlt C V bs runs F (plain_runs C runs PR Z) Z) as (st & E).
  exists st, l. split; [exact E|]. split; [exact L1|]. split; [exact L2|]. split; [exact L3|].
  intros d v W.
  destruct (flushes_point_lookup qlt C V hit plf PL bs runs st d v buf F PR Z E W PB) as (out & O1 & O2).
  exists out. split; [exact O1|]. pose proof (read_recs l _ P) as Q.
  destruct out as [|x [|]]; auto.
  - intros r Hr. destruct (hit r) eqn:HH; auto. exfalso.
    apply (Permutation_in _ (Permutation_sym Q)) in Hr.
    assert (X : In r []) by (rewrite <- O2; apply filter_In; auto). exact X.
  - destruct O2 as [O2 O3]. split; auto. apply (Permutation_in _ Q). auto.
Qed.

End Sorted.

(** ** VPTree *)

Lemma placed_rt : forall l : list (nat * (R * bool)), map rt (map (placed cap) l) = map snd l.
Proof.
  intros. rewrite map_map. apply map_ext. intros [y [r ts]]. unfold placed, rt. simpl. rewrite append_rec_ts. auto.
Qed.

Lemma placed_nodel : forall x : nat * (R * bool), nodel (placed cap x).
Proof. intros. apply append_rec_del. Qed.

Theorem concurrent_vp : forall n (s : sys R) seen runs buf bs,
  sreach (c_lwm C) (c_hwm C) cap still (sys_init (c_hwm C) cap n) s ->
  In (AList seen runs buf) (y_ans s) -> Forall2 shows bs runs ->
  exists st l, flush_all vp_shards C st_empty bs = Ok st /\
    incl seen l /\ incl l (cs_done (y_buf s)) /\ NoDup (map fst l) /\
    forall d v, shows (d, v) buf ->
      exists sh, static_on vp_shards st d v = Ok sh /\ s_reccnt sh = length l /\
        Permutation (map (fun w => (wrec w, is_ts w)) (s_data sh)) (map snd l).
Proof.
  intros n s seen runs buf bs SR A F.
  destruct (job_read n s seen runs buf SR A) as (Z & l & L1 & L2 & L3 & P).
  destruct (runs_forall nodel l runs buf P) as [PR PB]; [intros; apply placed_nodel|].
  destruct (keep_flush_facts vp_shards C V bs runs F PR Z) as (st & E & _).
  exists st, l. split; [exact E|]. split; [exact L1|]. split; [exact L2|]. split; [exact L3|].
  intros d v W.
  destruct (keep_flush_static vp_shards C V bs runs st d v buf F PR Z E W PB) as (sh & S1 & (S2 & _) & S3 & _).
  assert (Q : Permutation (map rt (s_data sh)) (map snd l)).
  { rewrite <- S3, <- placed_rt. apply Permutation_map. auto. }
  exists sh. split; [exact S1|]. split; [|exact Q].
  rewrite S2. apply Permutation_length in Q. rewrite !map_length in Q. auto.
Qed.

Section KNN.
Context {D : Type} {DO : DistOps D} {DL : DistLaws D} {MO : MetricOps R D} {ML : MetricLaws R D}.

Theorem concurrent_knn : forall n (s : sys R) seen runs buf bs,
  sreach (c_lwm C) (c_hwm C) cap still (sys_init (c_hwm C) cap n) s ->
  In (AList seen runs buf) (y_ans s) -> Forall2 shows bs runs ->
  exists st l, flush_all vp_shards C st_empty bs = Ok st /\
    incl seen l /\ incl l (cs_done (y_buf s)) /\ NoDup (map fst l) /\
    forall pop (PM : PQMax pop) leafsz rng d v p k, 0 < k -> shows (d, v) buf ->
      exists out, knn_on leafsz pop rng p k st d v = Ok out /\
        nearest (fun x y => dleb (dist p x) (dist p y)) k (a_recs l) out.
Proof.
  intros n s seen runs buf bs SR A F.
  destruct (job_read n s seen runs buf SR A) as (Z & l & L1 & L2 & L3 & P).
  destruct (runs_forall nodel l runs buf P) as [PR PB]; [intros; apply placed_nodel|].
  destruct (keep_flush_facts vp_shards C V bs runs F PR Z) as (st & E & _).
  exists st, l. split; [exact E|]. split; [exact L1|]. split; [exact L2|]. split; [exact L3|].
  intros pop PM leafsz rng d v p k K W.
  destruct (vp_flush_knn C V pop PM leafsz rng bs runs st d v buf p k K F PR Z E W PB) as (out & O1 & O2).
  exists out. split; [exact O1|]. eapply nearest_perm; [apply (read_recs l _ P)|exact O2].
Qed.
End KNN.

End SR.

(** ** Tries *)

Section SRT.
Variable qlt : qorder crec.
Context {QO : QOrder qlt}.
Variable literal : nat.
Variable C : cfg.
Hypothesis V : valid_cfg C.
Variable cap : nat.
Hypothesis CAP : 2 * c_hwm C <= cap.
Variable search : list (list N) -> list N -> option nat.
Hypothesis SE : search_exact search.

Lemma NoDup_incl_map : forall {A} (f : nat * A -> list N) (l m : list (nat * A)),
  NoDup (map fst l) -> NoDup (map f m) -> incl l m -> NoDup (map f l).
Proof.
  intros A f l m N1 N2 I. induction l as [|x l IH]; cbn in *; constructor.
  - intros H. apply in_map_iff in H as (y & E & Hy). inv N1.
    assert (x = y).
    { assert (X : In x m) by (apply I; left; auto). assert (Y : In y m) by (apply I; right; auto).
      clear - N2 X Y E. induction m as [|z m IH]; [contradiction|]. cbn in N2. inv N2.
      destruct X as [->|X], Y as [->|Y]; auto.
      - exfalso. apply H1. rewrite <- E. apply in_map. auto.
      - exfalso. apply H1. rewrite E. apply in_map. auto. }
    subst y. apply H1. apply in_map. auto.
  - inv N1. apply IH; auto. intros y Hy. apply I. right. auto.
Qed.

Theorem concurrent_trie_lookup : forall n (s : sys crec) seen runs buf bs,
  sreach (c_lwm C) (c_hwm C) cap still (sys_init (c_hwm C) cap n) s ->
  no_erase (cs_done (y_buf s)) -> (forall r, In r (a_recs (cs_done (y_buf s))) -> c_addr r <> literal) ->
  NoDup (map c_str (a_recs (cs_done (y_buf s)))) ->
  In (AList seen runs buf) (y_ans s) -> Forall2 shows bs runs ->
  exists st l, flush_all (trie_shards qlt literal) C st_empty bs = Ok st /\
    incl seen l /\ incl l (cs_done (y_buf s)) /\ NoDup (map fst l) /\
    forall d v k a, shows (d, v) buf ->
      (forall r, In r (a_recs (cs_done (y_buf s))) -> (c_addr r = a <-> c_str r = k)) ->
      exists out, pl_on (fun r => c_addr r =? a) (trie_lookup search k) st d v = Ok out /\
        Permutation out (filter (has_str k) (a_recs l)).
Proof.
  intros n s seen runs buf bs SR NE NB DK A F.
  destruct (job_read C V cap CAP n s seen runs buf SR A) as (Z & l & L1 & L2 & L3 & P).
  assert (IR : incl (a_recs l) (a_recs (cs_done (y_buf s)))) by (apply incl_map; exact L2).
  destruct (runs_forall cap (trie_adm literal) l runs buf P) as [PR PB].
  { intros [y [r ts]] X. assert (ts = false) by (eapply NE; eauto). subst ts. unfold placed. cbn [fst snd].
    split; [apply append_rec_ts|]. split; [apply append_rec_del|]. split; [apply append_rec_vis|].
    unfold blank. apply Nat.eqb_neq. apply NB. apply IR. apply (in_map (fun x => fst (snd x)) l _ X). }
  destruct (keep_flush_facts (trie_shards qlt literal) C V bs runs F PR Z) as (st & E & _).
  exists st, l. split; [exact E|]. split; [exact L1|]. split; [exact L2|]. split; [exact L3|].
  intros d v k a W AA. pose proof (read_recs cap l _ P) as Q.
  eexists. split.
  - apply (trie_flush_lookup qlt literal C V search SE bs runs st d v buf k a F PR Z E W PB).
    + apply (Permutation_NoDup (l := map c_str (a_recs l))); [apply Permutation_map; symmetry; exact Q|].
      unfold a_recs in *. rewrite map_map in *. eapply NoDup_incl_map; eauto.
    + intros r Hr. apply AA. apply IR. apply (Permutation_in _ Q). auto.
  - apply Permutation_filter. exact Q.
Qed.

End SRT.

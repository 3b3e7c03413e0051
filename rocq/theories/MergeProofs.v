(** The merge loop as a run of emit / cancel events, and what a run preserves. *)
From Coq Require Import List Arith ZArith NArith Lia Bool Permutation Sorted.
From Verif Require Import Base ListLemmas RecordModel RecordProofs BufferModel MergeModel QueryModel.
Import ListNotations.

Section MP.
Context {R : Type} {RO : RecOps R} {RL : RecLaws R}.

#[global] Instance by_version_order : QOrder by_version.
Proof.
  constructor; unfold by_version; intros.
  - rewrite rlt_irrefl, Nat.ltb_irrefl, andb_false_r. auto.
  - apply orb_true_iff in H, H0. apply orb_true_iff.
    destruct H as [H|H], H0 as [H0|H0].
    + left. eapply rlt_trans; eauto.
    + apply andb_true_iff in H0 as [H0 _]. left. eapply rlt_req_r; eauto.
    + apply andb_true_iff in H as [H _]. left. eapply rlt_req_l; eauto.
    + apply andb_true_iff in H as [H1 H2], H0 as [H3 H4].
      apply Nat.ltb_lt in H2, H4. right. apply andb_true_iff. split.
      eapply req_trans; eauto. apply Nat.ltb_lt. lia.
  - destruct (rtri (wrec (fst a)) (wrec (fst b))) as [H1|[H1|H1]].
    + left. rewrite H1. auto.
    + destruct (Nat.lt_trichotomy (snd a) (snd b)) as [H2|[H2|H2]]; try congruence.
      * left. apply Nat.ltb_lt in H2. rewrite H1, H2. apply orb_true_r.
      * right. apply Nat.ltb_lt in H2. rewrite req_sym in H1. rewrite H1, H2. apply orb_true_r.
    + right. rewrite H1. auto.
  - rewrite H. auto.
Qed.

#[global] Instance by_header_order : QOrder by_header.
Proof.
  constructor; unfold by_header; intros.
  - rewrite wlt_irrefl, Nat.ltb_irrefl, andb_false_r. auto.
  - apply orb_true_iff in H, H0. apply orb_true_iff.
    assert (T : forall x y z : wrapped R, wlt x y = true -> wlt z y = false -> wlt x z = true).
    { intros x y z A B. apply not_wlt_cases in B. apply wlt_cases in A.
      destruct A as [A|[A A']], B as [B|[B B']].
      - apply wlt_rec. eapply rlt_trans; eauto.
      - apply wlt_rec. rewrite req_sym in B. eapply rlt_req_r; eauto.
      - apply wlt_rec. eapply rlt_req_l; eauto.
      - apply wlt_hdr. rewrite req_sym in B. eapply req_trans; eauto. lia. }
    assert (T' : forall x y z : wrapped R, wlt y z = true -> wlt y x = false -> wlt x z = true).
    { intros x y z A B. apply not_wlt_cases in B. apply wlt_cases in A.
      destruct A as [A|[A A']], B as [B|[B B']].
      - apply wlt_rec. eapply rlt_trans; eauto.
      - apply wlt_rec. rewrite req_sym in B. eapply rlt_req_l; eauto.
      - apply wlt_rec. eapply rlt_req_r; eauto.
      - apply wlt_hdr. rewrite req_sym in B. eapply req_trans; eauto. lia. }
    destruct H as [H|H], H0 as [H0|H0].
    + left. eapply wlt_trans; eauto.
    + apply andb_true_iff in H0 as [H0 _]. apply negb_true_iff in H0.
      left. eapply T; eauto.
    + apply andb_true_iff in H as [H _]. apply negb_true_iff in H.
      left. eapply T'; eauto.
    + apply andb_true_iff in H as [H1 H2], H0 as [H3 H4].
      apply negb_true_iff in H1, H3. apply Nat.ltb_lt in H2, H4.
      right. apply andb_true_iff. split; [|apply Nat.ltb_lt; lia].
      apply negb_true_iff. destruct (wlt (fst c) (fst a)) eqn:E; auto.
      rewrite (T _ _ _ E H1) in H3. discriminate.
  - destruct (wlt (fst a) (fst b)) eqn:E1; [left; auto|].
    destruct (wlt (fst b) (fst a)) eqn:E2; [right; auto|]. simpl.
    destruct (Nat.lt_trichotomy (snd a) (snd b)) as [H2|[H2|H2]]; try congruence.
    + left. apply Nat.ltb_lt. auto.
    + right. apply Nat.ltb_lt. auto.
  - rewrite wlt_rec; auto.
Qed.

Variable qlt : qorder R.
Context {QO : QOrder qlt}.

(** ** The queue *)

Lemma pq_min_none : forall q, pq_min qlt q = None -> q = [].
Proof.
  destruct q; simpl; auto. destruct (pq_min qlt q0); [destruct (qlt q1 q)|]; discriminate.
Qed.

Lemma pq_min_in : forall q m, pq_min qlt q = Some m -> In m q.
Proof.
  induction q; simpl; intros; try discriminate.
  destruct (pq_min qlt q) eqn:E; [destruct (qlt q0 a)|]; inv H; auto.
Qed.

Lemma pq_min_least : forall q m, NoDup (map snd q) -> pq_min qlt q = Some m ->
  forall x, In x q -> snd x <> snd m -> qlt m x = true.
Proof.
  induction q; simpl; intros m ND H x Hx Hv; try discriminate. inv ND.
  destruct (pq_min qlt q) eqn:E.
  - destruct (qlt q0 a) eqn:L; inv H.
    + destruct Hx as [<-|Hx]; [auto | eapply IHq; eauto].
    + destruct Hx as [<-|Hx]; [congruence|].
      assert (D : snd q0 <> snd m).
      { intro D. apply H2. rewrite <- D. apply in_map. apply pq_min_in in E. auto. }
      destruct (qlt_total _ _ D) as [T|T]; [congruence|].
      destruct (Nat.eq_dec (snd x) (snd q0)) as [e|ne].
      * destruct (qlt_total (QOrder := QO) m x) as [T'|T']; auto.
        (* same version: same entry *)
        exfalso. clear - H3 E Hx e T' T L QO.
        apply pq_min_in in E.
        assert (x = q0).
        { clear -H3 E Hx e. induction q; simpl in *; [tauto|]. inv H3.
          destruct E as [->|E], Hx as [->|Hx]; auto.
          - exfalso. apply H1. rewrite <- e. apply in_map. auto.
          - exfalso. apply H1. rewrite e. apply in_map. auto. }
        subst. congruence.
      * eapply qlt_trans; [exact T|]. eapply IHq; eauto.
  - inv H. destruct Hx as [<-|Hx]; [congruence|].
    apply pq_min_none in E. subst. destruct Hx.
Qed.

Lemma pq_del_in : forall v (q : list (qent R)) x, NoDup (map snd q) ->
  (In x (pq_del v q) <-> In x q /\ snd x <> v).
Proof.
  induction q; simpl; intros; [tauto|]. inv H.
  destruct (Nat.eqb_spec (snd a) v).
  - split; intros.
    + split; auto. intro. apply H2. subst. rewrite <- H0. apply in_map. auto.
    + destruct H as [[<-|H] Hv]; [congruence|auto].
  - simpl. rewrite IHq by auto. split; intros.
    + destruct H as [<-|[H Hv]]; auto.
    + destruct H as [[<-|H] Hv]; auto.
Qed.

Lemma pq_del_nodup : forall v (q : list (qent R)), NoDup (map snd q) -> NoDup (map snd (pq_del v q)).
Proof.
  induction q; simpl; intros; auto. inv H. destruct (Nat.eqb_spec (snd a) v); auto.
  simpl. constructor; auto. intro. apply H2. apply in_map_iff in H as (x & E & Hx).
  rewrite <- E. apply in_map. apply pq_del_in in Hx; tauto.
Qed.

(** [q] is the queue of the heads of [cs], except those listed in [ex]. *)
Definition qok (ex : list nat) (cs : list (list (wrapped R))) (q : list (qent R)) : Prop :=
  NoDup (map snd q) /\
  forall w v, In (w, v) q <-> (~ In v ex /\ exists c, nth_error cs v = Some (w :: c)).

Lemma qok_del : forall ex cs q v, qok ex cs q -> qok (v :: ex) cs (pq_del v q).
Proof.
  intros ex cs q v [ND H]. split; [apply pq_del_nodup; auto|].
  intros w u. rewrite pq_del_in by auto. rewrite H. simpl. intuition congruence.
Qed.

Lemma qok_adv : forall ex cs q v cs' q',
  qok (v :: ex) cs q -> ~ In v ex -> v < length cs ->
  advance_push v cs q = (cs', q') ->
  cs' = set_nth v (tl (nth v cs [])) cs /\ qok ex cs' q'.
Proof.
  intros ex cs q v cs' q' [ND H] Hv Hl E. unfold advance_push in E.
  assert (Hn : forall w, ~ In (w, v) q).
  { intros w Hw. apply H in Hw as [Hw _]. apply Hw. simpl. auto. }
  destruct (tl (nth v cs [])) as [|x c] eqn:T; inv E; split; auto; split.
  - auto.
  - intros w u. destruct (Nat.eq_dec v u).
    + subst. split; intros.
      * exfalso. eapply Hn; eauto.
      * destruct H0 as (_ & c & Hc). rewrite nth_error_set_nth_eq in Hc by auto. discriminate.
    + rewrite nth_error_set_nth_neq by auto. rewrite H. simpl. intuition.
  - unfold pq_push. rewrite map_app. simpl.
    eapply Permutation_NoDup; [apply Permutation_cons_append|]. constructor; auto.
    intro Hi. apply in_map_iff in Hi as ([w u] & E & Hi). simpl in E. subst. eapply Hn; eauto.
  - intros w u. unfold pq_push. rewrite in_app_iff. simpl.
    destruct (Nat.eq_dec v u).
    + subst. rewrite nth_error_set_nth_eq by auto. split; intros.
      * destruct H0 as [H0|[H0|[]]]; [exfalso; eapply Hn; eauto|]. inv H0. eauto.
      * destruct H0 as (_ & c' & Hc). inv Hc. auto.
    + rewrite nth_error_set_nth_neq by auto. rewrite H. simpl.
      split; intros.
      * destruct H0 as [H0|[H0|[]]]; [intuition|]. inv H0. congruence.
      * left. intuition.
Qed.

(** ** Runs *)

Inductive ev := EEmit (w : wrapped R) | ECancel (i t : wrapped R).

(** [(w, v)] comes before every other head. *)
Definition least (cs : list (list (wrapped R))) (v : nat) (w : wrapped R) : Prop :=
  forall u x c, nth_error cs u = Some (x :: c) -> u <> v -> qlt (w, v) (x, u) = true.

(** Besides [v], the head [(t, u)] comes before every other head. *)
Definition second (cs : list (list (wrapped R))) (v u : nat) (t : wrapped R) : Prop :=
  forall z x c, nth_error cs z = Some (x :: c) -> z <> v -> z <> u -> qlt (t, u) (x, z) = true.

Definition cancels (i t : wrapped R) : bool :=
  negb (is_ts i) && req (wrec i) (wrec t) && is_ts t.

Inductive mrun : list (list (wrapped R)) -> list ev -> Prop :=
| mr_done : forall cs, (forall c, In c cs -> c = []) -> mrun cs []
| mr_emit : forall cs v w c evs,
    nth_error cs v = Some (w :: c) -> least cs v w ->
    (forall u t c', nth_error cs u = Some (t :: c') -> u <> v -> second cs v u t ->
                    cancels w t = false) ->
    mrun (set_nth v c cs) evs ->
    mrun cs (EEmit w :: evs)
| mr_cancel : forall cs v u w t c c' evs,
    nth_error cs v = Some (w :: c) -> nth_error cs u = Some (t :: c') -> u <> v ->
    least cs v w -> second cs v u t -> cancels w t = true ->
    mrun (set_nth u c' (set_nth v c cs)) evs ->
    mrun cs (ECancel w t :: evs).

Fixpoint emits (evs : list ev) : list (wrapped R) :=
  match evs with
  | [] => []
  | EEmit w :: evs' => w :: emits evs'
  | ECancel _ _ :: evs' => emits evs'
  end.

Fixpoint cancelled (evs : list ev) : list (wrapped R * wrapped R) :=
  match evs with
  | [] => []
  | EEmit _ :: evs' => cancelled evs'
  | ECancel i t :: evs' => (i, t) :: cancelled evs'
  end.

Lemma set_nth_concat_len : forall (cs : list (list (wrapped R))) v w c,
  nth_error cs v = Some (w :: c) ->
  length (concat cs) = S (length (concat (set_nth v c cs))).
Proof.
  intros. apply concat_set_nth_perm in H. apply Permutation_length in H. auto.
Qed.

Lemma nth_tl : forall (cs : list (list (wrapped R))) v w c,
  nth_error cs v = Some (w :: c) -> tl (nth v cs []) = c.
Proof. intros. rewrite (nth_error_nth_default _ _ _ _ H). auto. Qed.

Lemma nth_some_lt : forall {B} (cs : list B) v c, nth_error cs v = Some c -> v < length cs.
Proof. intros. apply nth_error_Some. congruence. Qed.

Lemma merge_loop_run : forall {A} (act : wrapped R -> A -> A) fuel cs q a,
  qok [] cs q -> length (concat cs) < fuel ->
  exists evs, mrun cs evs /\
    merge_loop qlt act fuel cs q a = Ok (fold_left (fun x w => act w x) (emits evs) a).
Proof.
  intros A act. induction fuel; intros cs q a Q L; [lia|]. simpl.
  pose proof Q as [ND HQ].
  destruct (pq_min qlt q) as [[w v]|] eqn:E.
  2:{ apply pq_min_none in E. subst. exists []. split; auto. constructor.
      intros [|x c] Hc; auto. apply In_nth_error in Hc as (v & Hv).
      exfalso. apply (HQ x v). split; eauto. }
  pose proof (pq_min_in _ _ E) as Iw. apply HQ in Iw as (_ & c & Hv).
  pose proof (nth_some_lt _ _ _ Hv) as Lv.
  assert (LE : least cs v w).
  { intros u x c0 Hu Hne. apply (pq_min_least _ _ ND E (x, u)); auto.
    apply HQ. split; eauto. }
  unfold pq_next, pq_pop at 1. rewrite E. simpl.
  pose proof (qok_del [] cs q v Q) as Q1.
  assert (EM : (forall u t c', nth_error cs u = Some (t :: c') -> u <> v -> second cs v u t ->
                    cancels w t = false) ->
     exists evs, mrun cs evs /\
     (let (cs', q') := advance_push v cs (pq_pop qlt q) in merge_loop qlt act fuel cs' q' (act w a))
      = Ok (fold_left (fun (x : A) (w0 : wrapped R) => act w0 x) (emits evs) a)).
  { intros NC. unfold pq_pop. rewrite E. simpl.
    destruct (advance_push v cs (pq_del v q)) as [cs' q'] eqn:AE.
    eapply qok_adv in AE as [-> Q']; eauto.
    rewrite (nth_tl _ _ _ _ Hv) in *.
    destruct (IHfuel _ _ (act w a) Q') as (evs & M & EQ).
    { rewrite (set_nth_concat_len _ _ _ _ Hv) in L. lia. }
    exists (EEmit w :: evs). split; auto. econstructor; eauto. }
  destruct (pq_min qlt (pq_del v q)) as [[t u]|] eqn:E2.
  - pose proof (pq_min_in _ _ E2) as It. apply Q1 in It as (Hne & c' & Hu).
    assert (u <> v) by (intro; subst; apply Hne; simpl; auto).
    assert (SE : second cs v u t).
    { intros z x c0 Hz Hz1 Hz2. apply (pq_min_least _ _ (proj1 Q1) E2 (x, z)); auto.
      apply Q1. split; eauto. simpl. intuition. }
    simpl. destruct (negb (is_ts w) && req (wrec w) (wrec t) && is_ts t) eqn:CC.
    + assert (Hu' : nth_error (set_nth v c cs) u = Some (t :: c'))
        by (rewrite nth_error_set_nth_neq; auto).
      unfold pq_pop. rewrite E. simpl. rewrite E2. simpl.
      pose proof (qok_del [v] cs _ u Q1) as Q2.
      assert (Q2' : qok [v; u] cs (pq_del u (pq_del v q))).
      { destruct Q2 as [N2 Q2]. split; auto. intros w0 v0. rewrite Q2. simpl. intuition. }
      destruct (advance_push v cs (pq_del u (pq_del v q))) as [cs1 q1] eqn:AE.
      eapply qok_adv in AE as [-> Q3]; eauto.
      2:{ simpl. intuition. }
      rewrite (nth_tl _ _ _ _ Hv) in *.
      destruct (advance_push u (set_nth v c cs) q1) as [cs2 q2] eqn:AE2.
      eapply qok_adv in AE2 as [-> Q4]; eauto.
      2:{ rewrite set_nth_length. eapply nth_some_lt; eauto. }
      rewrite (nth_tl _ _ _ _ Hu') in *.
      destruct (IHfuel _ _ a Q4) as (evs & M & EQ).
      { pose proof (set_nth_concat_len _ _ _ _ Hv). pose proof (set_nth_concat_len _ _ _ _ Hu').
        lia. }
      exists (ECancel w t :: evs). split; auto. econstructor; eauto.
    + apply EM. intros u0 t0 c0 Hu0 Hn0 S0.
      destruct (Nat.eq_dec u0 u) as [->|Hd].
      * rewrite Hu in Hu0. inv Hu0. exact CC.
      * exfalso. pose proof (S0 u t c' Hu H (not_eq_sym Hd)) as A1.
        pose proof (SE u0 t0 c0 Hu0 Hn0 Hd) as A2.
        pose proof (qlt_trans _ _ _ A1 A2) as A3. rewrite qlt_irrefl in A3. discriminate.
  - apply EM. intros u0 t0 c0 Hu0 Hn0 S0. exfalso.
    apply pq_min_none in E2.
    assert (In (t0, u0) (pq_del v q)).
    { apply Q1. split; eauto. simpl. intuition. }
    rewrite E2 in H. destruct H.
Qed.

Lemma heads_from_in : forall (cs : list (list (wrapped R))) k w v,
  In (w, v) (heads_from k cs) <-> (k <= v /\ exists c, nth_error cs (v - k) = Some (w :: c)).
Proof.
  induction cs as [|[|x c] cs]; simpl; intros.
  - split; [tauto|]. intros (_ & c & H). destruct (v - k); discriminate.
  - rewrite IHcs. split; intros (H & c & Hc).
    + split; [lia|]. exists c. replace (v - k) with (S (v - S k)) by lia. auto.
    + destruct (v - k) as [|n] eqn:E; [discriminate|]. split; [lia|].
      exists c. replace (v - S k) with n by lia. auto.
  - rewrite IHcs. split.
    + intros [H|(H & c' & Hc)].
      * inv H. split; [lia|]. rewrite Nat.sub_diag. exists c. reflexivity.
      * split; [lia|]. exists c'. replace (v - k) with (S (v - S k)) by lia. auto.
    + intros (H & c' & Hc). destruct (v - k) as [|n] eqn:E.
      * left. simpl in Hc. inv Hc. f_equal. lia.
      * right. split; [lia|]. exists c'. replace (v - S k) with n by lia. auto.
Qed.

Lemma heads_from_nodup : forall cs k, NoDup (map snd (heads_from (R := R) k cs)).
Proof.
  induction cs as [|[|x c] cs]; simpl; intros; auto; [constructor|].
  constructor; auto. intro H. apply in_map_iff in H as ([w v] & E & H).
  apply heads_from_in in H. simpl in E. lia.
Qed.

Lemma heads_qok : forall cs, qok [] cs (heads_from 0 cs).
Proof.
  intros. split; [apply heads_from_nodup|]. intros. rewrite heads_from_in.
  rewrite Nat.sub_0_r. split; intros.
  - split; [simpl; tauto|tauto].
  - split; [lia|tauto].
Qed.

Lemma init_pushes_ok : forall (cs : list (list (wrapped R))) i q,
  init_pushes i cs = Ok q -> q = heads_from i cs /\ Forall (fun c => c <> []) cs.
Proof.
  induction cs as [|[|x c] cs]; simpl; intros; try discriminate.
  - inv H. auto.
  - mon H. inv H. apply IHcs in E as [-> F]. split; auto. constructor; auto. discriminate.
Qed.

Lemma init_pushes_total : forall (cs : list (list (wrapped R))) i,
  Forall (fun c => c <> []) cs -> init_pushes i cs = Ok (heads_from i cs).
Proof.
  induction cs as [|[|x c] cs]; simpl; intros; auto; inv H; try congruence.
  rewrite IHcs by auto. reflexivity.
Qed.

(** ** What a run preserves *)

(** Every input record is emitted or cancelled. *)
Lemma mrun_perm : forall cs evs, mrun cs evs ->
  Permutation (concat cs) (emits evs ++ map fst (cancelled evs) ++ map snd (cancelled evs)).
Proof.
  induction 1; simpl.
  - assert (concat cs = []).
    { induction cs as [|c cs]; simpl; auto. rewrite (H c) by (simpl; auto).
      apply IHcs. intros; apply H; simpl; auto. }
    rewrite H0. constructor.
  - rewrite (concat_set_nth_perm _ _ _ _ H). constructor. auto.
  - rewrite (concat_set_nth_perm _ _ _ _ H).
    assert (Hu' : nth_error (set_nth v c cs) u = Some (t :: c'))
        by (rewrite nth_error_set_nth_neq; auto).
    rewrite (concat_set_nth_perm _ _ _ _ Hu').
    apply Permutation_cons_app. rewrite app_assoc. apply Permutation_cons_app.
    rewrite <- app_assoc. auto.
Qed.

Lemma mrun_cancelled : forall cs evs, mrun cs evs ->
  Forall (fun p => cancels (fst p) (snd p) = true) (cancelled evs).
Proof. induction 1; simpl; auto. Qed.

(** Sorted cursors give sorted output. *)
Definition lb_all (w : wrapped R) (cs : list (list (wrapped R))) : Prop :=
  forall x, In x (concat cs) -> wle w x.

Lemma qlt_wle : forall a b, qlt a b = true -> wle (fst a) (fst b).
Proof.
  intros. unfold wle, rle. destruct (rlt (wrec (fst b)) (wrec (fst a))) eqn:E; auto.
  apply (qlt_rec (QOrder := QO)) in E. pose proof (qlt_trans _ _ _ H E) as K.
  rewrite qlt_irrefl in K. discriminate.
Qed.

Lemma least_lb : forall cs v w c,
  Forall (StronglySorted wle) cs -> nth_error cs v = Some (w :: c) -> least cs v w ->
  lb_all w cs.
Proof.
  intros cs v w c S H L x Hx. apply in_concat in Hx as (l & Hl & Hx).
  apply In_nth_error in Hl as (u & Hu).
  rewrite Forall_forall in S. pose proof (S l (nth_error_In _ _ Hu)) as Sl.
  destruct l as [|y l]; [destruct Hx|].
  assert (wle w y).
  { destruct (Nat.eq_dec u v).
    - subst. rewrite H in Hu. inv Hu. apply wle_refl.
    - pose proof (L u y l Hu n) as Q. apply qlt_wle in Q. auto. }
  destruct Hx as [->|Hx]; auto. inv Sl. rewrite Forall_forall in H4.
  eapply wle_trans; eauto.
Qed.

Lemma sorted_set_nth : forall cs v (w : wrapped R) c,
  Forall (StronglySorted wle) cs -> nth_error cs v = Some (w :: c) ->
  Forall (StronglySorted wle) (set_nth v c cs).
Proof.
  intros. apply Forall_set_nth; auto. rewrite Forall_forall in H.
  pose proof (H _ (nth_error_In _ _ H0)) as K. inv K. auto.
Qed.

Lemma mrun_emits_in : forall cs evs x, mrun cs evs -> In x (emits evs) -> In x (concat cs).
Proof.
  intros. eapply Permutation_in; [apply Permutation_sym; eapply mrun_perm; eauto|].
  apply in_app_iff. auto.
Qed.

Lemma mrun_sorted : forall cs evs, mrun cs evs -> Forall (StronglySorted wle) cs ->
  StronglySorted wle (emits evs).
Proof.
  induction 1; simpl; intros S.
  - constructor.
  - constructor.
    + apply IHmrun. eapply sorted_set_nth; eauto.
    + apply Forall_forall. intros x Hx. apply (least_lb _ _ _ _ S H H0).
      eapply Permutation_in; [apply Permutation_sym; eapply concat_set_nth_perm; eauto|].
      right. eapply mrun_emits_in; eauto.
  - apply IHmrun. eapply sorted_set_nth; [eapply sorted_set_nth; eauto|].
    rewrite nth_error_set_nth_neq; eauto.
Qed.

(** ** The output of sorted_array_merge *)

Definition keep (w : wrapped R) : bool := negb (is_del w).

Lemma sam_fold : forall l (o : marr R),
  let o' := fold_left (fun x w => sam_act w x) l o in
  m_data o' = rev (filter keep l) ++ m_data o /\
  m_rec o' = countb keep l + m_rec o /\
  m_ts o' = countb (fun w => keep w && is_ts w) l + m_ts o.
Proof.
  induction l; intros; subst o'; simpl; auto.
  specialize (IHl (sam_act a o)). simpl in IHl. destruct IHl as (H1 & H2 & H3).
  rewrite H1, H2, H3. unfold sam_act, keep. destruct (is_del a); simpl.
  - auto.
  - rewrite <- app_assoc. simpl. repeat split; auto; try lia.
    destruct (is_ts a); simpl; lia.
Qed.

Definition ts_count (l : list (wrapped R)) : nat := countb is_ts l.

Lemma countb_keep_ts : forall l, countb (fun w => keep w && is_ts w) l = ts_count (filter keep l).
Proof.
  unfold ts_count. induction l; simpl; auto. destruct (keep a); simpl; rewrite IHl; auto.
Qed.

Lemma sam_ok : forall cs m, sorted_array_merge qlt cs = Ok m ->
  Forall (fun c => c <> []) cs /\
  exists evs, mrun cs evs /\ m_data m = filter keep (emits evs) /\
    m_rec m = length (m_data m) /\ m_ts m = ts_count (m_data m).
Proof.
  unfold sorted_array_merge. intros. mon H. apply init_pushes_ok in E as [-> F].
  split; auto.
  destruct (merge_loop_run sam_act (S (length (concat cs))) cs _ (MArr [] 0 0)
              (heads_qok cs) (Nat.lt_succ_diag_r _)) as (evs & M & EQ).
  exists evs. split; auto. rewrite EQ in H. simpl in H. inv H.
  destruct (sam_fold (emits evs) (MArr [] 0 0)) as (H1 & H2 & H3).
  unfold finish. cbn [m_data m_rec m_ts] in *. rewrite app_nil_r in H1.
  rewrite H1, H2, H3, rev_involutive, !Nat.add_0_r, countb_keep_ts, countb_filter. auto.
Qed.

Lemma sam_total : forall cs, Forall (fun c => c <> []) cs ->
  exists m, sorted_array_merge qlt cs = Ok m.
Proof.
  intros. unfold sorted_array_merge. rewrite init_pushes_total by auto. simpl.
  destruct (merge_loop_run sam_act (S (length (concat cs))) cs _ (MArr [] 0 0)
              (heads_qok cs) (Nat.lt_succ_diag_r _)) as (evs & M & EQ).
  simpl in EQ. rewrite EQ. simpl. eauto.
Qed.

(** ** The sort and the cancellation scan *)

Lemma winsert_perm : forall (w : wrapped R) l, Permutation (w :: l) (winsert w l).
Proof.
  induction l; simpl; auto. destruct (wlt w a); auto.
  rewrite perm_swap. constructor. auto.
Qed.

Lemma wsort_acc_perm : forall l acc : list (wrapped R),
  Permutation (l ++ acc) (fold_left (fun acc w => winsert w acc) l acc).
Proof.
  induction l; simpl; intros; auto. rewrite <- IHl.
  rewrite <- (winsert_perm a acc). apply Permutation_middle.
Qed.

Lemma wsort_perm : forall l : list (wrapped R), Permutation l (wsort l).
Proof. intros. unfold wsort. rewrite <- wsort_acc_perm, app_nil_r. auto. Qed.

(** Sorted for std::less<Wrapped>: no element is smaller than an earlier one. *)
Definition wnlt (a b : wrapped R) : Prop := wlt b a = false.

Lemma winsert_sorted : forall (w : wrapped R) l,
  StronglySorted wnlt l -> StronglySorted wnlt (winsert w l).
Proof.
  induction l; simpl; intros.
  - repeat constructor.
  - inv H. destruct (wlt w a) eqn:E.
    + constructor; [constructor; auto|]. constructor.
      * unfold wnlt. destruct (wlt a w) eqn:E2; auto.
        pose proof (wlt_trans _ _ _ E E2) as K. rewrite wlt_irrefl in K. discriminate.
      * eapply Forall_impl; [|exact H3]. unfold wnlt. intros b Hb.
        destruct (wlt b w) eqn:E2; auto. rewrite (wlt_trans _ _ _ E2 E) in Hb. discriminate.
    + constructor; auto. eapply Permutation_Forall; [apply winsert_perm|].
      constructor; auto.
Qed.

Lemma wsort_sorted : forall l : list (wrapped R), StronglySorted wnlt (wsort l).
Proof.
  intros. unfold wsort.
  assert (H : forall l acc, StronglySorted wnlt acc ->
    StronglySorted wnlt (fold_left (fun acc w => winsert w acc) l acc)).
  { induction l0; simpl; intros; auto. apply IHl0. apply winsert_sorted. auto. }
  apply H. constructor.
Qed.

Lemma sorted_wnlt_wle : forall l : list (wrapped R),
  StronglySorted wnlt l -> StronglySorted wle l.
Proof.
  induction 1; constructor; auto. eapply Forall_impl; [|eauto].
  intros. apply not_wlt_wle. auto.
Qed.

(** Events of the scan: kept records and cancelled neighbours. *)
Inductive crun : list (wrapped R) -> list ev -> Prop :=
| cr_nil : crun [] []
| cr_keep : forall b l evs,
    (forall n l', l = n :: l' -> cancels b n = false) ->
    crun l evs -> crun (b :: l) (EEmit b :: evs)
| cr_cancel : forall b n l evs,
    cancels b n = true -> crun l evs -> crun (b :: n :: l) (ECancel b n :: evs).

Lemma cancel_loop_run : forall fuel l (o : marr R), length l < fuel ->
  exists evs, crun l evs /\
  cancel_loop fuel l o =
    Ok (finish (fold_left (fun x w => sam_act w x) (map mask3 (emits evs)) o)).
Proof.
  induction fuel; intros l o L; [lia|]. destruct l as [|b l]; simpl.
  - exists []. split; [constructor|auto].
  - assert (K : (forall n l', l = n :: l' -> cancels b n = false) ->
      exists evs, crun (b :: l) evs /\
        (if is_del b then cancel_loop fuel l o else cancel_loop fuel l (emit (mask3 b) o)) =
        Ok (finish (fold_left (fun x w => sam_act w x) (map mask3 (emits evs)) o))).
    { intros NC. destruct (is_del b) eqn:D.
      - destruct (IHfuel l o) as (evs & C & E); [simpl in L; lia|].
        exists (EEmit b :: evs). split; [constructor; auto|]. simpl.
        unfold sam_act at 2. rewrite mask3_del, D. auto.
      - destruct (IHfuel l (emit (mask3 b) o)) as (evs & C & E); [simpl in L; lia|].
        exists (EEmit b :: evs). split; [constructor; auto|]. simpl.
        unfold sam_act at 2. rewrite mask3_del, D. auto. }
    destruct l as [|n l].
    + apply K. discriminate.
    + destruct (negb (is_ts b) && req (wrec b) (wrec n) && is_ts n) eqn:CC.
      * destruct (IHfuel l o) as (evs & C & E); [simpl in L; lia|].
        exists (ECancel b n :: evs). split; [constructor; auto|]. auto.
      * apply K. intros n0 l0 E. inv E. auto.
Qed.

Lemma crun_perm : forall l evs, crun l evs ->
  Permutation l (emits evs ++ map fst (cancelled evs) ++ map snd (cancelled evs)).
Proof.
  induction 1; simpl; auto.
  apply Permutation_cons_app. rewrite app_assoc. apply Permutation_cons_app.
  rewrite <- app_assoc. auto.
Qed.

Lemma crun_cancelled : forall l evs, crun l evs ->
  Forall (fun p => cancels (fst p) (snd p) = true) (cancelled evs).
Proof. induction 1; simpl; auto. Qed.

Lemma crun_sorted : forall l evs, crun l evs -> StronglySorted wle l ->
  StronglySorted wle (emits evs).
Proof.
  induction 1; simpl; intros S; auto.
  - inv S. constructor; auto. apply Forall_forall. intros x Hx.
    rewrite Forall_forall in H4. apply H4.
    eapply Permutation_in; [apply Permutation_sym; eapply crun_perm; eauto|].
    apply in_app_iff; auto.
  - inv S. inv H3. auto.
Qed.

Lemma map_mask3_sorted : forall l : list (wrapped R),
  StronglySorted wle l -> StronglySorted wle (map mask3 l).
Proof.
  induction 1; simpl; constructor; auto. apply Forall_map. auto.
Qed.

Lemma filter_map_mask3 : forall l : list (wrapped R),
  filter keep (map mask3 l) = map mask3 (filter keep l).
Proof.
  induction l; simpl; auto. unfold keep in *. rewrite mask3_del.
  destruct (is_del a); simpl; [|f_equal]; auto.
Qed.

(** Specification of [sorted_array_from_view]. *)
Lemma saf_ok : forall d v m, sorted_array_from_view d v = Ok m ->
  exists l evs, v_copy d v = Ok l /\ crun (wsort l) evs /\
    m_data m = map mask3 (filter keep (emits evs)) /\
    m_rec m = length (m_data m) /\ m_ts m = ts_count (m_data m).
Proof.
  unfold sorted_array_from_view. intros. mon H.
  destruct (cancel_loop_run (S (length (wsort a))) (wsort a) (MArr [] 0 0)
             (Nat.lt_succ_diag_r _)) as (evs & C & EQ).
  rewrite EQ in H. inv H. exists a, evs. repeat split; auto;
  destruct (sam_fold (map mask3 (emits evs)) (MArr [] 0 0)) as (H1 & H2 & H3);
  unfold finish; cbn [m_data m_rec m_ts] in *; rewrite app_nil_r in H1;
  rewrite H1, ?H2, ?H3, rev_involutive, ?filter_map_mask3, ?Nat.add_0_r, ?countb_keep_ts,
    ?countb_filter, ?filter_map_mask3; auto.
Qed.

Lemma saf_total : forall d v l, v_copy d v = Ok l ->
  exists m, sorted_array_from_view d v = Ok m.
Proof.
  unfold sorted_array_from_view. intros. rewrite H. simpl.
  destruct (cancel_loop_run (S (length (wsort l))) (wsort l) (MArr [] 0 0)
             (Nat.lt_succ_diag_r _)) as (evs & C & EQ).
  simpl in EQ. rewrite EQ. eauto.
Qed.

(** ** Shards *)

(** Counters agree with the data. *)
Definition shard_ok (s : shard R) : Prop :=
  s_reccnt s = length (s_data s) /\ s_tscnt s = ts_count (s_data s) /\
  StronglySorted wle (s_data s).

Lemma build_cursor_vec_eq : forall ss : list (shard R),
  build_cursor_vec ss =
  (map s_data ss, sum_list (map s_reccnt ss), sum_list (map s_tscnt ss)).
Proof.
  intros. unfold build_cursor_vec.
  assert (H : forall (ss : list (shard R)) cs a b,
    fold_left (fun '(cs, rc, tc) s => (cs ++ [s_data s], rc + s_reccnt s, tc + s_tscnt s))
            ss (cs, a, b) =
    (cs ++ map s_data ss, a + sum_list (map s_reccnt ss), b + sum_list (map s_tscnt ss))).
  { induction ss0; simpl; intros.
    - rewrite app_nil_r, !Nat.add_0_r. auto.
    - rewrite IHss0, <- app_assoc. unfold sum_list. simpl. f_equal; [f_equal|]; lia. }
  apply (H ss [] 0 0).
Qed.

Lemma sfs_ok : forall ss s, shard_from_shards qlt ss = Ok s ->
  Forall (fun x => s_data x <> []) ss /\
  exists evs, mrun (map s_data ss) evs /\ s_data s = filter keep (emits evs) /\
    s_reccnt s = length (s_data s) /\ s_tscnt s = ts_count (s_data s).
Proof.
  unfold shard_from_shards. intros. rewrite build_cursor_vec_eq in H. mon H.
  apply sam_ok in E as (F & evs & M & H1 & H2 & H3).
  destruct (m_rec a <=? sum_list (map s_reccnt ss)); inv H. simpl.
  split; [rewrite Forall_map in F; auto|]. eauto.
Qed.

Lemma emits_len : forall cs evs, mrun cs evs -> length (emits evs) <= length (concat cs).
Proof.
  intros. apply mrun_perm in H. apply Permutation_length in H.
  rewrite !app_length in H. lia.
Qed.

Lemma filter_length_le : forall {B} p (l : list B), length (filter p l) <= length l.
Proof. induction l; simpl; auto. destruct (p a); simpl; lia. Qed.

Lemma sfs_total : forall ss, Forall (fun x => s_data x <> []) ss -> Forall shard_ok ss ->
  exists s, shard_from_shards qlt ss = Ok s.
Proof.
  intros. unfold shard_from_shards. rewrite build_cursor_vec_eq.
  destruct (sam_total (map s_data ss)) as [m Hm]; [apply Forall_map; auto|].
  rewrite Hm. simpl. apply sam_ok in Hm as (_ & evs & M & H1 & H2 & _).
  assert (m_rec m <= sum_list (map s_reccnt ss)).
  { rewrite H2, H1. eapply Nat.le_trans; [apply filter_length_le|].
    eapply Nat.le_trans; [eapply emits_len; eauto|].
    rewrite length_concat_sum, map_map.
    clear -H0. induction H0; simpl; auto. destruct H as [H _].
    unfold sum_list in *. simpl. lia. }
  apply Nat.leb_le in H3. rewrite H3. eauto.
Qed.

Lemma filter_keep_sorted : forall l, StronglySorted wle l -> StronglySorted wle (filter keep l).
Proof. intros. apply StronglySorted_filter. auto. Qed.

Lemma sfs_shard_ok : forall ss s, shard_from_shards qlt ss = Ok s -> Forall shard_ok ss ->
  shard_ok s.
Proof.
  intros. apply sfs_ok in H as (F & evs & M & H1 & H2 & H3).
  repeat split; auto. rewrite H1. apply filter_keep_sorted. eapply mrun_sorted; eauto.
  apply Forall_map. eapply Forall_impl; [|exact H0]. intros x (_ & _ & Hx). auto.
Qed.

Lemma sfv_ok : forall d v s, shard_from_view d v = Ok s ->
  exists l evs, v_copy d v = Ok l /\ crun (wsort l) evs /\
    s_data s = map mask3 (filter keep (emits evs)) /\ shard_ok s.
Proof.
  unfold shard_from_view. intros. mon H. inv H.
  apply saf_ok in E as (l & evs & H1 & H2 & H3 & H4 & H5).
  exists l, evs. repeat split; auto. simpl. rewrite H3.
  apply map_mask3_sorted, filter_keep_sorted. eapply crun_sorted; eauto.
  apply sorted_wnlt_wle, wsort_sorted.
Qed.

Lemma sfv_total : forall d v l, v_copy d v = Ok l -> exists s, shard_from_view (R := R) d v = Ok s.
Proof.
  intros. unfold shard_from_view. destruct (saf_total _ _ _ H) as [m Hm]. rewrite Hm.
  simpl. eauto.
Qed.

End MP.
Arguments ev R : clear implicits.

(** The FIFO scheduler: every task gets started, under fairness. *)
From Coq Require Import List Arith Lia Bool Permutation.
From Verif Require Import SchedModel SchedProofs.
Import ListNotations.

Lemma qact_dec : forall a b : option qact, {a = b} + {a <> b}.
Proof. repeat decide equality. Qed.

(** ** Invariants while nobody shuts the scheduler down *)

Record open s : Prop := {
  o_end : q_end s = SNone;
  o_shut : q_shut s = false;
  o_done : q_done s = false;
  o_wake : q_wake s <> KExit;
  o_pc : q_pc s <> RExit;
  o_work : forall w, In w (q_work s) -> w <> WGone;
  o_push : q_pc s = RPush -> q_tasks s <> []
}.

Lemma open_init : forall k, open (sched_init k).
Proof. intro k. constructor; cbn; try congruence. intros w W. apply repeat_spec in W. congruence. Qed.

Lemma open_step : forall s x s', open s -> x <> QEnd -> qexec s x = Some s' -> open s'.
Proof.
  intros s x s' [EN SH DO WK PC WO PU] X E. destruct x; cbn in E; [| | | |congruence|].
  - destruct (q_pc s) eqn:P; cbn in E; inversion E; subst; constructor; cbn; auto; try congruence;
      destruct (q_tasks s); cbn; congruence.
  - unfold sched_step in E. destruct (q_pc s) eqn:P; inversion E; subst; try (constructor; cbn; auto; congruence).
    + destruct (q_tasks s) eqn:QT; [|destruct (0 <? n_idle (q_work s))]; constructor; cbn; rewrite ?QT; auto; intros; congruence.
    + destruct (q_tasks s); inversion E; subst. constructor; cbn; auto; congruence.
    + constructor; cbn; rewrite ?SH; auto; congruence.
  - unfold wake_step in E. destruct (q_wake s); inversion E; subst; constructor; cbn; rewrite ?SH; auto; try congruence;
      destruct (q_pc s); cbn; auto; congruence.
  - unfold worker_step in E. destruct (nth_error (q_work s) w) as [[]|] eqn:NW; try discriminate.
    + destruct (q_pool s); [rewrite DO in E; discriminate|]. inversion E; subst; constructor; cbn; auto.
      intros y Y. apply in_put in Y as [->|Y]; [discriminate|auto].
    + inversion E; subst; constructor; cbn; auto. intros y Y. apply in_put in Y as [->|Y]; [discriminate|auto].
    + destruct (q_pool s); inversion E; subst; constructor; cbn; auto; intros y Y; apply in_put in Y as [->|Y]; auto; discriminate.
  - destruct (q_pc s) eqn:P; inversion E; subst; constructor; cbn; auto; congruence.
Qed.

(** ** Executions *)

Lemma good_reach : forall k s x i, good k s x -> qreach (sched_init k) (s i).
Proof.
  intros k s x i G. induction i; [rewrite (g_init _ _ _ G); constructor|].
  pose proof (g_exec _ _ _ G i) as E. destruct (x i); [econstructor; eauto|rewrite E; auto].
Qed.

Lemma good_open : forall k s x i, good k s x -> open (s i).
Proof.
  intros k s x i G. induction i; [rewrite (g_init _ _ _ G); apply open_init|].
  pose proof (g_exec _ _ _ G i) as E. destruct (x i) eqn:X; [|rewrite E; auto].
  eapply open_step; eauto. intros ->. apply (g_open _ _ _ G i X).
Qed.

Lemma good_ne : forall k s x i a, good k s x -> x i = Some a -> a <> QEnd.
Proof. intros k s x i a G X ->. apply (g_open _ _ _ G i X). Qed.

Lemma until : forall (s : nat -> sched) (x : nat -> option qact) a (Q : sched -> Prop) i j,
  (forall l, i <= l -> Q (s l) -> x l <> Some a -> Q (s (S l))) -> Q (s i) -> i <= j -> x j = Some a ->
  exists m, i <= m <= j /\ x m = Some a /\ Q (s m).
Proof.
  intros s x a Q i j H Qi L X. remember (j - i) as d eqn:D. revert i H Qi L D.
  induction d as [|d IH]; intros i H Qi L D.
  - exists i. replace i with j in * by lia. auto.
  - destruct (qact_dec (x i) (Some a)) as [Y|N]; [exists i; split; auto; lia|].
    destruct (IH (S i)) as (m & M & R); auto; try lia.
    + intros l L'. apply H. lia.
    + exists m. split; auto. lia.
Qed.

(** The dispatcher's position changes by its own steps only, unless it waits. *)
Lemma pc_same : forall s x s', qexec s x = Some s' -> x <> QSched -> q_pc s <> RWait -> q_pc s' = q_pc s.
Proof.
  intros s x s' E X W. destruct x; cbn in E; try congruence.
  - destruct (locked (q_pc s)); inversion E; subst; cbn. destruct (q_pc s); auto; congruence.
  - unfold wake_step in E. destruct (q_wake s); inversion E; subst; cbn; auto. destruct (q_pc s); auto; congruence.
  - unfold worker_step in E. destruct (nth_error (q_work s) w) as [[]|]; try discriminate.
    + destruct (q_pool s); [destruct (q_done s)|]; inversion E; auto.
    + inversion E; auto.
    + destruct (q_pool s); inversion E; auto.
  - unfold end_step in E. destruct (q_end s); try (inversion E; auto; fail).
    + destruct (forallb gone (q_work s)); inversion E; auto.
    + inversion E; subst; cbn. destruct (q_pc s); auto; congruence.
    + destruct (q_pc s) eqn:PC; inversion E; auto.
    + destruct (q_wake s); inversion E; auto.
  - destruct (q_pc s); inversion E; congruence.
Qed.

Lemma pc_wait : forall s x s', qexec s x = Some s' -> q_pc s = RWait -> q_pc s' = RWait \/ q_pc s' = RWoken.
Proof.
  intros s x s' E W. destruct x; cbn in E; unfold sched_step in E; rewrite ?W in E; cbn in E.
  - inversion E; auto.
  - discriminate.
  - unfold wake_step in E. rewrite W in E. destruct (q_wake s); inversion E; auto.
  - unfold worker_step in E. destruct (nth_error (q_work s) w) as [[]|]; try discriminate.
    + destruct (q_pool s); [destruct (q_done s)|]; inversion E; auto.
    + inversion E; auto.
    + destruct (q_pool s); inversion E; auto.
  - unfold end_step in E. rewrite W in E. destruct (q_end s); try (inversion E; auto; fail).
    + destruct (forallb gone (q_work s)); inversion E; auto.
    + destruct (q_wake s); inversion E; auto.
  - inversion E; auto.
Qed.

Lemma wake_same : forall s x s', qexec s x = Some s' -> x <> QWake -> q_wake s' = q_wake s.
Proof.
  intros s x s' E X. destruct x; cbn in E; try congruence.
  - destruct (locked (q_pc s)); inversion E; auto.
  - unfold sched_step in E. destruct (q_pc s); inversion E; auto. destruct (q_tasks s); inversion E; auto.
  - unfold worker_step in E. destruct (nth_error (q_work s) w) as [[]|]; try discriminate.
    + destruct (q_pool s); [destruct (q_done s)|]; inversion E; auto.
    + inversion E; auto.
    + destruct (q_pool s); inversion E; auto.
  - unfold end_step in E. destruct (q_end s); try (inversion E; auto; fail).
    + destruct (forallb gone (q_work s)); inversion E; auto.
    + destruct (q_pc s); inversion E; auto.
    + destruct (q_wake s) eqn:WK; inversion E; auto.
  - destruct (q_pc s); inversion E; auto.
Qed.

(** ** The dispatcher keeps coming back to its loop *)

Lemma at_wake : forall k s x i q, good k s x -> q_wake (s i) = q -> q <> KExit ->
  exists j, i <= j /\ x j = Some QWake /\ q_wake (s j) = q.
Proof.
  intros k s x i q G W N. destruct (g_fair _ _ _ G) as (F & _ & _). destruct (F i) as (j & L & X); [congruence|].
  destruct (until s x QWake (fun s => q_wake s = q) i j) as (m & M & Y & Q); auto.
  - intros l _ Ql NX. pose proof (g_exec _ _ _ G l) as E. destruct (x l) as [a|] eqn:XL; [|rewrite E; auto].
    rewrite (wake_same _ _ _ E); auto. congruence.
  - exists m. split; auto. lia.
Qed.

Lemma not_waiting : forall k s x i, good k s x -> exists j, i <= j /\ q_pc (s j) <> RWait.
Proof.
  intros k s x i G.
  assert (N : forall i, q_wake (s i) = KNotify -> exists j, i <= j /\ q_pc (s j) <> RWait).
  { intros i0 W. destruct (at_wake k s x i0 KNotify G W) as (j & L & X & Q); [discriminate|].
    exists (S j). split; [lia|]. pose proof (g_exec _ _ _ G j) as E. rewrite X in E. cbn in E. unfold wake_step in E.
    rewrite Q in E. inversion E; cbn. destruct (q_pc (s j)); discriminate. }
  destruct (q_wake (s i)) eqn:W; auto.
  - destruct (at_wake k s x i KChk G W) as (j & L & X & Q); [discriminate|].
    destruct (N (S j)) as (m & M & P); [|exists m; split; auto; lia].
    pose proof (g_exec _ _ _ G j) as E. rewrite X in E. cbn in E. unfold wake_step in E. rewrite Q in E. inversion E; cbn.
    rewrite (o_shut _ (good_open _ _ _ j G)). auto.
  - destruct (o_wake _ (good_open _ _ _ i G)). auto.
Qed.

Lemma woken : forall k s x i, good k s x -> q_pc (s i) = RWait -> exists j, i <= j /\ q_pc (s j) = RWoken.
Proof.
  intros k s x i G W. destruct (not_waiting k s x i G) as (j & L & N).
  remember (j - i) as d eqn:D. revert i W L D. induction d as [|d IH]; intros i W L D.
  - replace i with j in W by lia. congruence.
  - pose proof (g_exec _ _ _ G i) as E. destruct (x i) as [a|].
    + destruct (pc_wait _ _ _ E W) as [V|V]; [|exists (S i); auto].
      destruct (IH (S i)) as (m & M & P); auto; try lia. exists m. split; auto. lia.
    + destruct (IH (S i)) as (m & M & P); try lia; [rewrite E; auto|]. exists m. split; auto. lia.
Qed.

Lemma at_pc : forall k s x i p, good k s x -> q_pc (s i) = p -> p <> RWait -> p <> RExit ->
  exists j, i <= j /\ x j = Some QSched /\ q_pc (s j) = p.
Proof.
  intros k s x i p G P N1 N2. destruct (g_fair _ _ _ G) as (_ & F & _). destruct (F i) as (j & L & X); try congruence.
  destruct (until s x QSched (fun s => q_pc s = p) i j) as (m & M & Y & Q); auto.
  - intros l _ Ql NX. pose proof (g_exec _ _ _ G l) as E. destruct (x l) as [a|] eqn:XL; [|rewrite E; auto].
    rewrite (pc_same _ _ _ E); auto; congruence.
  - exists m. split; auto. lia.
Qed.

Lemma at_loop : forall k s x i, good k s x -> exists j, i <= j /\ x j = Some QSched /\ q_pc (s j) = RLoop.
Proof.
  intros k s x i G.
  assert (A : forall i, q_pc (s i) = RLoop -> exists j, i <= j /\ x j = Some QSched /\ q_pc (s j) = RLoop).
  { intros i0 P. apply (at_pc k s x i0 RLoop G P); discriminate. }
  assert (STEP : forall i p (C : Prop), q_pc (s i) = p -> p <> RWait -> p <> RExit ->
    (forall j, i <= j -> sched_step (s j) = Some (s (S j)) -> q_pc (s j) = p -> C) -> C).
  { intros i0 p C P N1 N2 H. destruct (at_pc k s x i0 p G P N1 N2) as (j & L & X & Q).
    pose proof (g_exec _ _ _ G j) as E. rewrite X in E. eauto. }
  assert (B : forall i, q_pc (s i) = RWoken -> exists j, i <= j /\ x j = Some QSched /\ q_pc (s j) = RLoop).
  { intros i0 P. apply (STEP i0 RWoken); auto; try discriminate. intros j L E Q. unfold sched_step in E. rewrite Q in E.
    destruct (A (S j)) as (m & M & R); [inversion E; auto|]. exists m. split; auto. lia. }
  assert (C : forall i, q_pc (s i) = RWait -> exists j, i <= j /\ x j = Some QSched /\ q_pc (s j) = RLoop).
  { intros i0 P. destruct (woken k s x i0 G P) as (j & L & Q). destruct (B j Q) as (m & M & R). exists m. split; auto. lia. }
  assert (D : forall i, q_pc (s i) = RTop -> exists j, i <= j /\ x j = Some QSched /\ q_pc (s j) = RLoop).
  { intros i0 P. apply (STEP i0 RTop); auto; try discriminate. intros j L E Q. unfold sched_step in E. rewrite Q in E.
    destruct (C (S j)) as (m & M & R); [inversion E; auto|]. exists m. split; auto. lia. }
  destruct (q_pc (s i)) eqn:P; auto.
  - apply (STEP i RPush); auto; try discriminate. intros j L E Q. unfold sched_step in E. rewrite Q in E.
    destruct (A (S j)) as (m & M & R); [destruct (q_tasks (s j)); inversion E; auto|]. exists m. split; auto. lia.
  - apply (STEP i RChk); auto; try discriminate. intros j L E Q. unfold sched_step in E. rewrite Q in E.
    rewrite (o_shut _ (good_open _ _ _ j G)) in E.
    destruct (D (S j)) as (m & M & R); [inversion E; auto|]. exists m. split; auto. lia.
  - destruct (o_pc _ (good_open _ _ _ i G)). auto.
Qed.

(** ** The work left in the pool *)

Definition weight (w : worker) : nat := match w with WBusy _ => 2 | WLook => 1 | _ => 0 end.
Definition load s : nat := 3 * length (q_pool s) + list_sum (map weight (q_work s)).

Lemma sum_put : forall l n w v, nth_error l n = Some v ->
  list_sum (map weight (put n w l)) + weight v = list_sum (map weight l) + weight w.
Proof.
  unfold list_sum. induction l as [|a l IH]; intros [|n] w v N; cbn in *; try discriminate.
  - inversion N; subst. lia.
  - specialize (IH _ w _ N). lia.
Qed.

(** A step hands a task to the pool, or leaves the pool alone, or reduces its load. *)
Lemma load_step : forall s x s', open s -> x <> QEnd -> qexec s x = Some s' ->
  length (q_disp s') > length (q_disp s) \/
  q_disp s' = q_disp s /\ (exists l, q_tasks s' = q_tasks s ++ l) /\
  (q_pool s' = q_pool s /\ q_work s' = q_work s /\ (forall w, x <> QWorker w) \/ load s' < load s).
Proof.
  intros s x s' O X E. assert (NIL : exists l, q_tasks s = q_tasks s ++ l) by (exists []; rewrite app_nil_r; auto).
  destruct x; cbn in E; [| | | |congruence|].
  - right. destruct (locked (q_pc s)); inversion E; subst; cbn. split; auto. split; eauto. left. repeat split; congruence.
  - unfold sched_step in E.
    destruct (q_pc s); inversion E; subst; try (right; cbn; split; auto; split; auto; left; repeat split; congruence).
    destruct (q_tasks s); inversion E; subst; cbn. left. rewrite app_length. cbn. lia.
  - right. unfold wake_step in E. destruct (q_wake s); inversion E; subst; cbn; split; auto; split; auto; left; repeat split; congruence.
  - right. unfold worker_step in E. destruct (nth_error (q_work s) w) as [[]|] eqn:NW; try discriminate.
    + destruct (q_pool s) as [|t l] eqn:PL; [rewrite (o_done _ O) in E; discriminate|]. inversion E; subst; cbn [q_disp q_tasks set_work].
      split; auto. split; auto. right. unfold load. cbn [q_pool q_work set_work]. rewrite PL.
      pose proof (sum_put _ _ (WBusy t) _ NW). cbn [weight length] in *. lia.
    + inversion E; subst; cbn [q_disp q_tasks set_work]. split; auto. split; auto. right. unfold load. cbn [q_pool q_work set_work].
      pose proof (sum_put _ _ WLook _ NW). cbn [weight length] in *. lia.
    + destruct (q_pool s) as [|t l] eqn:PL; inversion E; subst; cbn [q_disp q_tasks set_work]; (split; [auto|]); (split; [auto|]); right; unfold load;
        cbn [q_pool q_work set_work]; rewrite PL; [pose proof (sum_put _ _ WIdle _ NW)|pose proof (sum_put _ _ (WBusy t) _ NW)]; cbn [weight length] in *; lia.
  - right. destruct (q_pc s); inversion E; subst; cbn [q_disp q_tasks set_work]. split; auto. split; auto. left. repeat split; congruence.
Qed.

Lemma disp_mono : forall k s x i j, good k s x -> i <= j -> length (q_disp (s i)) <= length (q_disp (s j)).
Proof.
  intros k s x i j G L. induction L as [|j L IH]; auto. pose proof (g_exec _ _ _ G j) as E.
  destruct (x j) as [a|] eqn:X; [|rewrite E; auto].
  destruct (load_step _ _ _ (good_open _ _ _ j G) (good_ne _ _ _ _ _ G X) E) as [H|(H & _)]; [lia|rewrite H; auto].
Qed.

Lemma load_run : forall k s x i j, good k s x -> i <= j ->
  length (q_disp (s j)) > length (q_disp (s i)) \/
  q_disp (s j) = q_disp (s i) /\ (exists l, q_tasks (s j) = q_tasks (s i) ++ l) /\
  (q_pool (s j) = q_pool (s i) /\ q_work (s j) = q_work (s i) \/ load (s j) < load (s i)).
Proof.
  intros k s x i j G L. induction L as [|j L IH].
  - right. split; auto. split; [exists []; rewrite app_nil_r; auto|auto].
  - pose proof (g_exec _ _ _ G j) as E. destruct (x j) as [a|] eqn:X; [|rewrite E; auto].
    destruct (load_step _ _ _ (good_open _ _ _ j G) (good_ne _ _ _ _ _ G X) E) as [H|(H & (l & T) & H2)].
    + left. pose proof (disp_mono k s x i j G L). lia.
    + destruct IH as [I|(I1 & (l' & I2) & I3)]; [left; rewrite H; auto|]. right. split; [congruence|].
      split; [exists (l' ++ l); rewrite T, I2, app_assoc; auto|].
      destruct H2 as [(A & B & _)|A], I3 as [(C & D)|C]; try (right; lia).
      * left. split; congruence.
      * right. unfold load in *. rewrite A, B. auto.
      * right. unfold load in *. rewrite C, D in A. auto.
Qed.

Lemma able_worker : forall s, open s -> 0 < length (q_work s) -> 0 < load s -> exists w, able s w.
Proof.
  intros s O K L. unfold able, worker_step, load in *. destruct (q_pool s) as [|t l] eqn:PL.
  - cbn in L.
    assert (H : forall l, 0 < list_sum (map weight l) -> exists w a, nth_error l w = Some a /\ 0 < weight a).
    { unfold list_sum. induction l as [|a l IH]; cbn; [lia|]. intro H. destruct (weight a) eqn:W.
      - destruct IH as (w & b & N & Q); auto. exists (S w), b. auto.
      - exists 0, a. split; auto. lia. }
    destruct (H _ L) as (w & a & N & W). exists w. rewrite N. destruct a; cbn in W; try lia; discriminate.
  - exists 0. destruct (q_work s) as [|a r] eqn:Q; [cbn in K; lia|]. cbn.
    pose proof (o_work _ O a) as NG. rewrite Q in NG. specialize (NG (or_introl eq_refl)). destruct a; congruence.
Qed.

Lemma unload : forall k s x i, good k s x ->
  exists j, i <= j /\ (length (q_disp (s j)) > length (q_disp (s i)) \/
                       q_disp (s j) = q_disp (s i) /\ (exists l, q_tasks (s j) = q_tasks (s i) ++ l) /\ load (s j) = 0).
Proof.
  intros k s x i G. remember (load (s i)) as m eqn:M. revert i M. induction m as [m IH] using lt_wf_ind. intros i M.
  assert (NEXT : forall j, i <= j -> load (s j) < load (s i) -> exists j, i <= j /\
    (length (q_disp (s j)) > length (q_disp (s i)) \/
     q_disp (s j) = q_disp (s i) /\ (exists l, q_tasks (s j) = q_tasks (s i) ++ l) /\ load (s j) = 0)).
  { intros j L H. destruct (IH (load (s j))) with (i := j) as (j' & L' & R); [lia|auto|]. exists j'. split; [lia|].
    pose proof (disp_mono k s x i j G L). destruct R as [R|(R1 & (l & R2) & R3)]; [left; lia|].
    destruct (load_run k s x i j G L) as [A|(A1 & (l' & A2) & _)]; [left; rewrite R1; auto|].
    right. split; [congruence|]. split; auto. exists (l' ++ l). rewrite R2, A2, app_assoc. auto. }
  destruct (Nat.eq_dec (load (s i)) 0) as [Z|NZ].
  - exists i. split; auto. right. split; auto. split; auto. exists []. rewrite app_nil_r. auto.
  - destruct (able_worker (s i)) as (w & A); [eapply good_open; eauto| |lia|].
    + erewrite reach_length by (eapply good_reach; eauto). apply (g_pos _ _ _ G).
    + destruct (g_fair _ _ _ G) as (_ & _ & F). destruct (F i w A) as (j & L & H).
      destruct (load_run k s x i j G L) as [R|(R1 & (l & R2) & [(R3 & R4)|R3])]; [exists j; auto| |apply (NEXT j); auto].
      destruct H as [H|H].
      * pose proof (g_exec _ _ _ G j) as E. rewrite H in E.
        destruct (load_step _ _ _ (good_open _ _ _ j G) (good_ne _ _ _ _ _ G H) E) as [S1|(S1 & _ & [(_ & _ & S2)|S2])].
        -- exists (S j). split; [lia|]. left. rewrite R1 in S1. auto.
        -- destruct (S2 w). auto.
        -- apply (NEXT (S j)); [lia|]. unfold load in *. rewrite R3, R4 in S2. auto.
      * destruct H. unfold able, worker_step in *. rewrite R3, R4.
        pose proof (o_done _ (good_open _ _ _ i G)) as D1. pose proof (o_done _ (good_open _ _ _ j G)) as D2.
        rewrite D1 in A. rewrite D2. destruct (nth_error (q_work (s i)) w) as [[]|]; auto; destruct (q_pool (s i)); auto; discriminate.
Qed.

Lemma empty_idle : forall s, open s -> 0 < length (q_work s) -> load s = 0 -> q_pool s = [] /\ 0 < n_idle (q_work s).
Proof.
  intros s O K L. unfold load in L. destruct (q_pool s) as [|t l]; [|cbn in L; lia]. split; auto.
  unfold n_idle. pose proof (o_work _ O) as NG. destruct (q_work s) as [|a r]; [cbn in K; lia|].
  specialize (NG a (or_introl eq_refl)). unfold list_sum in L. cbn in L. destruct a; cbn in *; try lia. congruence.
Qed.

(** A queued task makes the dispatcher hand one to the pool. *)
Lemma dispatches : forall k s x i, good k s x -> q_tasks (s i) <> [] ->
  exists j, i <= j /\ length (q_disp (s j)) > length (q_disp (s i)).
Proof.
  intros k s x i G T. destruct (unload k s x i G) as (i0 & L0 & [H|(H1 & (l & H2) & H3)]); [eauto|].
  assert (T0 : q_tasks (s i0) <> []) by (rewrite H2; destruct (q_tasks (s i)); cbn; congruence).
  destruct (at_loop k s x i0 G) as (j & L & X & P).
  destruct (load_run k s x i0 j G L) as [R|(R1 & (l' & R2) & R3)]; [exists j; split; [lia|rewrite <- H1; auto]|].
  assert (LJ : load (s j) = 0) by (unfold load in *; destruct R3 as [(A & B)|A]; [rewrite A, B; auto|lia]).
  assert (W : length (q_work (s j)) = k) by (apply reach_length; eapply good_reach; eauto).
  destruct (empty_idle (s j)) as [_ N]; [eapply good_open; eauto|rewrite W; apply (g_pos _ _ _ G)|auto|].
  pose proof (g_exec _ _ _ G j) as E. rewrite X in E. cbn in E. unfold sched_step in E. rewrite P in E.
  assert (PU : q_pc (s (S j)) = RPush).
  { inversion E; cbn. rewrite R2. destruct (q_tasks (s i0)); [congruence|]. cbn. destruct (n_idle (q_work (s j))); auto. lia. }
  destruct (at_pc k s x (S j) RPush G PU) as (m & LM & XM & PM); try discriminate.
  exists (S m). split; [lia|]. pose proof (disp_mono k s x i m G ltac:(lia)) as DM.
  pose proof (g_exec _ _ _ G m) as EM. rewrite XM in EM. cbn in EM. unfold sched_step in EM. rewrite PM in EM.
  destruct (q_tasks (s m)); inversion EM; cbn. rewrite app_length. cbn. lia.
Qed.

(** Submissions are never undone. *)
Lemma cnt_mono : forall k s x i j, good k s x -> i <= j -> q_cnt (s i) <= q_cnt (s j).
Proof.
  intros k s x i j G L. induction L as [|j L IH]; auto. pose proof (g_exec _ _ _ G j) as E.
  destruct (x j) as [a|]; [|rewrite E; auto]. etransitivity; [exact IH|]. clear IH. destruct a; cbn in E.
  - destruct (locked (q_pc (s j))); inversion E; cbn. lia.
  - unfold sched_step in E. destruct (q_pc (s j)); inversion E; auto. destruct (q_tasks (s j)); inversion E; auto.
  - unfold wake_step in E. destruct (q_wake (s j)); inversion E; auto.
  - unfold worker_step in E. destruct (nth_error (q_work (s j)) w) as [[]|]; try discriminate.
    + destruct (q_pool (s j)); [destruct (q_done (s j))|]; inversion E; auto.
    + inversion E; auto.
    + destruct (q_pool (s j)); inversion E; auto.
  - unfold end_step in E. destruct (q_end (s j)); try (inversion E; auto; fail).
    + destruct (forallb gone (q_work (s j))); inversion E; auto.
    + destruct (q_pc (s j)); inversion E; auto.
    + destruct (q_wake (s j)); inversion E; auto.
  - destruct (q_pc (s j)); inversion E; auto.
Qed.

Lemma dispatched : forall k s x i t, good k s x -> t < q_cnt (s i) -> exists j, i <= j /\ t < length (q_disp (s j)).
Proof.
  intros k s x i t G T. remember (S t - length (q_disp (s i))) as d eqn:D. revert i T D.
  induction d as [d IH] using lt_wf_ind. intros i T D.
  destruct (le_lt_dec (S t) (length (q_disp (s i)))) as [L|L]; [exists i; split; auto; lia|].
  destruct (dispatches k s x i G) as (j & LJ & H).
  - intro Z. pose proof (f_perm _ (finv_reach _ _ (good_reach k s x i G))) as P. apply Permutation_length in P.
    rewrite Z, app_nil_r, seq_length in P. lia.
  - destruct (IH (S t - length (q_disp (s j)))) with (i := j) as (m & M & R); [lia| |auto|exists m; split; auto; lia].
    pose proof (cnt_mono k s x i j G LJ). lia.
Qed.

(** ** A task in the pool gets started *)

Lemma start_step : forall s x s' a, open s -> x <> QEnd -> qexec s x = Some s' -> q_pool s <> [] ->
  nth_error (q_work s) 0 = Some a ->
  length (q_start s') > length (q_start s) \/
  q_start s' = q_start s /\ q_pool s' <> [] /\
  (nth_error (q_work s') 0 = Some a /\ x <> QWorker 0 \/ weight a = 2 /\ nth_error (q_work s') 0 = Some WLook).
Proof.
  intros s x s' a O X E P W. destruct x; cbn in E; [| | | |congruence|].
  - right. destruct (locked (q_pc s)); inversion E; subst; cbn. repeat split; auto. left. split; auto. discriminate.
  - right. unfold sched_step in E. destruct (q_pc s); inversion E; subst; cbn; try (repeat split; auto; left; split; auto; discriminate).
    destruct (q_tasks s); inversion E; subst; cbn. repeat split; auto; [destruct (q_pool s); discriminate|]. left. split; auto. discriminate.
  - right. unfold wake_step in E. destruct (q_wake s); inversion E; subst; cbn; repeat split; auto; left; split; auto; discriminate.
  - unfold worker_step in E. destruct (nth_error (q_work s) w) as [[]|] eqn:NW; try discriminate.
    + destruct (q_pool s); [congruence|]. inversion E; subst; cbn. left. rewrite app_length. cbn. lia.
    + right. inversion E; subst; cbn. repeat split; auto. destruct (Nat.eq_dec w 0) as [->|N].
      * right. rewrite NW in W. inversion W; subst. split; auto. exact (put_same _ _ WLook _ NW).
      * left. change (nth_error (put w WLook (q_work s)) 0 = Some a /\ QWorker w <> QWorker 0).
        rewrite put_other by auto. split; auto. congruence.
    + destruct (q_pool s); [congruence|]. inversion E; subst; cbn. left. rewrite app_length. cbn. lia.
  - right. destruct (q_pc s); inversion E; subst; cbn. repeat split; auto. left. split; auto. discriminate.
Qed.

Lemma start_mono_step : forall s x s', qexec s x = Some s' -> length (q_start s) <= length (q_start s').
Proof.
  intros s x s' E. destruct x; cbn in E.
  - destruct (locked (q_pc s)); inversion E; auto.
  - unfold sched_step in E. destruct (q_pc s); inversion E; auto. destruct (q_tasks s); inversion E; auto.
  - unfold wake_step in E. destruct (q_wake s); inversion E; auto.
  - unfold worker_step in E. destruct (nth_error (q_work s) w) as [[]|]; try discriminate.
    + destruct (q_pool s); [destruct (q_done s)|]; inversion E; cbn; rewrite ?app_length; lia.
    + inversion E; auto.
    + destruct (q_pool s); inversion E; cbn; rewrite ?app_length; lia.
  - unfold end_step in E. destruct (q_end s); try (inversion E; auto; fail).
    + destruct (forallb gone (q_work s)); inversion E; auto.
    + destruct (q_pc s); inversion E; auto.
    + destruct (q_wake s); inversion E; auto.
  - destruct (q_pc s); inversion E; auto.
Qed.

Lemma start_mono : forall k s x i j, good k s x -> i <= j -> length (q_start (s i)) <= length (q_start (s j)).
Proof.
  intros k s x i j G L. induction L as [|j L IH]; auto. pose proof (g_exec _ _ _ G j) as E.
  destruct (x j); [|rewrite E; auto]. pose proof (start_mono_step _ _ _ E). lia.
Qed.

Lemma start_run : forall k s x i j a, good k s x -> q_pool (s i) <> [] -> nth_error (q_work (s i)) 0 = Some a -> i <= j ->
  length (q_start (s j)) > length (q_start (s i)) \/
  q_start (s j) = q_start (s i) /\ q_pool (s j) <> [] /\
  (nth_error (q_work (s j)) 0 = Some a \/ weight a = 2 /\ nth_error (q_work (s j)) 0 = Some WLook).
Proof.
  intros k s x i j a G P W L. induction L as [|j L IH]; auto.
  pose proof (g_exec _ _ _ G j) as E. destruct (x j) as [b|] eqn:X; [|rewrite E; auto].
  assert (NE : b <> QEnd) by (intros ->; apply (g_open _ _ _ G j X)).
  pose proof (start_mono_step _ _ _ E) as M.
  destruct IH as [I|(I1 & I2 & I3)]; [left; lia|].
  destruct I3 as [I3|(I3 & I4)].
  - destruct (start_step _ _ _ _ (good_open _ _ _ j G) NE E I2 I3) as [S1|(S1 & S2 & [(S3 & _)|S3])]; [left; rewrite <- I1; auto| |].
    + right. repeat split; auto. congruence.
    + right. repeat split; auto. congruence.
  - destruct (start_step _ _ _ _ (good_open _ _ _ j G) NE E I2 I4) as [S1|(S1 & S2 & [(S3 & _)|(S3 & _)])]; [left; rewrite <- I1; auto| |discriminate].
    right. repeat split; auto. congruence.
Qed.

Lemma starts : forall k s x i, good k s x -> q_pool (s i) <> [] ->
  exists j, i <= j /\ length (q_start (s j)) > length (q_start (s i)).
Proof.
  intros k s x i G P.
  assert (WK : forall i, exists a, nth_error (q_work (s i)) 0 = Some a /\ a <> WGone).
  { intro i0. pose proof (reach_length _ _ (good_reach k s x i0 G)) as LN. pose proof (g_pos _ _ _ G).
    pose proof (o_work _ (good_open _ _ _ i0 G)) as NG.
    destruct (q_work (s i0)) as [|a l]; [cbn in LN; lia|]. exists a. split; auto. apply NG. cbn. auto. }
  assert (ONCE : forall i a, q_pool (s i) <> [] -> nth_error (q_work (s i)) 0 = Some a -> exists j, i <= j /\
    (length (q_start (s j)) > length (q_start (s i)) \/
     q_start (s j) = q_start (s i) /\ q_pool (s j) <> [] /\ weight a = 2 /\ nth_error (q_work (s j)) 0 = Some WLook)).
  { intros i0 a P0 W0. destruct (WK i0) as (a' & W' & NG). rewrite W0 in W'. inversion W'; subst a'.
    destruct (g_fair _ _ _ G) as (_ & _ & F). destruct (F i0 0) as (j & L & H).
    - unfold able, worker_step. rewrite W0. destruct (q_pool (s i0)); [congruence|]. destruct a; congruence.
    - destruct (start_run k s x i0 j a G P0 W0 L) as [R|(R1 & R2 & R3)]; [eauto|].
      destruct R3 as [R3|(R3 & R4)]; [|exists j; split; auto; right; auto].
      destruct H as [H|H].
      + pose proof (g_exec _ _ _ G j) as E. rewrite H in E.
        destruct (start_step _ _ _ _ (good_open _ _ _ j G) (good_ne _ _ _ _ _ G H) E R2 R3) as [S1|(S1 & S2 & [(_ & S3)|(S3 & S4)])]; try congruence.
        * exists (S j). split; [lia|]. left. rewrite <- R1. auto.
        * exists (S j). split; [lia|]. right. repeat split; auto. congruence.
      + destruct H. unfold able, worker_step. rewrite R3. destruct (q_pool (s j)); [congruence|]. destruct a; congruence. }
  destruct (WK i) as (a & W & _). destruct (ONCE i a P W) as (j & L & [H|(H1 & H2 & _ & H4)]); [eauto|].
  destruct (ONCE j WLook H2 H4) as (m & M & [R|(_ & _ & R & _)]); [|discriminate].
  exists m. split; [lia|]. rewrite <- H1. auto.
Qed.

Lemma start_length : forall k s x i t, good k s x -> t < length (q_disp (s i)) -> exists j, i <= j /\ t < length (q_start (s j)).
Proof.
  intros k s x i t G T. remember (S t - length (q_start (s i))) as d eqn:D. revert i T D.
  induction d as [d IH] using lt_wf_ind. intros i T D.
  destruct (le_lt_dec (S t) (length (q_start (s i)))) as [L|L]; [exists i; split; auto; lia|].
  destruct (starts k s x i G) as (j & LJ & H).
  - destruct (f_start _ (finv_reach _ _ (good_reach k s x i G))) as (l & S1 & S2). rewrite S2 in S1.
    + intro Z. rewrite Z, app_nil_r in S1. rewrite S1 in T. lia.
    + rewrite (o_end _ (good_open _ _ _ i G)). auto.
  - destruct (IH (S t - length (q_start (s j)))) with (i := j) as (m & M & R); [lia| |auto|exists m; split; auto; lia].
    pose proof (disp_mono k s x i j G LJ). lia.
Qed.

(** C24 *)
Theorem every_task_starts : forall k s x i t, good k s x -> t < q_cnt (s i) -> exists j, i <= j /\ In t (q_start (s j)).
Proof.
  intros k s x i t G T. destruct (dispatched k s x i t G T) as (j & L & H).
  destruct (start_length k s x j t G H) as (m & M & R). exists m. split; [lia|].
  pose proof (finv_reach _ _ (good_reach k s x m G)) as [_ D (l & S1 & _) _].
  assert (N : nth_error (q_disp (s m)) t = Some t).
  { rewrite D. rewrite S1, app_length. rewrite seq_app. rewrite nth_error_app1 by (rewrite seq_length; lia).
    rewrite nth_error_nth' with (d := 0) by (rewrite seq_length; lia). rewrite seq_nth by lia. auto. }
  rewrite S1, nth_error_app1 in N by lia. eapply nth_error_In; eauto.
Qed.

(** ** Fair runs exist *)

Lemma turns_exec : forall k, execution (turns k) (fun i => turn k (turns k i) i).
Proof.
  intros k i. cbn [turns]. unfold turn. set (a := match i mod (3 + k) with 0 => QWake | _ => _ end).
  destruct (qexec (turns k i) a) as [s'|] eqn:E; rewrite ?E; auto.
Qed.

Lemma turn_cases : forall k s i a, turn k s i = Some a -> a <> QEnd /\ exists s', qexec s a = Some s'.
Proof.
  intros k s i a T. unfold turn in T. destruct (i mod (3 + k)) as [|[|[|w]]];
    destruct (qexec s _) as [s'|] eqn:E; inversion T; subst; split; try discriminate; eauto.
Qed.

Lemma turns_open : forall k i, open (turns k i).
Proof.
  intros k i. induction i as [|i IH]; [apply open_init|]. pose proof (turns_exec k i) as E. cbv beta in E.
  destruct (turn k (turns k i) i) as [a|] eqn:T; [|rewrite E; auto].
  destruct (turn_cases _ _ _ _ T) as [N _]. eapply open_step; eauto.
Qed.

Lemma slot : forall n i r, r < n -> exists j, i <= j /\ j mod n = r.
Proof.
  intros n i r L. exists (r + i * n). split; [nia|]. rewrite Nat.mod_add by lia. apply Nat.mod_small. auto.
Qed.

Theorem turns_good : forall k, 0 < k -> good k (turns k) (fun i => turn k (turns k i) i).
Proof.
  intros k K. constructor; auto; [apply turns_exec| |].
  - split; [|split].
    + intros i W. destruct (slot (3 + k) i 0) as (j & L & M); [lia|]. exists j. split; auto.
      unfold turn. rewrite M. pose proof (o_wake _ (turns_open k j)) as O. cbn [qexec]. unfold wake_step.
      destruct (q_wake (turns k j)); auto. congruence.
    + intros i W X. destruct (slot (3 + k) i 1) as (j & L & M); [lia|].
      assert (H : forall d i, i + d = j -> q_pc (turns k i) <> RWait ->
        exists m, i <= m /\ turn k (turns k m) m = Some QSched).
      { induction d as [|d IH]; intros i0 D P.
        - exists j. split; [lia|]. replace i0 with j in P by lia. unfold turn. rewrite M. cbn [qexec]. unfold sched_step.
          destruct (turns_open k j) as [_ _ _ _ PC _ PU]. destruct (q_pc (turns k j)); auto; try congruence.
          destruct (q_tasks (turns k j)); auto. destruct PU; auto.
        - destruct (qact_dec (turn k (turns k i0) i0) (Some QSched)) as [Y|N]; [exists i0; auto|].
          destruct (IH (S i0)) as (m & LM & R); [lia| |exists m; split; auto; lia].
          pose proof (turns_exec k i0) as E. cbv beta in E. destruct (turn k (turns k i0) i0) as [a|]; [|rewrite E; auto].
          rewrite (pc_same _ _ _ E); auto. congruence. }
      apply (H (j - i) i); auto. lia.
    + intros i w A. assert (LN : forall i, length (q_work (turns k i)) = k).
      { induction i0 as [|i0 IH]; [apply repeat_length|]. pose proof (turns_exec k i0) as E. cbv beta in E.
        destruct (turn k (turns k i0) i0); [|rewrite E; auto]. erewrite work_length; eauto. }
      assert (W : w < k).
      { unfold able, worker_step in A. destruct (nth_error (q_work (turns k i)) w) eqn:N; [|congruence].
        rewrite <- (LN i). apply nth_error_Some. congruence. }
      destruct (slot (3 + k) i (3 + w)) as (j & L & M); [lia|]. exists j. split; auto.
      unfold turn. rewrite M. cbn [plus qexec]. unfold able. destruct (worker_step (turns k j) w); auto.
  - intros i X. destruct (turn_cases _ _ _ _ X) as [N _]. auto.
Qed.

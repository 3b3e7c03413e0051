(** The FIFO scheduler: order, shutdown, and progress under fairness. *)
From Coq Require Import List Arith Lia Bool Permutation.
From Verif Require Import SchedModel.
Import ListNotations.

Implicit Types (s : sched).

(** ** Lists *)

Lemma least_in : forall l a, In (least a l) (a :: l).
Proof.
  induction l as [|b l IH]; intro a; cbn [least]; [cbn; auto|].
  destruct (IH (if b <? a then b else a)) as [E|E]; [rewrite <- E; destruct (b <? a); cbn; auto|cbn in *; auto].
Qed.

Lemma least_le : forall l a x, In x (a :: l) -> least a l <= x.
Proof.
  induction l as [|b l IH]; intros a x [->|I]; cbn [least]; auto; [contradiction| |].
  - specialize (IH (if b <? x then b else x) _ (or_introl eq_refl)). destruct (Nat.ltb_spec b x); lia.
  - destruct I as [->|I].
    + specialize (IH (if x <? a then x else a) _ (or_introl eq_refl)). destruct (Nat.ltb_spec x a); lia.
    + apply IH. cbn. auto.
Qed.

Lemma drop_perm : forall l a, In a l -> Permutation l (a :: drop a l).
Proof.
  induction l as [|b l IH]; intros a I; [contradiction|]. cbn. destruct (Nat.eqb_spec b a) as [->|N]; auto.
  destruct I as [->|I]; [congruence|]. rewrite (IH a I) at 1. apply perm_swap.
Qed.

Lemma put_same : forall {A} (l : list A) n x y, nth_error l n = Some y -> nth_error (put n x l) n = Some x.
Proof. induction l; intros [|n] x y H; cbn in *; try discriminate; eauto. Qed.

Lemma put_other : forall {A} (l : list A) n m x, m <> n -> nth_error (put n x l) m = nth_error l m.
Proof. induction l; intros [|n] [|m] x H; cbn; auto; try congruence. Qed.

Lemma put_length : forall {A} (l : list A) n x, length (put n x l) = length l.
Proof. induction l; intros [|n] x; cbn; auto. Qed.

Lemma in_put : forall {A} (l : list A) n x y, In y (put n x l) -> y = x \/ In y l.
Proof. induction l; intros [|n] x y H; cbn in *; auto; destruct H as [->|H]; auto. destruct (IHl _ _ _ H); auto. Qed.

(** ** Order *)

Record finv s : Prop := {
  f_perm : Permutation (q_disp s ++ q_tasks s) (seq 0 (q_cnt s));
  f_disp : q_disp s = seq 0 (length (q_disp s));
  f_start : exists l, q_disp s = q_start s ++ l /\ (stopped (q_end s) = false -> l = q_pool s);
  f_stop : stopped (q_end s) = true -> forallb gone (q_work s) = true
}.

Lemma next_least : forall d l n a t, Permutation (d ++ a :: t) (seq 0 n) -> d = seq 0 (length d) -> l = a :: t ->
  least a t = length d /\ length d < n.
Proof.
  intros d l n a t P D _.
  assert (L : length d + S (length t) = n).
  { apply Permutation_length in P. rewrite app_length, seq_length in P. cbn in P. lia. }
  assert (P2 : Permutation (a :: t) (seq (length d) (S (length t)))).
  { rewrite D in P at 1. rewrite <- L, seq_app in P. apply Permutation_app_inv_l in P. auto. }
  split; [|lia]. apply Nat.le_antisymm.
  - apply least_le. rewrite P2. apply in_seq. lia.
  - pose proof (least_in t a) as I. rewrite P2 in I. apply in_seq in I. lia.
Qed.

Lemma gone_stuck : forall s w, forallb gone (q_work s) = true -> worker_step s w = None.
Proof.
  intros s w H. unfold worker_step. destruct (nth_error (q_work s) w) as [k|] eqn:N; auto.
  rewrite forallb_forall in H. specialize (H k (nth_error_In _ _ N)). destruct k; try discriminate; auto.
Qed.

Lemma gone_idle : forall l, forallb gone l = true -> n_idle l = 0.
Proof.
  unfold n_idle. induction l as [|a l IH]; cbn; auto. intro H. apply andb_prop in H as [H1 H2]. destruct a; try discriminate. auto.
Qed.

Lemma finv_step : forall s x s', finv s -> qexec s x = Some s' -> finv s'.
Proof.
  intros s x s' [P D SS ST] E. destruct x; cbn in E.
  - destruct (locked (q_pc s)); inversion E; subst; constructor; cbn; auto.
    rewrite app_assoc, P. change (q_cnt s :: []) with (seq (0 + q_cnt s) 1). rewrite <- seq_app. replace (q_cnt s + 1) with (S (q_cnt s)) by lia. cbn. auto.
  - unfold sched_step in E. destruct (q_pc s) eqn:PC; inversion E; subst; try (constructor; cbn; auto; fail).
    destruct (q_tasks s) as [|a t] eqn:T; [discriminate|]. inversion E; subst; clear E H0.
    destruct (next_least _ _ _ _ _ P D eq_refl) as [L LT].
    assert (Q : Permutation (a :: t) (least a t :: drop (least a t) (a :: t))) by (apply drop_perm, least_in).
    constructor; cbn [q_disp q_tasks q_cnt q_start q_pool q_end q_work]; auto.
    + rewrite <- app_assoc. cbn [app]. rewrite <- Q. auto.
    + rewrite app_length. cbn [length]. rewrite seq_app, <- D, L. auto.
    + destruct SS as (l & S1 & S2). exists (l ++ [least a t]). rewrite S1, app_assoc. split; auto. intro Z. rewrite S2; auto.
  - unfold wake_step in E. destruct (q_wake s); inversion E; subst; constructor; cbn; auto.
  - destruct (stopped (q_end s)) eqn:SE; [rewrite gone_stuck in E by auto; discriminate|].
    destruct SS as (l & S1 & S2). specialize (S2 eq_refl). subst l.
    unfold worker_step in E. destruct (nth_error (q_work s) w) as [[]|]; try discriminate.
    + destruct (q_pool s) as [|t l] eqn:PL; [destruct (q_done s); inversion E; subst|inversion E; subst]; constructor; cbn; auto;
        try congruence; eexists; (split; [|reflexivity]); rewrite S1, ?app_nil_r, <- ?app_assoc; auto.
    + inversion E; subst; constructor; cbn; auto; try congruence. eexists; split; [|reflexivity]; auto.
    + destruct (q_pool s) as [|t l] eqn:PL; inversion E; subst; constructor; cbn; auto;
        try congruence; eexists; (split; [|reflexivity]); rewrite S1, ?app_nil_r, <- ?app_assoc; auto.
  - destruct SS as (l & S1 & S2). unfold end_step in E. destruct (q_end s) eqn:EN; cbn in *.
    + inversion E; subst; constructor; cbn; eauto.
    + inversion E; subst; constructor; cbn; eauto.
    + destruct (forallb gone (q_work s)) eqn:G; inversion E; subst; constructor; cbn; eauto.
      exists l. split; auto. discriminate.
    + inversion E; subst; constructor; cbn; eauto.
    + destruct (q_pc s); inversion E; subst; constructor; cbn; eauto.
    + destruct (q_wake s); inversion E; subst; constructor; cbn; eauto.
    + discriminate.
  - destruct (q_pc s); inversion E; subst; constructor; cbn; auto.
Qed.

Lemma finv_init : forall k, finv (sched_init k).
Proof. intro k. constructor; cbn; auto; [|discriminate]. exists []. auto. Qed.

Lemma finv_reach : forall k s, qreach (sched_init k) s -> finv s.
Proof. intros k s H. induction H; [apply finv_init|eapply finv_step; eauto]. Qed.

(** C24 *)
Theorem fifo : forall k s, qreach (sched_init k) s ->
  (exists n, n <= q_cnt s /\ q_disp s = seq 0 n) /\ exists l, q_disp s = q_start s ++ l.
Proof.
  intros k s H. destruct (finv_reach _ _ H) as [P D (l & S & _) _]. split; [|eauto].
  exists (length (q_disp s)). split; auto. apply Permutation_length in P. rewrite app_length, seq_length in P. lia.
Qed.

(** ** Shutdown *)

Lemma work_length : forall s x s', qexec s x = Some s' -> length (q_work s') = length (q_work s).
Proof.
  intros s x s' E. destruct x; cbn in E.
  - destruct (locked (q_pc s)); inversion E; auto.
  - unfold sched_step in E. destruct (q_pc s); inversion E; subst; auto. destruct (q_tasks s); inversion E; auto.
  - unfold wake_step in E. destruct (q_wake s); inversion E; auto.
  - unfold worker_step in E. destruct (nth_error (q_work s) w) as [[]|]; try discriminate.
    + destruct (q_pool s); [destruct (q_done s)|]; inversion E; subst; apply put_length.
    + inversion E; subst; apply put_length.
    + destruct (q_pool s); inversion E; subst; apply put_length.
  - unfold end_step in E. destruct (q_end s); try (inversion E; auto; fail).
    + destruct (forallb gone (q_work s)); inversion E; auto.
    + destruct (q_pc s); inversion E; auto.
    + destruct (q_wake s); inversion E; auto.
  - destruct (q_pc s); inversion E; auto.
Qed.

Lemma reach_length : forall k s, qreach (sched_init k) s -> length (q_work s) = k.
Proof.
  intros k s H. induction H; [apply repeat_length|]. erewrite work_length; eauto.
Qed.

Lemma reach_trans : forall s1 s2 s3, qreach s1 s2 -> qreach s2 s3 -> qreach s1 s3.
Proof. intros s1 s2 s3 A B. induction B; auto. econstructor; eauto. Qed.

(** A task given to the pool is started before the last worker leaves. *)
Lemma started : forall k s0 s t, 0 < k -> qreach (sched_init k) s0 -> stopped (q_end s0) = false ->
  forallb gone (q_work s0) = false -> qreach s0 s -> In t (q_disp s0) ->
  In t (q_start s) \/ (stopped (q_end s) = false /\ In t (q_pool s) /\ forallb gone (q_work s) = false).
Proof.
  intros k s0 s t K H0 E0 G0 H T. induction H as [|s1 x s2 H IH E].
  - destruct (f_start _ (finv_reach _ _ H0)) as (l & S1 & S2). specialize (S2 E0). subst l. rewrite S1 in T.
    apply in_app_iff in T as [T|T]; auto.
  - pose proof (reach_trans _ _ _ H0 H) as H1.
    destruct IH as [I|(I1 & I2 & I3)].
    + left. destruct x; cbn in E.
      * destruct (locked (q_pc s1)); inversion E; auto.
      * unfold sched_step in E. destruct (q_pc s1); inversion E; subst; auto. destruct (q_tasks s1); inversion E; auto.
      * unfold wake_step in E. destruct (q_wake s1); inversion E; auto.
      * unfold worker_step in E. destruct (nth_error (q_work s1) w) as [[]|]; try discriminate.
        -- destruct (q_pool s1); [destruct (q_done s1)|]; inversion E; subst; cbn; auto. apply in_app_iff. auto.
        -- inversion E; auto.
        -- destruct (q_pool s1); inversion E; subst; cbn; auto. apply in_app_iff. auto.
      * unfold end_step in E. destruct (q_end s1); try (inversion E; auto; fail).
        -- destruct (forallb gone (q_work s1)); inversion E; auto.
        -- destruct (q_pc s1); inversion E; auto.
        -- destruct (q_wake s1); inversion E; auto.
      * destruct (q_pc s1); inversion E; auto.
    + destruct x; cbn in E.
      * right. destruct (locked (q_pc s1)); inversion E; auto.
      * right. unfold sched_step in E. destruct (q_pc s1); inversion E; subst; auto. destruct (q_tasks s1); inversion E; subst; cbn.
        split; auto. split; auto. apply in_app_iff. auto.
      * right. unfold wake_step in E. destruct (q_wake s1); inversion E; auto.
      * assert (NG : forall y, y <> WGone -> nth_error (q_work s1) w <> None -> forallb gone (put w y (q_work s1)) = false).
        { intros y Y N. destruct (nth_error (q_work s1) w) as [z|] eqn:NZ; [|congruence].
          destruct (forallb gone (put w y (q_work s1))) eqn:G; auto. rewrite forallb_forall in G.
          specialize (G y (nth_error_In _ _ (put_same _ _ y _ NZ))). destruct y; try discriminate; congruence. }
        unfold worker_step in E. destruct (nth_error (q_work s1) w) as [[]|] eqn:NW; try discriminate.
        -- destruct (q_pool s1) as [|u l] eqn:PL; [contradiction|]. inversion E; subst; cbn. destruct I2 as [->|I2].
           ++ left. apply in_app_iff. cbn. auto.
           ++ right. split; auto. split; auto. apply NG; congruence.
        -- right. inversion E; subst; cbn. split; auto. split; auto. apply NG; congruence.
        -- destruct (q_pool s1) as [|u l] eqn:PL; [contradiction|]. inversion E; subst; cbn. destruct I2 as [->|I2].
           ++ left. apply in_app_iff. cbn. auto.
           ++ right. split; auto. split; auto. apply NG; congruence.
      * right. unfold end_step in E. destruct (q_end s1) eqn:EN; try discriminate; try (inversion E; subst; auto; fail).
        rewrite I3 in E. discriminate.
      * right. destruct (q_pc s1); inversion E; auto.
Qed.

(** Workers leave only when the pool has been told to stop, which shutdown does. *)
Lemma gone_done : forall k s, qreach (sched_init k) s ->
  (q_end s = SNone \/ q_end s = SStop -> q_done s = false) /\ (q_done s = false -> forall w, In w (q_work s) -> w <> WGone).
Proof.
  intros k s H. induction H as [|s1 x s2 H [IH1 IH2] E].
  - cbn. split; auto. intros _ w W. apply repeat_spec in W. congruence.
  - destruct x; cbn in E.
    + destruct (locked (q_pc s1)); inversion E; subst; auto.
    + unfold sched_step in E. destruct (q_pc s1); inversion E; subst; auto. destruct (q_tasks s1); inversion E; subst; auto.
    + unfold wake_step in E. destruct (q_wake s1); inversion E; subst; auto.
    + unfold worker_step in E. destruct (nth_error (q_work s1) w) as [[]|] eqn:NW; try discriminate.
      * destruct (q_pool s1); [destruct (q_done s1) eqn:QD|]; inversion E; subst; cbn; rewrite ?QD; split; auto; try discriminate.
        intros Q y Y. apply in_put in Y as [->|Y]; [discriminate|auto].
      * inversion E; subst; cbn; split; auto. intros Q y Y. apply in_put in Y as [->|Y]; [discriminate|auto].
      * destruct (q_pool s1); inversion E; subst; cbn; split; auto; intros Q y Y; apply in_put in Y as [->|Y]; auto; discriminate.
    + unfold end_step in E. destruct (q_end s1) eqn:EN; try (inversion E; subst; cbn in *; split; auto; intros [|]; discriminate).
      * destruct (forallb gone (q_work s1)); inversion E; subst; cbn; split; auto; intros [|]; discriminate.
      * destruct (q_pc s1); inversion E; subst; cbn; split; auto; intros [|]; discriminate.
      * destruct (q_wake s1); inversion E; subst; cbn; split; auto; intros [|]; discriminate.
    + destruct (q_pc s1); inversion E; subst; auto.
Qed.

Theorem shutdown_runs_dispatched : forall k s0 s t, 0 < k -> qreach (sched_init k) s0 -> q_end s0 = SNone ->
  qreach s0 s -> stopped (q_end s) = true -> In t (q_disp s0) -> In t (q_start s).
Proof.
  intros k s0 s t K H0 E0 H ST T.
  assert (G0 : forallb gone (q_work s0) = false).
  { destruct (gone_done _ _ H0) as [A B]. specialize (B (A (or_introl E0))). pose proof (reach_length _ _ H0) as L.
    destruct (q_work s0) as [|w l]; [cbn in L; lia|]. cbn. destruct w; auto. exfalso. eapply B; cbn; eauto. }
  destruct (started k s0 s t) as [|(Q & _)]; auto; [rewrite E0; auto|congruence].
Qed.

(** Once stop(true) has returned, nothing runs, now or later. *)
Theorem shutdown_quiet : forall k s, qreach (sched_init k) s -> stopped (q_end s) = true ->
  (forall w, In w (q_work s) -> w = WGone) /\
  forall s', qreach s s' -> q_start s' = q_start s /\ forall w, In w (q_work s') -> w = WGone.
Proof.
  intros k s H ST. pose proof (f_stop _ (finv_reach _ _ H) ST) as G.
  assert (ALL : forall s, forallb gone (q_work s) = true -> forall w, In w (q_work s) -> w = WGone).
  { intros s1 G1 w W. rewrite forallb_forall in G1. specialize (G1 w W). destruct w; try discriminate; auto. }
  split; [apply ALL; auto|]. intros s' H'.
  assert (X : q_start s' = q_start s /\ forallb gone (q_work s') = true); [|destruct X as [X1 X2]; split; [exact X1|apply ALL; auto]].
  induction H' as [|s1 x s2 H' IH E]; auto. destruct IH as [IH1 IH2]. destruct x; cbn in E.
  - destruct (locked (q_pc s1)); inversion E; auto.
  - unfold sched_step in E. destruct (q_pc s1); inversion E; subst; auto. destruct (q_tasks s1); inversion E; subst; auto.
  - unfold wake_step in E. destruct (q_wake s1); inversion E; auto.
  - rewrite gone_stuck in E by auto. discriminate.
  - unfold end_step in E. destruct (q_end s1); try (inversion E; auto; fail).
    + destruct (forallb gone (q_work s1)) eqn:GG; inversion E; auto.
    + destruct (q_pc s1); inversion E; auto.
    + destruct (q_wake s1); inversion E; auto.
  - destruct (q_pc s1); inversion E; auto.
Qed.

(** ** Consequences *)

Theorem once : forall k s, qreach (sched_init k) s -> NoDup (q_disp s) /\ NoDup (q_start s).
Proof.
  intros k s H. destruct (fifo k s H) as ((n & _ & D) & l & S).
  assert (N : NoDup (q_disp s)) by (rewrite D; apply seq_NoDup). split; auto.
  rewrite S in N. clear - N. induction (q_start s) as [|a r IH]; constructor; inversion N; subst; auto.
  intro I. apply H1. apply in_app_iff. auto.
Qed.

Theorem pop_nonempty : forall k s, qreach (sched_init k) s -> q_pc s = RPush -> q_tasks s <> [].
Proof.
  intros k s H. induction H as [|s1 x s2 H IH E]; [discriminate|]. destruct x; cbn in E.
  - destruct (q_pc s1) eqn:P; cbn in E; inversion E; subst; cbn; try congruence; intros; destruct (q_tasks s1); discriminate.
  - unfold sched_step in E. destruct (q_pc s1) eqn:P; inversion E; subst; cbn; try congruence.
    + destruct (q_tasks s1); congruence.
    + destruct (q_tasks s1); inversion E; subst; cbn. congruence.
    + destruct (q_shut s1); congruence.
  - unfold wake_step in E. destruct (q_wake s1); inversion E; subst; cbn; auto. destruct (q_pc s1); cbn; auto; congruence.
  - unfold worker_step in E. destruct (nth_error (q_work s1) w) as [[]|]; try discriminate.
    + destruct (q_pool s1); [destruct (q_done s1)|]; inversion E; auto.
    + inversion E; auto.
    + destruct (q_pool s1); inversion E; auto.
  - unfold end_step in E. destruct (q_end s1); try (inversion E; auto; fail).
    + destruct (forallb gone (q_work s1)); inversion E; auto.
    + inversion E; subst; cbn. destruct (q_pc s1); cbn; auto; congruence.
    + destruct (q_pc s1) eqn:P; inversion E; subst; cbn; congruence.
    + destruct (q_wake s1); inversion E; auto.
  - destruct (q_pc s1); inversion E; subst; cbn; congruence.
Qed.

Lemma qsched_reach : forall l s s', qsched s l = Some s' -> qreach s s'.
Proof.
  induction l as [|x l IH]; intros s s' E; cbn in E; [inversion E; constructor|].
  destruct (qexec s x) as [s1|] eqn:X; [|discriminate].
  eapply reach_trans; [|apply IH; eauto]. econstructor; [constructor|eauto].
Qed.

(** The state after a schedule satisfies [P]. *)
Definition after (k : nat) (l : list qact) (P : sched -> Prop) : Prop :=
  match qsched (sched_init k) l with Some s => P s | None => False end.

Lemma after_reach : forall k l P, after k l P -> exists s, qreach (sched_init k) s /\ P s.
Proof.
  unfold after. intros k l P H. destruct (qsched (sched_init k) l) as [s|] eqn:E; [|contradiction].
  exists s. split; auto. eapply qsched_reach; eauto.
Qed.

Lemma never_started : forall k l, after k l (fun s => (q_end s, q_cnt s, q_disp s, q_start s) = (SEnd, 1, [], [])) ->
  exists s, qreach (sched_init k) s /\ q_end s = SEnd /\ q_cnt s = 1 /\ q_disp s = [] /\ forall s', qreach s s' -> ~ In 0 (q_start s').
Proof.
  intros k l A. apply after_reach in A as (s & R & E). injection E as E1 E2 E3 E4. exists s. repeat split; auto.
  intros s' R'. destruct (shutdown_quiet k s R) as [_ Q]; [rewrite E1; auto|]. destruct (Q s' R') as [-> _]. rewrite E4. auto.
Qed.

Lemma handed_not_started : forall k l, after k l (fun s => (stopped (q_end s), q_disp s, q_start s) = (true, [0], [])) ->
  exists s, qreach (sched_init k) s /\ stopped (q_end s) = true /\ q_disp s = [0] /\ forall s', qreach s s' -> ~ In 0 (q_start s').
Proof.
  intros k l A. apply after_reach in A as (s & R & E). injection E as E1 E2 E3. exists s. repeat split; auto.
  intros s' R'. destruct (shutdown_quiet k s R E1) as [_ Q]. destruct (Q s' R') as [-> _]. rewrite E3. auto.
Qed.

Lemma hangs : forall k l, after k l (fun s => (q_end s, q_pc s, q_wake s, forallb gone (q_work s)) = (SJoin1, RWait, KExit, true)) ->
  exists s, qreach (sched_init k) s /\ q_end s = SJoin1 /\ q_pc s = RWait /\
  forall x s', qexec s x = Some s' -> x = QSubmit \/ x = QSpurious.
Proof.
  intros k l A. apply after_reach in A as (s & R & Z). injection Z as E P W G. exists s. repeat split; auto.
  intros x s' X. destruct x; cbn in X; auto.
  - unfold sched_step in X. rewrite P in X. discriminate.
  - unfold wake_step in X. rewrite W in X. discriminate.
  - rewrite gone_stuck in X by auto. discriminate.
  - unfold end_step in X. rewrite E, P in X. discriminate.
Qed.

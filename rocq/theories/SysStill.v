(** Executions in which no append is in progress when the end of the buffer is read:
    every answer consists of acknowledged records, each once. *)
From Coq Require Import List Arith ZArith NArith Lia Bool Permutation.
From Verif Require Import Base ListLemmas RecordModel BufferModel BufConcModel BufConcProofs BufConcView BufConcData SysModel SysInv
  SysSteps SysRun SysMain SysCalm SysContent SysSnapshot.
Import ListNotations.

Section SL.
Context {R : Type} {RO : RecOps R}.
Variables lwm hwm cap : nat.
Hypothesis HW : 0 < hwm.
Hypothesis C2 : 2 * hwm <= cap.
Notation exec := (exec hwm cap).
Notation cexec := (cexec hwm cap).
Notation sexec := (sexec lwm hwm cap).
Notation run := (run lwm hwm cap).
Notation inv := (inv hwm cap).
Notation jinv := (jinv hwm cap).
Notation cinv := (cinv cap any).
Notation floor := (floor cap any).
Notation right := (right cap any).
Notation bpcs s := (cs_pcs (y_buf s)).
Notation tail s := (cb_tail (cs_buf (y_buf s))).
Notation done s := (cs_done (y_buf s)).
Notation sound n s := (creach hwm cap (disciplined_on cap any) (cs_init hwm cap n) (y_buf s)).
Notation acked := (list (nat * (R * bool))).
Implicit Types (s : sys R) (p q : spc R) (b : cstate R).

(** What a job has read of the buffer. *)
Definition reads p : option (nat * nat * list (wrapped R)) :=
  match p with
  | JRead _ _ _ _ h tl acc => Some (h, tl, acc)
  | JShards KTouch _ _ _ _ _ => None
  | JShards _ _ _ h tl acc => Some (h, tl, acc)
  | _ => None
  end.

Definition settled s : Prop := forall p h tl acc, In p (y_pcs s) -> reads p = Some (h, tl, acc) ->
  floor (y_buf s) tl /\ right (done s) acc h.

(** Where it comes from. *)
Lemma reads_run : forall s t p s', nth_error (y_pcs s) t = Some p -> run s t p = Some s' ->
  forall q h tl acc, In q (y_pcs s') -> reads q = Some (h, tl, acc) ->
  (exists p', In p' (y_pcs s) /\ reads p' = Some (h, tl, acc)) \/
  (exists k e seen pre, p = JHold k e seen pre /\ nth_error (bpcs s) t = Some (GTail h) /\ tl = tail s /\ acc = [] /\
     cexec (y_buf s) (Step t) = Some (y_buf s')) \/
  (exists k e seen pre acc0, p = JRead k e seen pre h tl acc0 /\ h + length acc0 < tl /\
     acc = acc0 ++ [peek cap s (h + length acc0)] /\ y_buf s' = y_buf s /\ k <> KTouch).
Proof.
  intros s t p s' N E.
  assert (IP := nth_error_In _ _ N).
  assert (SET : forall z, y_pcs s' = set_nth t z (y_pcs s) -> (reads z = None \/ reads z = reads p) ->
    forall q x, In q (y_pcs s') -> reads q = Some x -> exists p', In p' (y_pcs s) /\ reads p' = Some x).
  { intros z Z M q n Q MQ. rewrite Z in Q. apply in_set_nth_other in Q as [->|(u & _ & U)].
    - exists p. destruct M; split; auto; congruence.
    - exists q. split; auto. eapply nth_error_In; eauto. }
  assert (BC : forall c z, bcall hwm cap s t c z = Some s' -> y_pcs s' = set_nth t z (y_pcs s)).
  { intros c z B. unfold bcall in B. destruct (cexec (y_buf s) (Call t c)); inversion B; auto. }
  assert (BS : forall k, bstep hwm cap s t k = Some s' ->
    (forall bp z, k bp = Some z -> reads z = None \/ reads z = reads p) ->
    forall q x, In q (y_pcs s') -> reads q = Some x -> exists p', In p' (y_pcs s) /\ reads p' = Some x).
  { intros k B K. unfold bstep in B. destruct (cexec (y_buf s) (Step t)) as [c|]; [|discriminate].
    destruct (nth_error (cs_pcs c) t) as [bp|]; [|discriminate].
    destruct (k bp) as [z|] eqn:KZ; inversion B; subst s'; [apply (SET z); auto; eapply K; eauto|cbn; eauto]. }
  intros q h tl acc Q MQ.
  destruct p; cbn [SysModel.run] in E; unfold deref, get_step, end_step in E; try discriminate.
  all: repeat match type of E with context[match ?x with _ => _ end] => destruct x eqn:?; try discriminate E end.
  all: try (injection E as E; subst s'; cbn [w_buf w_heap w_next w_cur w_prev w_flag w_jobs w_ans halt go y_pcs] in Q).
  all: try (left; exists q; split; auto; fail).
  all: try (apply BC in E; rewrite E in Q).
  all: try (left; apply in_set_nth_other in Q as [->|(u & _ & U)]; [|exists q; split; [eapply nth_error_In; eauto|auto]];
            first [discriminate MQ|destruct w as [[]|]; discriminate MQ|destruct f; discriminate MQ|
                   eexists; split; [exact IP|exact MQ]]).
  all: try (left; eapply BS; eauto; intros bp z KZ; destruct bp; cbn in KZ; inversion KZ; subst; cbn; auto; fail).
  - unfold bstep in E. destruct (BufConcModel.cexec hwm cap (y_buf s) (Step t)) as [c|] eqn:X; [|discriminate].
    pose proof X as X'. cbn in X'. destruct (nth_error (bpcs s) t) as [bp|] eqn:NB; [|discriminate].
    destruct (exec (cs_buf (y_buf s)) bp) as [[c' bp']|] eqn:EX; [|discriminate]. inversion X' as [X2]. clear X'.
    assert (NT : nth_error (cs_pcs c) t = Some bp') by (rewrite <- X2; cbn; eapply nth_set_same; eauto).
    rewrite NT in E. destruct bp'; cbn [on_hold] in E; try (inversion E; subst s'; left; exists q; split; auto; fail).
    destruct (exec_hold _ _ _ _ _ _ _ EX) as (-> & -> & ->). inversion E; subst s'. rewrite X2. cbn in Q.
    apply in_set_nth_other in Q as [->|(u & _ & U)]; [|left; exists q; split; [eapply nth_error_In; eauto|auto]].
    right. left. exists k, e, seen, pre. cbn in MQ. inversion MQ; subst. repeat split; auto.
  - apply Nat.ltb_lt in Heqb. apply in_set_nth_other in Q as [->|(u & _ & U)]; [|left; exists q; split; [eapply nth_error_In; eauto|auto]].
    cbn in MQ. inversion MQ; subst. right. right. exists KQuery, e, seen, pre, acc0. repeat split; auto. discriminate.
  - apply Nat.ltb_lt in Heqb. apply in_set_nth_other in Q as [->|(u & _ & U)]; [|left; exists q; split; [eapply nth_error_In; eauto|auto]].
    cbn in MQ. inversion MQ; subst. right. right. exists KStatic, e, seen, pre, acc0. repeat split; auto. discriminate.
  - left. cbn in Q. apply in_map_iff in Q as (z & <- & Z). apply in_set_nth_other in Z as [->|(u & _ & U)]; [discriminate|].
    exists z. split; [eapply nth_error_In; eauto|]. destruct z; auto.
Qed.

Lemma settled_step : forall n s st g x s', inv s st g -> sound n s -> settled s ->
  (forall p h tl acc, In p (y_pcs s) -> reads p = Some (h, tl, acc) -> h + length acc <= tl) ->
  still s x -> sexec s x = Some s' -> settled s'.
Proof.
  intros n s st g x s' I CR F LE ST E.
  assert (BUF : bufstep hwm cap (y_buf s) (y_buf s')).
  { destruct (sexec_buf _ _ _ _ _ _ _ _ I E) as [->|(a & _ & X & _)]; [left; auto|right; eauto]. }
  assert (OLD : forall p' h tl acc, In p' (y_pcs s) -> reads p' = Some (h, tl, acc) ->
     floor (y_buf s') tl /\ right (done s') acc h).
  { intros p' h tl acc P Q. destruct (F _ _ _ _ P Q) as [F1 F2]. split; [eapply bufstep_floor; eauto|].
    eapply right_step; eauto. specialize (LE _ _ _ _ P Q). destruct F1 as [A B]. split; [lia|]. intros y Y _. specialize (B y Y Logic.I). lia. }
  assert (SET : forall t z, y_pcs s' = set_nth t z (y_pcs s) -> reads z = None -> settled s').
  { intros t z Z M q h tl acc Q MQ. rewrite Z in Q. apply in_set_nth_other in Q as [->|(u & _ & U)]; [congruence|].
    eapply OLD; eauto. eapply nth_error_In; eauto. }
  unfold SysModel.sexec in E. destruct (y_stop s) eqn:NS; [discriminate|]. destruct x as [t c|t|t a|t].
  - destruct (nth_error (y_pcs s) t) as [[]|] eqn:N; try discriminate.
    destruct c; [| | |destruct (y_jobs s) eqn:J; [discriminate|]]; inversion E; subst; (eapply SET; [reflexivity|reflexivity]).
  - destruct (nth_error (y_pcs s) t) as [p|] eqn:N; [|discriminate]. intros q h tl acc Q MQ.
    destruct (reads_run _ _ _ _ N E _ _ _ _ Q MQ) as [(p' & P1 & P2)|[(k & e & seen & pre & -> & NB & -> & -> & X)|
      (k & e & seen & pre & acc0 & -> & L & -> & EB & NK)]].
    + eapply OLD; eauto.
    + cbn in ST. rewrite N, NB in ST. split; [|apply right_nil]. apply (floor_step hwm cap any _ _ _ _ X). split; auto. rewrite ST. contradiction.
    + rewrite EB. destruct (F _ _ _ _ (nth_error_In _ _ N) eq_refl) as [F1 F2]. split; auto.
      destruct (bp_some _ _ _ _ _ _ _ I N) as (bp & NB & _ & LK). cbn in LK. destruct LK as [-> LK].
      eapply read_more; eauto. eapply nth_error_In; eauto.
  - destruct (nth_error (y_pcs s) t) as [[]|] eqn:N; try discriminate.
    destruct (y_heap s a) eqn:A; [discriminate|]. unfold deref in E. destruct (y_heap s e); inversion E; subst.
    + eapply SET; [reflexivity|reflexivity].
    + intros q h tl acc Q MQ. eapply OLD; eauto.
  - destruct (nth_error (y_pcs s) t) as [[]|] eqn:N; try discriminate; inversion E; subst; (eapply SET; [reflexivity|reflexivity]).
Qed.

(** ** Answers *)

Definition exact s (a : answer R) : Prop :=
  match a with
  | AList seen runs buf =>
      let res := concat runs ++ buf in
      (forall x, In x seen -> In x (done s)) /\ before seen (length res) /\ floor (y_buf s) (length res) /\ right (done s) res 0
  | ACount seen n => (forall x, In x seen -> In x (done s)) /\ before seen n /\ floor (y_buf s) n
  end.

Lemma exact_step : forall s s' a, bufstep hwm cap (y_buf s) (y_buf s') -> exact s a -> exact s' a.
Proof.
  intros s s' a B H.
  assert (D : forall x, In x (done s) -> In x (done s')).
  { intros x X. destruct (bufstep_done _ _ _ _ B) as (l & -> & _). apply in_app_iff. auto. }
  destruct a as [seen runs buf|seen n]; cbn zeta beta iota delta [exact] in *.
  - destruct H as (H1 & H2 & H3 & H4). split; auto. split; auto. split; [eapply bufstep_floor; eauto|eapply right_step; eauto].
  - destruct H as (H1 & H2 & H3). split; auto. split; auto. eapply bufstep_floor; eauto.
Qed.

Lemma exact_run : forall s st g t p s', inv s st g -> cinv s -> settled s -> nth_error (y_pcs s) t = Some p -> run s t p = Some s' ->
  forall a, In a (y_ans s') -> In a (y_ans s) \/ exact s a.
Proof.
  intros s st g t p s' I K F N E a A. assert (J := i_j _ _ _ _ _ I).
  pose proof (k_pcs _ _ _ K _ (nth_error_In _ _ N)) as PF.
  pose proof (F p) as FP. specialize (fun h tl acc => FP h tl acc (nth_error_In _ _ N)).
  destruct (bp_some _ _ _ _ _ _ _ I N) as (bp & NB & PO & LK).
  pose proof (fun e => pinned_full hwm cap any s st g t p e I K N) as EP.
  assert (BC : forall c z, bcall hwm cap s t c z = Some s' -> y_ans s' = y_ans s).
  { intros c z B. unfold bcall in B. destruct (cexec (y_buf s) (Call t c)); inversion B; auto. }
  assert (BS : forall k, bstep hwm cap s t k = Some s' -> y_ans s' = y_ans s).
  { intros k B. unfold bstep in B. destruct (cexec (y_buf s) (Step t)) as [c|]; [|discriminate].
    destruct (nth_error (cs_pcs c) t) as [bp'|]; [|discriminate]. destruct (k bp'); inversion B; auto. }
  assert (LIST : forall seen pre h tl acc, known s seen -> full cap any (y_buf s) (concat pre) h -> before seen tl -> h + length acc = tl ->
    floor (y_buf s) tl -> right (done s) acc h -> exact s (AList seen pre acc)).
  { intros seen pre h tl acc K1 (K2 & K3 & K4) K5 K6 K7 K8. destruct (known_nodup hwm cap _ _ J K1) as [_ IN]. cbn.
    rewrite app_length, K3, K6. split; auto. split; auto. split; auto. eapply right_app; eauto. }
  destruct p; cbn [SysModel.run] in E; unfold deref, get_step, end_step in E; try discriminate.
  all: repeat match type of E with context[match ?x with _ => _ end] => destruct x eqn:?; try discriminate E end.
  all: try (apply BC in E; rewrite E in A; auto; fail).
  all: try (apply BS in E; rewrite E in A; auto; fail).
  all: injection E as E; subst s'; cbn in A; auto.
  - destruct A as [<-|A]; auto. right. destruct PF as (K1 & K2 & K3 & K4 & K5 & K6). apply Nat.ltb_ge in Heqb.
    destruct (FP _ _ _ eq_refl). eapply LIST; eauto. lia.
  - destruct A as [<-|A]; auto. right. destruct (EP e eq_refl) as (x & X & FX). cbn in LK. destruct LK as [-> LK].
    unfold headof in LK. rewrite X in LK. inversion LK; subst h. rewrite X in Heqo. inversion Heqo; subst.
    destruct PF as (K1 & K3 & K4 & K5 & K6 & K7); [discriminate|]. destruct (FP _ _ _ eq_refl). eapply LIST; eauto.
  - destruct A as [<-|A]; auto. right. destruct (EP e eq_refl) as (x & X & FX). cbn in LK. destruct LK as [-> LK].
    unfold headof in LK. rewrite X in LK. inversion LK; subst h. rewrite X in Heqo. inversion Heqo; subst.
    destruct PF as (K1 & K3 & K4 & K5 & K6 & K7); [discriminate|]. destruct (FP _ _ _ eq_refl).
    destruct FX as (_ & L & _). cbn. rewrite L. replace (tl - e_head e0 + e_head e0) with tl by lia.
    destruct (known_nodup hwm cap _ _ J K1) as [_ IN]. auto.
  - destruct A as [<-|A]; auto. right. destruct (EP e eq_refl) as (x & X & FX). cbn in LK. destruct LK as [-> LK].
    unfold headof in LK. rewrite X in LK. inversion LK; subst h. rewrite X in Heqo. inversion Heqo; subst.
    destruct PF as (K1 & K3 & K4 & K5 & K6 & K7); [discriminate|]. destruct (FP _ _ _ eq_refl). eapply LIST; eauto.
Qed.

Lemma still_calm : forall s x, still s x -> calm s x.
Proof.
  intros s [t c|t|t a|t] H; cbn in *; auto. destruct (nth_error (y_pcs s) t) as [[]|]; auto.
Qed.

Lemma exact_exec : forall s st g x s', inv s st g -> cinv s -> settled s -> sexec s x = Some s' ->
  forall a, In a (y_ans s') -> In a (y_ans s) \/ exact s a.
Proof.
  intros s st g x s' I K F E a A. unfold SysModel.sexec in E. destruct (y_stop s) eqn:NS; [discriminate|]. destruct x as [t c|t|t b|t].
  - destruct (nth_error (y_pcs s) t) as [[]|] eqn:N; try discriminate.
    destruct c; [| | |destruct (y_jobs s) eqn:J; [discriminate|]]; inversion E; subst; auto.
  - destruct (nth_error (y_pcs s) t) as [p|] eqn:N; [|discriminate]. eapply exact_run; eauto.
  - destruct (nth_error (y_pcs s) t) as [[]|] eqn:N; try discriminate.
    destruct (y_heap s b) eqn:B; [discriminate|]. unfold deref in E. destruct (y_heap s e); inversion E; subst; auto.
  - destruct (nth_error (y_pcs s) t) as [[]|] eqn:N; try discriminate; inversion E; subst; auto.
Qed.

Lemma answers_exact : forall n s, sreach lwm hwm cap still (sys_init hwm cap n) s ->
  (y_stop s = None -> settled s) /\ forall a, In a (y_ans s) -> exact s a.
Proof.
  intros n s C. remember (sys_init hwm cap n) as s0. induction C; subst.
  - split; [|contradiction]. intros _ p h tl acc P Q. apply repeat_spec in P. subst. discriminate.
  - destruct (IHC eq_refl) as [S A].
    pose proof (sreach_mono _ _ _ _ calm _ _ still_calm C) as CC.
    destruct (calm_reach _ _ _ _ _ CC) as [CR F].
    destruct (answers_right _ _ _ HW C2 _ _ CC) as [K _].
    destruct (sys_reach _ _ _ _ _ _ C) as [[[(st & g & I) NS]|AF] _].
    + specialize (S NS). specialize (K NS).
      assert (BUF : bufstep hwm cap (y_buf s1) (y_buf s2)).
      { destruct (sexec_buf _ _ _ _ _ _ _ _ I H0) as [->|(a & _ & X & _)]; [left; auto|right; eauto]. }
      split.
      * intros _. eapply settled_step; eauto. intros p h tl acc P Q. pose proof (k_pcs _ _ _ K _ P) as PF.
        destruct p; cbn in Q; try discriminate.
        -- inversion Q; subst. apply PF.
        -- destruct k; inversion Q; subst; apply PF; discriminate.
      * intros a IA. apply (exact_step s1); auto. destruct (exact_exec _ _ _ _ _ I K S H0 a IA); auto.
    + unfold SysModel.sexec in H0. rewrite AF in H0. discriminate.
Qed.

(** The acknowledged appends below [n]. *)
Definition first (d : acked) (n : nat) : acked := filter (fun x => fst x <? n) d.

Lemma nodup_filter : forall {A B} (f : A -> B) (h : A -> bool) l, NoDup (map f l) -> NoDup (map f (filter h l)).
Proof.
  induction l as [|a l IH]; cbn; intro N; [constructor|]. inversion N; subst. destruct (h a); cbn; auto. constructor; auto.
  intro X. apply H1. apply in_map_iff in X as (z & <- & Z). apply filter_In in Z as [Z _]. apply in_map. auto.
Qed.

Lemma first_length : forall s n, jinv (y_buf s) -> floor (y_buf s) n -> length (first (done s) n) = n.
Proof.
  intros s n J [F1 F2]. pose proof (done_nodup hwm cap _ J) as N. pose proof (j_pos _ _ _ J) as P.
  rewrite <- (map_length fst). rewrite <- (seq_length n 0) at 2. apply Permutation_length. apply NoDup_Permutation.
  - apply nodup_filter. auto.
  - apply seq_NoDup.
  - intro y. rewrite in_seq. split.
    + intro Y. apply in_map_iff in Y as (z & <- & Z). apply filter_In in Z as [_ Z]. apply Nat.ltb_lt in Z. lia.
    + intro Y. assert (Q : In y (seq 0 (tail s))) by (apply in_seq; lia). rewrite <- P in Q. apply in_app_iff in Q as [Q|Q].
      * apply in_map_iff in Q as (z & <- & Z). apply in_map. apply filter_In. split; auto. apply Nat.ltb_lt. lia.
      * specialize (F2 _ Q Logic.I). lia.
Qed.

Definition placed (x : nat * (R * bool)) : wrapped R := append_rec (fst (snd x)) (snd (snd x)) (fst x mod cap).

(** C21 *)
Theorem exact_snapshot : forall n s seen runs buf, sreach lwm hwm cap still (sys_init hwm cap n) s -> In (AList seen runs buf) (y_ans s) ->
  exists l, incl seen l /\ incl l (done s) /\ NoDup (map fst l) /\ Permutation (concat runs ++ buf) (map placed l).
Proof.
  intros n s seen runs buf C A. destruct (answers_exact _ _ C) as [_ E]. specialize (E _ A). cbn zeta beta iota delta [exact] in E.
  set (res := concat runs ++ buf) in *. destruct E as (E1 & E2 & E3 & E4).
  destruct (sys_reach _ _ _ _ _ _ C) as [_ CR]. pose proof (j_reach _ _ _ _ _ CR) as J.
  exists (first (done s) (length res)). split; [|split; [|split]].
  - intros [y x] X. apply filter_In. split; auto. apply Nat.ltb_lt. apply (E2 _ _ X).
  - intros x X. apply filter_In in X. tauto.
  - apply nodup_filter. apply (done_nodup hwm cap). auto.
  - destruct (placed_contained (map (fun x => (fst x, placed x)) (first (done s) (length res))) res) as [e P].
    + rewrite map_map. apply nodup_filter. apply (done_nodup hwm cap). auto.
    + intros y w X. apply in_map_iff in X as ((y' & r & ts) & X1 & X2). cbn in X1. inversion X1; subst.
      apply filter_In in X2 as [X2 X3]. apply Nat.ltb_lt in X3. cbn in X3. specialize (E4 _ _ _ X2 Logic.I). rewrite Nat.sub_0_r in E4.
      apply E4. lia.
    + rewrite map_map in P. cbn in P. pose proof (Permutation_length P) as L. rewrite app_length, map_length, first_length in L by auto.
      destruct e; [|cbn in L; lia]. rewrite app_nil_r in P. auto.
Qed.

(** C51 *)
Theorem exact_count : forall n s seen k, sreach lwm hwm cap still (sys_init hwm cap n) s -> In (ACount seen k) (y_ans s) ->
  exists l, incl seen l /\ incl l (done s) /\ NoDup (map fst l) /\ k = length l.
Proof.
  intros n s seen k C A. destruct (answers_exact _ _ C) as [_ E]. destruct (E _ A) as (E1 & E2 & E3).
  destruct (sys_reach _ _ _ _ _ _ C) as [_ CR]. pose proof (j_reach _ _ _ _ _ CR) as J.
  exists (first (done s) k). split; [|split; [|split]].
  - intros [y x] X. apply filter_In. split; auto. apply Nat.ltb_lt. apply (E2 _ _ X).
  - intros x X. apply filter_In in X. tauto.
  - apply nodup_filter. apply (done_nodup hwm cap). auto.
  - rewrite first_length; auto.
Qed.

End SL.

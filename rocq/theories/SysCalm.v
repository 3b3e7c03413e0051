(** Calm executions use the buffer as the data theorems of BufConcData.v suppose. *)
From Coq Require Import List Arith ZArith NArith Lia Bool.
From Verif Require Import Base ListLemmas RecordModel BufferModel BufConcModel BufConcProofs BufConcView BufConcData SysModel SysInv
  SysSteps SysRun SysMain.
Import ListNotations.

Section SC.
Context {R : Type} {RO : RecOps R}.
Variables lwm hwm cap : nat.
Notation exec := (exec hwm cap).
Notation cexec := (cexec hwm cap).
Notation sexec := (sexec lwm hwm cap).
Notation run := (run lwm hwm cap).
Notation inv := (inv hwm cap).
Notation bpcs s := (cs_pcs (y_buf s)).
Implicit Types (s : sys R) (p q : spc R) (b : cstate R).

Lemma exec_pos : forall (c : cbuf R) bp c' bp', exec c bp = Some (c', bp') ->
  cb_tail c <= cb_tail c' /\ forall y, In y (pc_pos bp') -> In y (pc_pos bp) \/ cb_tail c <= y.
Proof.
  intros c bp c' bp' E. destruct bp; cbn [BufConcModel.exec] in E; try discriminate.
  all: repeat match type of E with
       | context[if ?c then _ else _] => let F := fresh "F" in destruct c eqn:F
       end; inversion E; subst; clear E; cbn; split; auto; try contradiction; try lia.
  - apply Nat.eqb_eq in F. lia.
  - intros y [->|[]]. apply Nat.eqb_eq in F. lia.
Qed.

Lemma begin_pos : forall (c : call R) bp bp', begin c bp = Some bp' -> pc_pos bp' = [].
Proof. intros [] [] bp' E; cbn in E; inversion E; auto. Qed.

Lemma in_flight_set : forall (l : list (pc R)) t (q : pc R) y, In y (flat_map pc_pos (set_nth t q l)) ->
  In y (pc_pos q) \/ In y (flat_map pc_pos l).
Proof.
  intros l t q y H. apply in_flat_map in H as (p & P & Y). apply in_set_nth_other in P as [->|(u & _ & U)]; auto.
  right. apply in_flat_map. exists p. split; auto. eapply nth_error_In; eauto.
Qed.

Lemma vexec_tail : forall (c c' : cbuf R) v v', vexec c v = Some (c', v') -> cb_tail c' = cb_tail c /\ cb_data c' = cb_data c.
Proof.
  intros c c' v v' E. destruct v; cbn in E; try discriminate.
  all: repeat match type of E with
       | context[if ?c then _ else _] => let F := fresh "F" in destruct c eqn:F
       end; inversion E; subst; auto.
Qed.

(** What an action does to the tail, the positions in flight and the finished appends. *)
Lemma cexec_floor : forall b a b', cexec b a = Some b' ->
  cb_tail (cs_buf b) <= cb_tail (cs_buf b') /\
  (forall y, In y (in_flight b') -> In y (in_flight b) \/ cb_tail (cs_buf b) <= y) /\
  exists l, cs_done b' = l ++ cs_done b /\ forall y x, In (y, x) l -> In y (in_flight b).
Proof.
  intros [c l v d] a b' E. unfold in_flight. destruct a as [t k|t|n|]; cbn in E.
  - destruct (nth_error l t) as [p|] eqn:N; [|discriminate]. destruct (begin k p) as [p'|] eqn:B; [|discriminate].
    inversion E; subst; cbn. split; auto. split; [|exists []; cbn; tauto].
    intros y Y. apply in_flight_set in Y. rewrite (begin_pos _ _ _ B) in Y. destruct Y as [[]|]; auto.
  - destruct (nth_error l t) as [p|] eqn:N; [|discriminate]. destruct (exec c p) as [[c' p']|] eqn:X; [|discriminate].
    destruct (exec_pos _ _ _ _ X) as [T P]. inversion E; subst; cbn. split; auto. split.
    + intros y Y. apply in_flight_set in Y as [Y|Y]; auto. destruct (P y Y); auto. left. apply in_flat_map. exists p.
      split; auto. eapply nth_error_In; eauto.
    + destruct p; try (exists []; cbn; split; [reflexivity|contradiction]). exists [(p, (r, ts))]. split; auto.
      intros y x [Y|[]]. inversion Y; subst. apply in_flat_map. exists (AVis r ts y). split; [eapply nth_error_In; eauto|cbn; auto].
  - destruct v; inversion E; subst; cbn. split; auto. split; auto. exists []. cbn. split; [auto|contradiction].
  - destruct (vexec c v) as [[c' v']|] eqn:X; [|discriminate]. inversion E; subst; cbn.
    destruct (vexec_tail _ _ _ _ X) as [-> _]. split; auto. split; auto. exists []. cbn. split; [auto|contradiction].
Qed.

(** The slots whose appends are finished when a reconstruction reads the end. *)
Variable SL : nat -> Prop.

(** The appends of all positions below [n] have returned, in the slots [SL]. *)
Definition floor b (n : nat) : Prop :=
  n <= cb_tail (cs_buf b) /\ forall y, In y (in_flight b) -> SL (y mod cap) -> n <= y.

Lemma floor_step : forall b a b' n, cexec b a = Some b' -> floor b n -> floor b' n.
Proof.
  intros b a b' n E [F1 F2]. destruct (cexec_floor _ _ _ E) as (T & P & _). split; [lia|].
  intros y Y ZS. destruct (P y Y); [auto|lia].
Qed.

(** The end of the flush that the reconstruction will hand to advance_head. *)
Definition mark p : option nat :=
  match p with
  | RRead _ _ n _ | RFlush _ n _ | RRel _ n | RRelW _ n | DLoad n | DRet n _ | DRetCas n _ _ | DDel n _
  | DCur n | DCurCas n _ | DPrev n _ | DAdv n | DAdvW n => Some n
  | _ => None
  end.

Definition floors s : Prop := forall p n, In p (y_pcs s) -> mark p = Some n -> floor (y_buf s) n.

Lemma exec_hold : forall (c : cbuf R) bp c' h tl, exec c bp = Some (c', Hold h tl) ->
  bp = GTail h /\ tl = cb_tail c /\ c' = c.
Proof.
  intros c bp c' h tl E. destruct bp; cbn [BufConcModel.exec] in E; try discriminate.
  all: repeat match type of E with
       | context[if ?c then _ else _] => let F := fresh "F" in destruct c eqn:F
       end; inversion E; subst; auto.
Qed.

(** Which actions change the buffer. *)
Lemma sexec_buf : forall s st g x s', inv s st g -> sexec s x = Some s' ->
  y_buf s' = y_buf s \/ exists a, epochs_ok (y_buf s) a /\ cexec (y_buf s) a = Some (y_buf s') /\
    forall m, a = Advance m -> In (DAdv m) (y_pcs s).
Proof. intros s st g x s' I E. apply (exec_good _ _ _ _ _ _ _ _ I E). Qed.

(** Where a mark comes from. *)
Lemma mark_run : forall s t p s', nth_error (y_pcs s) t = Some p -> run s t p = Some s' ->
  forall q n, In q (y_pcs s') -> mark q = Some n ->
  (exists p', In p' (y_pcs s) /\ mark p' = Some n) \/
  (exists a h, p = RHold a /\ nth_error (bpcs s) t = Some (GTail h) /\ n = cb_tail (cs_buf (y_buf s)) /\
     cexec (y_buf s) (Step t) = Some (y_buf s')).
Proof.
  intros s t p s' N E.
  assert (OLD : forall q n, In q (y_pcs s) -> mark q = Some n -> exists p', In p' (y_pcs s) /\ mark p' = Some n) by eauto.
  assert (IP := nth_error_In _ _ N).
  assert (SET : forall z, y_pcs s' = set_nth t z (y_pcs s) -> (mark z = None \/ mark z = mark p) ->
    forall q n, In q (y_pcs s') -> mark q = Some n -> exists p', In p' (y_pcs s) /\ mark p' = Some n).
  { intros z Z M q n Q MQ. rewrite Z in Q. apply in_set_nth_other in Q as [->|(u & _ & U)].
    - exists p. destruct M; split; auto; congruence.
    - exists q. split; auto. eapply nth_error_In; eauto. }
  assert (BC : forall c z, bcall hwm cap s t c z = Some s' -> y_pcs s' = set_nth t z (y_pcs s)).
  { intros c z B. unfold bcall in B. destruct (cexec (y_buf s) (Call t c)); inversion B; auto. }
  assert (BS : forall k, bstep hwm cap s t k = Some s' ->
    (forall bp z, k bp = Some z -> mark z = None \/ mark z = mark p) ->
    forall q n, In q (y_pcs s') -> mark q = Some n -> exists p', In p' (y_pcs s) /\ mark p' = Some n).
  { intros k B K. unfold bstep in B. destruct (cexec (y_buf s) (Step t)) as [c|]; [|discriminate].
    destruct (nth_error (cs_pcs c) t) as [bp|]; [|discriminate].
    destruct (k bp) as [z|] eqn:KZ; inversion B; subst s'; [apply (SET z); auto; eapply K; eauto|auto]. }
  intros q n Q MQ.
  destruct p; cbn [SysModel.run] in E; unfold deref, get_step, end_step in E; try discriminate.
  all: repeat match type of E with context[match ?x with _ => _ end] => destruct x eqn:?; try discriminate E end.
  all: try (injection E as E; subst s'; cbn [w_buf w_heap w_next w_cur w_prev w_flag w_jobs w_ans halt go y_pcs] in Q).
  all: try (left; eapply OLD; eauto; fail).
  all: try (apply BC in E; rewrite E in Q).
  all: try (left; apply in_set_nth_other in Q as [->|(u & _ & U)]; [|exists q; split; [eapply nth_error_In; eauto|auto]];
            first [discriminate MQ|destruct w as [[]|]; discriminate MQ|destruct f; discriminate MQ|
                   eexists; split; [exact IP|exact MQ]]).
  all: try (left; eapply BS; eauto; intros bp z KZ; destruct bp; cbn in KZ; inversion KZ; subst; cbn; auto; fail).
  - unfold bstep in E. destruct (BufConcModel.cexec hwm cap (y_buf s) (Step t)) as [c|] eqn:X; [|discriminate].
    pose proof X as X'. cbn in X'. destruct (nth_error (bpcs s) t) as [bp|] eqn:NB; [|discriminate].
    destruct (exec (cs_buf (y_buf s)) bp) as [[c' bp']|] eqn:EX; [|discriminate]. inversion X' as [X2]. clear X'.
    assert (NT : nth_error (cs_pcs c) t = Some bp') by (rewrite <- X2; cbn; eapply nth_set_same; eauto).
    rewrite NT in E. destruct bp'; cbn [on_hold] in E; try (inversion E; subst s'; left; eapply OLD; eauto; fail).
    destruct (exec_hold _ _ _ _ _ EX) as (-> & -> & ->). inversion E; subst s'. rewrite X2. cbn in Q.
    apply in_set_nth_other in Q as [->|(u & _ & U)]; [|left; exists q; split; [eapply nth_error_In; eauto|auto]].
    right. exists a, h. cbn in MQ. inversion MQ. auto.
  - left. cbn in Q. apply in_map_iff in Q as (z & <- & Z). apply in_set_nth_other in Z as [->|(u & _ & U)]; [discriminate|].
    exists z. split; [eapply nth_error_In; eauto|]. destruct z; auto.
Qed.

Lemma floors_step : forall s st g x s', inv s st g -> floors s -> calm_on cap SL s x -> sexec s x = Some s' -> floors s'.
Proof.
  intros s st g x s' I F CA E.
  assert (KEEP : forall n, floor (y_buf s) n -> floor (y_buf s') n).
  { intros n FN. destruct (sexec_buf _ _ _ _ _ I E) as [->|(a & _ & X & _)]; auto. eapply floor_step; eauto. }
  assert (OLD : forall q n, (exists p', In p' (y_pcs s) /\ mark p' = Some n) -> mark q = Some n -> floor (y_buf s') n).
  { intros q n (p' & P & M) _. apply KEEP. eapply F; eauto. }
  assert (SET : forall t z, y_pcs s' = set_nth t z (y_pcs s) -> mark z = None -> floors s').
  { intros t z Z M q n Q MQ. rewrite Z in Q. apply in_set_nth_other in Q as [->|(u & _ & U)]; [congruence|].
    eapply (OLD q); eauto. exists q. split; auto. eapply nth_error_In; eauto. }
  unfold SysModel.sexec in E. destruct (y_stop s) eqn:NS; [discriminate|]. destruct x as [t c|t|t a|t].
  - destruct (nth_error (y_pcs s) t) as [[]|] eqn:N; try discriminate.
    destruct c; [| | |destruct (y_jobs s) eqn:J; [discriminate|]]; inversion E; subst; (eapply SET; [reflexivity|reflexivity]).
  - destruct (nth_error (y_pcs s) t) as [p|] eqn:N; [|discriminate]. intros q n Q MQ.
    destruct (mark_run _ _ _ _ N E _ _ Q MQ) as [O|(a & h & -> & NB & -> & X)]; [eauto|].
    cbn in CA. rewrite N, NB in CA. apply (floor_step _ _ _ _ X). split; auto. intros y Y ZS. destruct (CA y Y ZS).
  - destruct (nth_error (y_pcs s) t) as [[]|] eqn:N; try discriminate.
    destruct (y_heap s a) eqn:A; [discriminate|]. unfold deref in E. destruct (y_heap s e); inversion E; subst.
    + eapply SET; [reflexivity|reflexivity].
    + intros q n Q MQ. eapply (OLD q); eauto.
  - destruct (nth_error (y_pcs s) t) as [[]|] eqn:N; try discriminate; inversion E; subst; (eapply SET; [reflexivity|reflexivity]).
Qed.

(** Calm executions are disciplined. *)
Lemma calm_on_reach : forall n s, sreach lwm hwm cap (calm_on cap SL) (sys_init hwm cap n) s ->
  creach hwm cap (disciplined_on cap SL) (cs_init hwm cap n) (y_buf s) /\ floors s.
Proof.
  intros n s C. remember (sys_init hwm cap n) as s0. induction C; subst.
  - split; [constructor|]. intros p m P M. apply repeat_spec in P. subst. discriminate.
  - destruct (IHC eq_refl) as [CR F]. destruct (sys_reach _ _ _ _ _ _ C) as [[[(st & g & I) NS]|A] _].
    + split; [|eapply floors_step; eauto]. destruct (sexec_buf _ _ _ _ _ I H0) as [->|(a & P1 & P2 & P3)]; auto.
      econstructor; eauto. split; auto. destruct a; cbn; auto. apply (F (DAdv n0)); auto.
    + unfold SysModel.sexec in H0. rewrite A in H0. discriminate.
Qed.

(** Calm for all slots is the strictest. *)
Lemma calm_any : forall s s', sreach lwm hwm cap calm s s' -> sreach lwm hwm cap (calm_on cap SL) s s'.
Proof.
  intros s s' C. induction C; [apply sr_refl|]. eapply sr_step; eauto.
  destruct x; cbn in *; auto. destruct (nth_error (y_pcs s1) t) as [[]|]; auto. destruct (nth_error (bpcs s1) t) as [[]|]; auto.
  intros y Y. rewrite H in Y. contradiction.
Qed.

End SC.

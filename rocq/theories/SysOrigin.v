(** Where the records come from that jobs read, in any execution. *)
From Coq Require Import List Arith ZArith NArith Lia Bool.
From Verif Require Import Base ListLemmas RecordModel RecordProofs BufferModel BufConcModel BufConcProofs BufConcData SysModel SysInv.
Import ListNotations.

Section SO.
Context {R : Type} {RO : RecOps R}.
Variables lwm hwm cap : nat.
Notation exec := (exec hwm cap).
Notation cexec := (cexec hwm cap).
Notation sexec := (sexec lwm hwm cap).
Notation run := (run lwm hwm cap).
Notation bpcs s := (cs_pcs (y_buf s)).
Notation data b := (cb_data (cs_buf b)).
Implicit Types (s : sys R) (b : cstate R) (w : wrapped R).

(** The records that may be inserted. *)
Variable P : R -> bool -> Prop.

Definition good w : Prop := P (wrec w) (is_ts w) /\ is_del w = false.
Definition from w : Prop := good w \/ w = W 0 rzero.
Notation all := (Forall from).
Definition wrote (d : list (wrapped R)) (i : nat) : Prop := forall w, nth_error d i = Some w -> good w.

(** ** The buffer *)

Definition bpc_from (d : list (wrapped R)) (p : pc R) : Prop :=
  match p with
  | ALoad r ts | AHead r ts _ | ACas r ts _ | ARetry r ts _ | AWrite r ts _ => P r ts
  | AStamp r ts i | AVis r ts i => P r ts /\ wrote d (i mod cap)
  | _ => True
  end.

Definition buf_from b : Prop := all (data b) /\ (forall p, In p (cs_pcs b) -> bpc_from (data b) p).

Lemma good_fresh : forall r ts, P r ts -> good (fresh r ts).
Proof. intros r [] H; split; auto. Qed.

Lemma good_stamp : forall i w, good w -> good (stamp i w).
Proof.
  intros i w H. unfold good, stamp, is_ts, is_del in *. cbn [wrec hdr].
  rewrite h_is_tombstone_bit, h_is_deleted_bit in *. unfold h_set_timestamp, w32. rewrite !N.lor_spec.
  rewrite !N.mod_pow2_bits_low by lia. rewrite !N.shiftl_spec_low by lia. rewrite !orb_false_r. auto.
Qed.

Lemma good_show : forall w, good w -> good (show w).
Proof.
  intros w H. unfold good, show, is_ts, is_del in *. cbn [wrec hdr].
  rewrite h_is_tombstone_bit, h_is_deleted_bit in *. unfold h_set_visible. rewrite !N.lor_spec.
  cbn [N.testbit Pos.testbit]. rewrite !orb_false_r. auto.
Qed.

Lemma slot_from : forall c i f, all (cb_data c) -> (forall w, nth_error (cb_data c) i = Some w -> good (f w)) ->
  all (cb_data (with_slot c i f)) /\ wrote (cb_data (with_slot c i f)) i /\
  (forall j, wrote (cb_data c) j -> wrote (cb_data (with_slot c i f)) j).
Proof.
  intros c i f A G. unfold with_slot. cbn [cb_data]. destruct (nth_error (cb_data c) i) as [w|] eqn:N.
  - assert (W : wrote (set_nth i (f w) (cb_data c)) i).
    { intros v V. rewrite (nth_set_same _ _ _ _ N) in V. inversion V; subst. auto. }
    split; [|split; auto].
    + apply Forall_forall. intros v V. apply in_set_nth_other in V as [->|(u & _ & U)]; [left; auto|].
      rewrite Forall_forall in A. apply A. eapply nth_error_In; eauto.
    + intros j J. destruct (Nat.eq_dec j i) as [->|NE]; auto. intros v V. rewrite nth_set_other in V; auto.
  - split; auto. split; auto. intros v V. congruence.
Qed.

Lemma exec_from : forall c p c' p', exec c p = Some (c', p') -> all (cb_data c) -> bpc_from (cb_data c) p ->
  all (cb_data c') /\ bpc_from (cb_data c') p' /\ (forall i, wrote (cb_data c) i -> wrote (cb_data c') i).
Proof.
  intros c p c' p' E A B. destruct p; cbn [BufConcModel.exec] in E; try discriminate;
    repeat match type of E with context [if ?x then _ else _] => destruct x end;
    try (inversion E; subst; cbn in *; auto; fail).
  - inversion E; subst. cbn in B. destruct (slot_from c (p mod cap) (fun _ => fresh r ts) A) as (H1 & H2 & H3).
    { intros. apply good_fresh; auto. } split; auto. split; auto. split; auto.
  - inversion E; subst. destruct B as [B1 B2]. destruct (slot_from c (p mod cap) (stamp (p mod cap)) A) as (H1 & H2 & H3).
    { intros. apply good_stamp; auto. } split; auto. split; auto. split; auto.
  - inversion E; subst. destruct B as [B1 B2]. destruct (slot_from c (p mod cap) show A) as (H1 & H2 & H3).
    { intros. apply good_show; auto. } split; auto. split; auto. exact Logic.I.
Qed.

Lemma bpc_mono : forall d d' p, (forall i, wrote d i -> wrote d' i) -> bpc_from d p -> bpc_from d' p.
Proof. intros d d' [] H B; cbn in *; auto; destruct B; auto. Qed.

(** Calls of the buffer. *)
Definition call_from (c : call R) : Prop := match c with Append r ts => P r ts | _ => True end.

Lemma cexec_from : forall b a b', cexec b a = Some b' -> buf_from b ->
  (forall t c, a = Call t c -> call_from c) -> buf_from b'.
Proof.
  intros b a b' E [A B] C. destruct a as [t c|t|n|]; cbn in E.
  - destruct (nth_error (cs_pcs b) t) as [p|] eqn:N; [|discriminate]. destruct (begin c p) as [p'|] eqn:G; [|discriminate].
    inversion E; subst. split; auto. cbn. intros z Z. apply in_set_nth_other in Z as [->|(u & _ & U)].
    + specialize (C _ _ eq_refl). destruct c, p; inversion G; subst; cbn in *; auto.
    + apply B. eapply nth_error_In; eauto.
  - destruct (nth_error (cs_pcs b) t) as [p|] eqn:N; [|discriminate].
    destruct (exec (cs_buf b) p) as [[c' p']|] eqn:X; [|discriminate]. inversion E; subst.
    destruct (exec_from _ _ _ _ X A (B _ (nth_error_In _ _ N))) as (H1 & H2 & H3). split; auto. cbn.
    intros z Z. apply in_set_nth_other in Z as [->|(u & _ & U)]; auto.
    eapply bpc_mono; eauto. apply B. eapply nth_error_In; eauto.
  - destruct (cs_adv b); inversion E; subst. split; auto.
  - destruct (vexec (cs_buf b) (cs_adv b)) as [[c' v']|] eqn:V; [|discriminate]. inversion E; subst.
    assert (D : cb_data c' = data b).
    { destruct (cs_adv b); cbn in V; try discriminate; try (inversion V; subst; reflexivity).
      destruct (head_eqb _ _); inversion V; subst; reflexivity. }
    unfold buf_from. cbn. rewrite D. split; auto.
Qed.

(** ** The whole *)

Definition runs_from (l : list (list (wrapped R))) : Prop := Forall all l.

Definition pc_from (p : spc R) : Prop :=
  match p with
  | SGet _ (ForNew r ts) | SEnd _ _ (ToNew r ts) => P r ts
  | ILow r ts | ILowH r ts _ | ILowT r ts _ | IFlag r ts | IApp r ts | NNull r ts | NClone _ r ts | NStore _ _ r ts
  | NLoad r ts | NTask _ r ts => P r ts
  | JView _ _ _ pre | JHold _ _ _ pre => runs_from pre
  | JRead _ _ _ pre _ _ acc => runs_from pre /\ all acc
  | JShards _ _ _ _ _ acc | RRead _ _ _ acc | RFlush _ _ acc => all acc
  | _ => True
  end.

Definition ans_from (a : answer R) : Prop :=
  match a with AList _ runs buf => runs_from runs /\ all buf | ACount _ _ => True end.

Record oinv s : Prop := {
  o_buf : buf_from (y_buf s);
  o_heap : forall e x, y_heap s e = Some x -> runs_from (e_runs x);
  o_pcs : forall p, In p (y_pcs s) -> pc_from p;
  o_ans : forall a, In a (y_ans s) -> ans_from a
}.

Lemma peek_from : forall s x, oinv s -> from (peek cap s x).
Proof.
  intros s x O. unfold peek. destruct (nth_in_or_default (x mod cap) (data (y_buf s)) (W 0 rzero)) as [I| ->]; [|right; auto].
  destruct (o_buf _ O) as [A _]. rewrite Forall_forall in A. auto.
Qed.

Lemma set_from : forall s t q, oinv s -> pc_from q -> forall z, In z (set_nth t q (y_pcs s)) -> pc_from z.
Proof.
  intros s t q O Q z Z. apply in_set_nth_other in Z as [->|(u & _ & U)]; auto. apply (o_pcs _ O). eapply nth_error_In; eauto.
Qed.

Lemma go_from : forall s s1 t q, oinv s -> pc_from q -> y_buf s1 = y_buf s -> y_heap s1 = y_heap s ->
  y_pcs s1 = set_nth t q (y_pcs s) -> y_ans s1 = y_ans s -> oinv s1.
Proof.
  intros s s1 t q O Q E1 E2 E3 E4. constructor; rewrite ?E1, ?E2, ?E3, ?E4; try apply O. apply set_from; auto.
Qed.

Lemma ans_go_from : forall s t q a, oinv s -> pc_from q -> ans_from a -> oinv (go (w_ans s a) t q).
Proof.
  intros s t q a O Q A. constructor; try apply O; cbn.
  - apply set_from; auto.
  - intros x [<-|I]; auto. apply (o_ans _ O). auto.
Qed.

Lemma halt_from : forall s f, oinv s -> oinv (halt s f).
Proof. intros s f O. constructor; apply O. Qed.

Lemma heap_from : forall s t q a y, oinv s -> pc_from q -> (forall x, y = Some x -> runs_from (e_runs x)) ->
  oinv (go (w_heap s (upd (y_heap s) a y)) t q).
Proof.
  intros s t q a y O Q Y. constructor; try apply O; cbn.
  - intros e x. unfold upd. destruct (e =? a); auto. apply (o_heap _ O).
  - apply set_from; auto.
Qed.

Lemma bcall_from : forall s t c q s', oinv s -> bcall hwm cap s t c q = Some s' -> call_from c -> pc_from q -> oinv s'.
Proof.
  intros s t c q s' O E C Q. unfold bcall in E. destruct (cexec (y_buf s) (Call t c)) as [b|] eqn:X; [|discriminate].
  inversion E; subst. constructor; try apply O; cbn; [|apply set_from; auto].
  eapply cexec_from; eauto; [apply O|]. intros t1 c1 H. inversion H; subst. auto.
Qed.

Lemma bstep_from : forall s t k s', oinv s -> bstep hwm cap s t k = Some s' -> (forall bp q, k bp = Some q -> pc_from q) -> oinv s'.
Proof.
  intros s t k s' O E K. unfold bstep in E. destruct (cexec (y_buf s) (Step t)) as [b|] eqn:X; [|discriminate].
  assert (B : buf_from b) by (eapply cexec_from; eauto; [apply O|discriminate]).
  destruct (nth_error (cs_pcs b) t) as [bp|]; [|discriminate].
  destruct (k bp) as [q|] eqn:KQ; inversion E; subst; constructor; try apply O; cbn; auto.
  apply set_from; eauto.
Qed.

Lemma run_from : forall s t p s', oinv s -> pc_from p -> run s t p = Some s' -> oinv s'.
Proof.
  intros s t p s' O PF E.
  assert (SET : forall s1 q, pc_from q -> y_buf s1 = y_buf s -> y_heap s1 = y_heap s ->
    y_pcs s1 = set_nth t q (y_pcs s) -> y_ans s1 = y_ans s -> oinv s1) by (intros; eapply go_from; eauto).
  destruct p; cbn [SysModel.run] in E; unfold deref in E; try discriminate;
    try (injection E as <-; eapply SET; [|reflexivity..]; exact PF);
    try (eapply bcall_from; eauto; cbn; auto; fail);
    try (eapply bstep_from; eauto; intros b1 q1 K1; destruct b1; inversion K1; subst; cbn in *; auto; fail).
  - injection E as <-. unfold get_step. destruct g;
      [| |destruct (cell_eqb _ _); [destruct (c_ep old)|]| |destruct (cell_eqb _ _); [destruct (c_ep old)|]];
      (eapply SET; [|reflexivity..]); auto; destruct w as [[]|]; cbn in *; auto; constructor.
  - injection E as <-. unfold end_step. destruct j.
    1: eapply SET; [|reflexivity..]; exact PF.
    1,3: destruct (c_ep _); [destruct (_ =? _); [apply halt_from; auto|]|]; (eapply SET; [|reflexivity..]); exact PF.
    1,2: destruct (cell_eqb _ _); (eapply SET; [|reflexivity..]); destruct f; cbn in *; auto.
  - destruct (y_heap s e) as [x|] eqn:X; injection E as <-; [|apply halt_from; auto].
    eapply SET; [|reflexivity..]. cbn. apply (o_heap _ O _ _ X).
  - destruct (y_heap s e) as [x|] eqn:X; [|injection E as <-; apply halt_from; auto]. eapply bcall_from; eauto; cbn; auto.
  - cbn in PF. destruct PF as [PF1 PF2].
    assert (ACC : all (acc ++ [peek cap s (h + length acc)])).
    { apply Forall_app. split; auto. constructor; auto. apply peek_from; auto. }
    destruct k; [destruct (_ <? _)| |destruct (_ <? _)|]; injection E as <-;
      try (eapply SET; [|reflexivity..]; cbn; auto; fail). apply ans_go_from; cbn; auto.
  - destruct (y_heap s e) as [x|] eqn:X; injection E as <-; [|apply halt_from; auto].
    pose proof (o_heap _ O _ _ X). destruct k; try (apply ans_go_from; cbn in *; auto; fail).
    eapply SET; [|reflexivity..]; cbn; auto.
  - destruct (_ || _); injection E as <-; (eapply SET; [|reflexivity..]); exact PF.
  - destruct (_ || _); injection E as <-; (eapply SET; [|reflexivity..]); exact PF.
  - destruct (y_flag s); injection E as <-; (eapply SET; [|reflexivity..]); exact PF.
  - destruct (c_ep (y_next s)); injection E as <-; [apply halt_from; auto|]. eapply SET; [|reflexivity..]; exact PF.
  - destruct (c_ep (y_next s)); injection E as <-; [|apply halt_from; auto]. eapply SET; [|reflexivity..]; exact PF.
  - destruct (y_heap s a); injection E as <-; [|apply halt_from; auto]. eapply SET; [|reflexivity..]; exact PF.
  - destruct (y_heap s a); [|injection E as <-; apply halt_from; auto]. eapply bcall_from; eauto; cbn; auto.
  - cbn in PF. destruct (_ <? _); injection E as <-; (eapply SET; [|reflexivity..]); cbn; auto.
    apply Forall_app. split; auto. constructor; auto. apply peek_from; auto.
  - destruct (y_heap s a) as [x|] eqn:X; injection E as <-; [|apply halt_from; auto]. cbn in PF.
    apply heap_from; cbn; auto. intros y Y. inversion Y; subst y. cbn. apply Forall_app. split; [apply (o_heap _ O _ _ X)|]. constructor; auto.
  - injection E as <-. eapply SET; [|reflexivity..]. destruct (c_ep _); exact Logic.I.
  - injection E as <-. destruct (_ && _); auto. eapply SET; [|reflexivity..]; exact PF.
  - injection E as <-. destruct (cell_eqb _ _); (eapply SET; [|reflexivity..]); exact PF.
  - destruct (y_heap s p) as [x|] eqn:X; injection E as <-; [|apply halt_from; auto]. apply heap_from; cbn; auto. discriminate.
  - injection E as <-. destruct (cell_eqb _ _); (eapply SET; [|reflexivity..]); exact PF.
  - destruct (c_ep (y_next s)) as [a|]; [|injection E as <-; apply halt_from; auto].
    destruct (y_heap s a) as [x|] eqn:X; [|injection E as <-; apply halt_from; auto].
    destruct (BufConcModel.cexec hwm cap (y_buf s) (Advance n)) as [b|] eqn:Y; [|discriminate E]. injection E as <-.
    constructor; cbn; try apply O; [|intros e y; unfold upd; destruct (e =? a); [|apply (o_heap _ O)]|apply set_from; auto].
    + eapply cexec_from; eauto; [apply O|discriminate].
    + intro H. inversion H; subst. apply (o_heap _ O _ _ X).
  - destruct (BufConcModel.cexec hwm cap (y_buf s) AdvStep) as [b|] eqn:Y; [|discriminate E]. injection E as <-.
    assert (B : buf_from b) by (eapply cexec_from; eauto; [apply O|discriminate]).
    destruct (cs_adv b); constructor; cbn; try apply O; auto. apply set_from; auto. destruct (cs_adv (y_buf s)); exact Logic.I.
  - injection E as <-. constructor; try apply O. cbn. intros z Z. apply in_map_iff in Z as (y & <- & Y).
    assert (F : pc_from y) by (eapply (set_from s t DFlag); eauto; exact Logic.I). destruct y; exact F.
  - injection E as <-. eapply SET; [|reflexivity..]. destruct (c_ep _); exact Logic.I.
Qed.

(** Only records that satisfy [P] are inserted. *)
Definition only (s : sys R) (x : sact R) : Prop :=
  match x with UCall _ (UInsert r ts) => P r ts | _ => True end.

Lemma exec_origin : forall s x s', oinv s -> only s x -> sexec s x = Some s' -> oinv s'.
Proof.
  intros s x s' O C E. unfold SysModel.sexec in E. destruct (y_stop s); [discriminate|].
  destruct x as [t c|t|t a|t]; destruct (nth_error (y_pcs s) t) as [p|] eqn:N; try discriminate;
    pose proof (o_pcs _ O _ (nth_error_In _ _ N)) as PF.
  - destruct p; try discriminate.
    destruct c; [| | |destruct (y_jobs s) as [|a js]; [discriminate|]]; injection E as <-; (eapply (go_from s); [exact O| |reflexivity..]); exact C.
  - eapply run_from; eauto.
  - destruct p; try discriminate. destruct (y_heap s a); [discriminate|]. unfold deref in E.
    destruct (y_heap s e) as [x|] eqn:X; injection E as <-; [|apply halt_from; auto].
    apply heap_from; auto. intros y Y. inversion Y; subst. apply (o_heap _ O _ _ X).
  - destruct p; try discriminate; injection E as <-.
    + eapply (go_from s _ t (ILowT r ts _)); [exact O|exact PF|reflexivity..].
    + eapply (go_from s _ t WLoad); [exact O|exact Logic.I|reflexivity..].
Qed.

Lemma init_origin : forall n, oinv (sys_init hwm cap n).
Proof.
  intro n. constructor; cbn.
  - split; cbn.
    + apply Forall_forall. intros w I. apply repeat_spec in I. subst. right. auto.
    + intros p I. apply repeat_spec in I. subst. exact Logic.I.
  - intros e x. destruct (e =? 0); intro X; inversion X; subst. constructor.
  - intros p I. apply repeat_spec in I. subst. exact Logic.I.
  - contradiction.
Qed.

Lemma origin_reach : forall n s, sreach lwm hwm cap only (sys_init hwm cap n) s -> oinv s.
Proof.
  intros n s C. remember (sys_init hwm cap n) as s0. induction C; subst; [apply init_origin|]. eapply exec_origin; eauto.
Qed.

Lemma runs_in : forall runs w, runs_from runs -> In w (concat runs) -> from w.
Proof.
  intros runs w X I. apply in_concat in I as (r & I1 & I2). unfold runs_from in X. rewrite Forall_forall in X. specialize (X _ I1).
  rewrite Forall_forall in X. exact (X _ I2).
Qed.

Lemma answer_from : forall s seen runs buf w, oinv s -> In (AList seen runs buf) (y_ans s) -> In w (concat runs ++ buf) -> from w.
Proof.
  intros s seen runs buf w O A I. destruct (o_ans _ O _ A) as [X Y]. apply in_app_iff in I as [I|I].
  - eapply runs_in; eauto.
  - rewrite Forall_forall in Y. exact (Y _ I).
Qed.

Lemma epoch_from : forall s e x w, oinv s -> y_heap s e = Some x -> In w (e_recs x) -> from w.
Proof. intros s e x w O X I. eapply runs_in; eauto. apply (o_heap _ O _ _ X). Qed.

End SO.

Section SO2.
Context {R : Type} {RO : RecOps R}.
Variables lwm hwm cap : nat.

Lemma reach_step_l : forall (ok : sys R -> sact R -> Prop) (s s1 s2 : sys R) x, ok s x -> sexec lwm hwm cap s x = Some s1 ->
  sreach lwm hwm cap ok s1 s2 -> sreach lwm hwm cap ok s s2.
Proof.
  intros ok s s1 s2 x O E C. induction C; [eapply sr_step; [apply sr_refl|exact O|exact E]|eapply sr_step; eauto].
Qed.

Lemma sched_reach : forall (ok : sys R -> sact R -> Prop) l (s s' : sys R), (forall s x, In x l -> ok s x) -> ssched lwm hwm cap s l = Some s' ->
  sreach lwm hwm cap ok s s'.
Proof.
  induction l as [|x l IH]; intros s s' O E; cbn in E; [inversion E; subst; apply sr_refl|].
  destruct (sexec lwm hwm cap s x) as [s1|] eqn:X; [|discriminate].
  eapply reach_step_l; [apply O; left; reflexivity|exact X|]. apply IH; auto. intros; apply O; right; auto.
Qed.

(** Inserted by a call of the schedule [l]. *)
Definition called (l : list (sact R)) (r : R) (ts : bool) : Prop := exists t, In (UCall t (UInsert r ts)) l.

Lemma sched_origin : forall l n s, ssched lwm hwm cap (sys_init hwm cap n) l = Some s -> oinv cap (called l) s.
Proof.
  intros l n s E. apply (origin_reach lwm hwm cap (called l) n). apply (sched_reach _ l); auto.
  intros s0 x I. destruct x as [t []| | |]; cbn; auto. exists t. auto.
Qed.

Theorem answers_origin : forall l n s seen runs buf w, ssched lwm hwm cap (sys_init hwm cap n) l = Some s ->
  In (AList seen runs buf) (y_ans s) -> In w (concat runs ++ buf) ->
  (exists t, In (UCall t (UInsert (wrec w) (is_ts w))) l) \/ w = W 0 rzero.
Proof.
  intros l n s seen runs buf w E A I. destruct (answer_from _ _ _ _ _ _ _ (sched_origin _ _ _ E) A I) as [[X _]|X]; auto.
Qed.

Theorem epochs_origin : forall l n s e x w, ssched lwm hwm cap (sys_init hwm cap n) l = Some s ->
  y_heap s e = Some x -> In w (e_recs x) ->
  (exists t, In (UCall t (UInsert (wrec w) (is_ts w))) l) \/ w = W 0 rzero.
Proof.
  intros l n s e x w E X I. destruct (epoch_from _ _ _ _ _ _ (sched_origin _ _ _ E) X I) as [[Y _]|Y]; auto.
Qed.

End SO2.

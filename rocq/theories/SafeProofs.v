(** Executions without lost references. *)
From Coq Require Import List Arith ZArith NArith Lia Bool.
From Verif Require Import Base ListLemmas RecordModel BufferModel BufConcModel BufConcProofs BufConcView BufConcData SysModel SysInv
  SysSteps SysRun SysMain SysCalm SysTrace SoloSpec SoloProofs SafeSpec.
Import ListNotations.

Section SF.
Context {R : Type} {RO : RecOps R}.
Variables lwm hwm cap : nat.
Notation exec := (exec hwm cap).
Notation cexec := (cexec hwm cap).
Notation sexec := (sexec lwm hwm cap).
Notation run := (run lwm hwm cap).
Notation inv := (inv hwm cap).
Notation kinv := (kinv hwm cap (fun _ => False)).
Notation bpcs s := (cs_pcs (y_buf s)).
Notation bbuf s := (cs_buf (y_buf s)).
Notation adv s := (cs_adv (y_buf s)).
Notation hd b := (hidx (cb_head b)).
Notation od b := (hidx (cb_old b)).
Notation reach n s := (sreach lwm hwm cap (fun _ _ => True) (sys_init hwm cap n) s).
Implicit Types (s : sys R) (p q : spc R) (b : cbuf R) (bp : pc R).

Ltac split_if H := repeat match type of H with
  | context[if ?c then _ else _] => let F := fresh "F" in destruct c eqn:F end.

(** ** The buffer *)

Definition swinging (v : vpc) : bool := match v with VOld _ _ => true | _ => false end.

Record bx (c : cstate R) : Prop := {
  bx_old : swinging (cs_adv c) = false -> href (cb_old (cs_buf c)) <= cnt (cs_pcs c) (od (cs_buf c));
  bx_ld : forall h, In (RCurLd h) (cs_pcs c) -> swinging (cs_adv c) = false -> h = hd (cs_buf c);
  bx_cas : forall h cur, In (RCurCas h cur) (cs_pcs c) -> hidx cur = h
}.

Lemma swing_not : forall v, swinging v = false -> forall n cur, v <> VOld n cur.
Proof. intros [] H n0 c0 E; congruence || discriminate. Qed.

Lemma holder : forall (c : cstate R) bp h, kinv c -> In bp (cs_pcs c) -> BufConcModel.holds h bp = true -> swinging (cs_adv c) = false ->
  h = od (cs_buf c) \/ h = hd (cs_buf c).
Proof.
  intros c bp h K I H V. pose proof (k_refs _ _ _ _ K) as F. apply refs_out in F; [|apply swing_not; auto].
  destruct F as (_ & _ & F & _). destruct (Nat.eq_dec h (od (cs_buf c))); auto. destruct (Nat.eq_dec h (hd (cs_buf c))); auto.
  specialize (F h n n0). pose proof (countb_in (BufConcModel.holds h) _ _ I H). unfold cnt in F. lia.
Qed.

Lemma bx_thread : forall c t c', kinv c -> bx c -> cexec c (Step t) = Some c' -> bx c'.
Proof.
  intros c t c' K [B1 B2 B3] E. pose proof (holder c) as HO. destruct c as [b l v d].
  pose proof (k_refs _ _ _ _ K) as F. pose proof (k_j _ _ _ _ K) as J. pose proof (k_pc _ _ _ _ K) as PC.
  cbn [BufConcModel.cexec cs_buf cs_pcs cs_adv cs_done] in *.
  destruct (nth_error l t) as [p|] eqn:N; [|discriminate].
  destruct (exec b p) as [[b' p']|] eqn:X; [|discriminate]. inversion E; subst; clear E.
  pose proof (nth_error_In _ _ N) as IN.
  destruct (exec_K hwm cap b p b' p' X (j_pcs _ _ _ J p IN) (PC p IN)) as (T & H & O & PK & SS & C).
  { intros u U. eapply target_le; [exact F|apply (j_le _ _ _ J)|eapply (k_seek _ _ _ _ K); eauto]. }
  constructor; cbn [cs_buf cs_pcs cs_adv].
  - intros V. specialize (B1 V). pose proof (cnt_set l t p p' (od b) N) as Y. rewrite O.
    apply refs_out in F; [|apply swing_not; auto]. destruct F as (_ & _ & _ & NE & _).
    destruct C as [(C1 & C3 & C4)|[(C1 & C3 & C4 & C5)|[(C1 & C3 & C4 & C5)|[(C1 & C3 & C4 & C5)|(C1 & C3 & C4 & h & C5)]]]].
    + rewrite C4 in Y. rewrite C3. lia.
    + destruct (C5 (od b)) as [Z1 Z2]. rewrite Z1, Z2, Nat.eqb_refl in Y. rewrite C3. cbn [href]. lia.
    + destruct (C5 (od b)) as [Z1 Z2]. rewrite Z1, Z2 in Y. destruct (Nat.eqb_spec (hd b) (od b)); [congruence|]. rewrite C1. lia.
    + destruct (C5 (od b)) as [Z1 Z2]. rewrite Z1, Z2, Nat.eqb_refl in Y. rewrite C3. cbn [href]. lia.
    + assert (HE : h = hd b).
      { destruct (C5 h) as [Z1 Z2]. rewrite Nat.eqb_refl in Z2. clear - X Z1 Z2 C1 C3 C4 B3 IN PC.
        destruct p; cbn in Z2; try discriminate; cbn [BufConcModel.exec] in X; split_if X; inversion X; subst;
          cbn in Z1; try congruence.
        - apply Nat.eqb_eq in Z2. pose proof (PC _ IN) as Q. cbn in Q, C1. apply head_eqb_eq in F. subst cur.
          destruct (cb_old b) as [i k]. cbn in *. inversion C1. lia.
        - apply Nat.eqb_eq in Z2. apply head_eqb_eq in F. rewrite <- F in IN. rewrite (B3 _ _ IN). auto. }
      subst h. destruct (C5 (od b)) as [Z1 Z2]. rewrite Z1, Z2 in Y. destruct (Nat.eqb_spec (hd b) (od b)); [congruence|]. rewrite C1. lia.
  - intros h I V. rewrite H. apply in_set_nth in I as [Q|I]; [|auto]. subst p'.
    destruct p; cbn [BufConcModel.exec] in X; split_if X; inversion X; subst.
    destruct (HO _ h K IN) as [Q|Q]; auto; cbn.
    + apply Nat.eqb_refl.
    + cbn in Q. apply Nat.eqb_neq in F0. congruence.
  - intros h cur I. apply in_set_nth in I as [Q|I]; [|eapply B3; eauto]. subst p'.
    destruct p; cbn [BufConcModel.exec] in X; split_if X; inversion X; subst.
    destruct (swinging v) eqn:V; [|symmetry; apply B2; auto].
    destruct v; try discriminate. cbn in F. destruct F as (F & _). rewrite F in F0. cbn in F0. discriminate.
Qed.

Lemma bx_step : forall c a c', kinv c -> bx c -> cexec c a = Some c' ->
  (a = AdvStep -> swinging (cs_adv c) = true -> forall bp, In bp (cs_pcs c) -> dropping bp = false) -> bx c'.
Proof.
  intros c a c' K B E D. destruct a as [t k|t|n|]; [|eapply bx_thread; eauto| |].
  - destruct B as [B1 B2 B3]. destruct c as [b l v d]. cbn [BufConcModel.cexec cs_buf cs_pcs cs_adv cs_done] in *.
    destruct (nth_error l t) as [p|] eqn:N; [|discriminate]. destruct (begin k p) as [p'|] eqn:Q; [|discriminate]. inversion E; subst.
    assert (Y : (forall i, BufConcModel.holds i p' = BufConcModel.holds i p) /\ (forall h, p' <> RCurLd h) /\ (forall h cur, p' <> RCurCas h cur)).
    { destruct k; destruct p; cbn in Q; inversion Q; subst; cbn; repeat split; auto; try congruence. }
    destruct Y as (Y1 & Y2 & Y3). constructor; cbn [cs_buf cs_pcs cs_adv].
    + intros V. rewrite (cnt_same l t p p' N Y1). auto.
    + intros h I V. apply in_set_nth in I as [Z|I]; [symmetry in Z; apply Y2 in Z; contradiction|auto].
    + intros h cur I. apply in_set_nth in I as [Z|I]; [symmetry in Z; apply Y3 in Z; contradiction|eauto].
  - destruct B as [B1 B2 B3]. destruct c as [b l v d]. cbn [BufConcModel.cexec cs_buf cs_pcs cs_adv cs_done] in *.
    destruct v; inversion E; subst. constructor; cbn [cs_buf cs_pcs cs_adv] in *; auto.
  - destruct B as [B1 B2 B3]. pose proof (k_refs _ _ _ _ K) as F. destruct c as [b l v d]. cbn [BufConcModel.cexec cs_buf cs_pcs cs_adv cs_done] in *.
    destruct (vexec b v) as [[b' v']|] eqn:X; [|discriminate]. inversion E; subst; clear E. specialize (D eq_refl).
    destruct v as [|n|n|n|n|n cur|n cur|]; cbn [vexec] in X; try discriminate; split_if X; inversion X; subst; clear X;
      constructor; cbn [cs_buf cs_pcs cs_adv swinging with_head with_old cb_head cb_old hidx href] in *; auto; try discriminate.
    + intros _. cbn in F. destruct F as (F1 & F2 & F3 & _). lia.
    + intros h I _. specialize (D eq_refl _ I). discriminate.
Qed.

(** ** The epochs *)

Record ex s : Prop := {
  ex_prev : forall e k, y_prev s = Cell (Some e) k -> k = pins s e;
  ex_load : forall e f, In (SEnd ECurr e f) (y_pcs s) -> c_ep (y_cur s) <> None -> c_ep (y_cur s) = Some e;
  ex_cas : forall old e f, In (SEnd (ECurrCas old) e f) (y_pcs s) -> c_ep old = Some e
}.

(** The flushed positions are beyond the head until it moves. *)
Definition ahead s p : Prop :=
  match p with
  | RRead _ _ n _ | RFlush _ n _ | RRel _ n | RRelW _ n | DLoad n | DRet n _ | DRetCas n _ _ | DDel n _ | DCur n | DCurCas n _
  | DPrev n _ | DAdv n => hd (bbuf s) < n
  | DAdvW n => match adv s with VOld _ _ => True | _ => hd (bbuf s) < n end
  | _ => True
  end.

Record sx s : Prop := {
  sx_ex : ex s;
  sx_bx : bx (y_buf s);
  sx_ah : forall p, In p (y_pcs s) -> ahead s p
}.

Lemma cur_prev : forall s st g e, inv s st g -> c_ep (y_cur s) = Some e -> c_ep (y_prev s) <> Some e.
Proof.
  intros s st g e I C P. destruct I as [_ [_ IC] (_ & IPI & _) _ _ _ _].
  assert (Q : forall k : nat, y_prev s = pcell (g_prev g) -> y_cur s = Cell (Some (g_act g)) k -> False).
  { intros q E1 E2. rewrite E1 in P. rewrite E2 in C. cbn in C. destruct (g_prev g) as [[x y]|]; cbn in P; [|discriminate].
    destruct IPI as [_ N]. congruence. }
  destruct st; repeat match goal with H : _ /\ _ |- _ => destruct H end; eauto;
    try (rewrite H in C; discriminate); rewrite H0 in P; discriminate.
Qed.

(** What is known of the end of a job. *)
Definition leaver s p : Prop :=
  match p with
  | SEnd ECurr e _ => c_ep (y_cur s) <> None -> c_ep (y_cur s) = Some e
  | SEnd (ECurrCas old) e _ => c_ep old = Some e
  | _ => True
  end.

Lemma ex_all : forall s, ex s <-> (forall e k, y_prev s = Cell (Some e) k -> k = pins s e) /\ (forall p, In p (y_pcs s) -> leaver s p).
Proof.
  intros s. split.
  - intros [A B C]. split; auto. intros p I. destruct p; cbn; auto. destruct j; auto; [apply (B _ f)|apply (C _ _ f)]; auto.
  - intros [A B]. constructor; auto.
    + intros e f I. exact (B _ I).
    + intros old e f I. exact (B _ I).
Qed.

Lemma ex_move : forall s s' t p p', ex s -> nth_error (y_pcs s) t = Some p -> y_pcs s' = set_nth t p' (y_pcs s) ->
  (forall e k, y_prev s' = Cell (Some e) k -> k = pins s' e) ->
  (c_ep (y_cur s') = c_ep (y_cur s) \/ c_ep (y_cur s') = None \/ forall q, In q (y_pcs s) -> leaving q = false) ->
  leaver s' p' -> ex s'.
Proof.
  intros s s' t p p' X N E P C L. apply ex_all. split; [auto|]. apply ex_all in X as [_ X]. intros q I. rewrite E in I.
  apply in_set_nth in I as [-> |I]; [auto|]. specialize (X q I). destruct q; cbn in *; auto. destruct j; auto.
  destruct C as [C|[C|C]]; [rewrite C; auto|congruence|]. specialize (C _ I). discriminate.
Qed.

Lemma ex_keep : forall s s' t p p', ex s -> nth_error (y_pcs s) t = Some p -> y_pcs s' = set_nth t p' (y_pcs s) ->
  pinned p' = pinned p -> y_prev s' = y_prev s -> y_cur s' = y_cur s -> leaver s p' -> ex s'.
Proof.
  intros s s' t p p' X N E PN P C L. apply (ex_move s s' t p p'); auto.
  - intros e k Q. rewrite P in Q. rewrite (ex_prev _ X _ _ Q). pose proof (pins_set s _ t p p' e N E) as Y.
    unfold pins in *. unfold pin_eqb in Y. rewrite PN in Y. fold (@pin_eqb R) in Y.
    unfold pin_eqb. lia.
  - left. rewrite C. auto.
  - destruct p'; cbn in *; auto. destruct j; auto. rewrite C. auto.
Qed.

Lemma ex_same : forall s s', ex s -> y_pcs s' = y_pcs s -> y_prev s' = y_prev s -> y_cur s' = y_cur s -> ex s'.
Proof.
  intros s s' [A B C] E P Q. constructor; unfold pins in *; rewrite ?E, ?P, ?Q; auto.
Qed.

Lemma get_ex : forall s st g t j w, inv s st g -> ex s -> nth_error (y_pcs s) t = Some (SGet j w) -> ex (get_step s t j w).
Proof.
  intros s st g t j w I X N. destruct (bp_some _ _ _ _ _ _ _ I N) as (bp & NB & PO & LK).
  assert (GO : forall j', ex (go s t (SGet j' w))).
  { intros j'. apply (ex_keep s _ t (SGet j w) (SGet j' w)); cbn; auto. }
  assert (PG : forall e, pinned (got e w) = Some e) by (intros; destruct w as [[]|]; auto).
  assert (LG : forall s' e, leaver s' (got e w)) by (intros; destruct w as [[]|]; cbn; auto).
  destruct j; cbn [get_step]; auto.
  - destruct (cell_eqb (y_prev s) old) eqn:F; [|auto]. apply cell_eqb_eq in F. subst old.
    destruct (y_prev s) as [[e|] k] eqn:Y; cbn [c_ep c_ref]; [|auto].
    apply (ex_move s _ t (SGet (GPrevCas (Cell (Some e) k)) w) (got e w)); auto.
    intros e' k' Q. cbn in Q. inversion Q; subst. pose proof (ex_prev _ X _ _ Y) as Z.
    pose proof (pins_set s _ t _ (got e' w) e' N eq_refl) as W. unfold pins in *. cbn [go w_prev y_pcs].
    unfold pin_eqb at 2 4 in W. rewrite PG in W. cbn [pinned] in W. rewrite Nat.eqb_refl in W. lia.
  - destruct (cell_eqb (y_cur s) old) eqn:F; [|auto]. apply cell_eqb_eq in F. subst old.
    destruct (y_cur s) as [[e|] k] eqn:Y; cbn [c_ep c_ref]; [|auto].
    apply (ex_move s _ t (SGet (GCurrCas (Cell (Some e) k)) w) (got e w)); auto.
    + intros e' k' Q. cbn in Q. pose proof (ex_prev _ X _ _ Q) as Z.
      pose proof (cur_prev _ _ _ e I ltac:(rewrite Y; auto)) as NE. rewrite Q in NE. cbn in NE.
      pose proof (pins_set s _ t _ (got e w) e' N eq_refl) as W. unfold pins in *. cbn [go w_cur y_pcs].
      unfold pin_eqb at 2 4 in W. rewrite PG in W. cbn [pinned] in W. destruct (Nat.eqb_spec e e'); [congruence|]. lia.
    + left. cbn. rewrite Y. auto.
Qed.

Lemma end_ex : forall s st g t j e f, inv s st g -> ex s -> nth_error (y_pcs s) t = Some (SEnd j e f) ->
  ex (end_step s t j e f) /\ (y_stop s = None -> y_stop (end_step s t j e f) = None).
Proof.
  intros s st g t j e f I X N. destruct (bp_some _ _ _ _ _ _ _ I N) as (bp & NB & PO & LK).
  pose proof (pinned_active _ _ _ _ e (i_pins _ _ _ _ _ I) N eq_refl) as [PP AC].
  assert (GO : forall j', leaver s (SEnd j' e f) -> ex (go s t (SEnd j' e f))).
  { intros j' L. apply (ex_keep s _ t (SEnd j e f) (SEnd j' e f)); cbn; auto. }
  assert (PA : pinned (after f) = None) by (destruct f; auto).
  assert (LA : forall s', leaver s' (after f)) by (intros; destruct f; cbn; auto).
  assert (PI : forall e', countb (pin_eqb e') (set_nth t (after f) (y_pcs s)) + (if e =? e' then 1 else 0) = pins s e').
  { intro e'. pose proof (pins_set s _ t _ (after f) e' N eq_refl) as W. unfold pin_eqb at 2 3 in W. rewrite PA in W. cbn [pinned] in W. lia. }
  destruct j; cbn [end_step].
  - split; [|auto]. apply GO. destruct (ep_eqb (c_ep (y_prev s)) (Some e)) eqn:F; cbn; auto. intros NC.
    assert (NP : c_ep (y_prev s) <> Some e) by (intro Q; apply ep_eqb_eq in Q; congruence).
    destruct (i_cells _ _ _ _ _ I) as [_ IC]. destruct AC as [->|(q & G & _)].
    + destruct st; repeat match goal with H : _ /\ _ |- _ => destruct H end;
      try (match goal with H : y_cur s = Cell (Some _) _ |- _ => rewrite H; reflexivity end);
      match goal with H : y_cur s = null |- _ => rewrite H in NC; cbn in NC; congruence end.
    + exfalso. destruct st; repeat match goal with H : _ /\ _ |- _ => destruct H end; try congruence;
      match goal with H : y_prev s = pcell _ |- _ => rewrite H, G in NP; cbn in NP; congruence end.
  - cbn in PO. destruct (y_prev s) as [[x|] k] eqn:Y; cbn [c_ep c_ref] in *; [|discriminate]. inversion PO; subst x.
    pose proof (ex_prev _ X _ _ Y) as Z. destruct (Nat.eqb_spec k 0); [lia|]. split; [|auto]. apply GO. cbn. auto.
  - destruct (cell_eqb (y_prev s) old) eqn:F; [|split; [apply GO; cbn; auto|auto]]. split; [|auto].
    apply cell_eqb_eq in F. subst old. cbn in PO. destruct PO as (P1 & _ & P2).
    destruct (y_prev s) as [[x|] k] eqn:Y; cbn [c_ep c_ref] in *; [|discriminate]. inversion P1; subst x.
    apply (ex_move s _ t (SEnd (EPrevCas (Cell (Some e) k)) e f) (after f)); auto.
    intros e' k' Q. cbn in Q. inversion Q; subst. pose proof (ex_prev _ X _ _ Y) as Z.
    specialize (PI e'). rewrite Nat.eqb_refl in PI. unfold pins in *. cbn [go w_prev y_pcs]. lia.
  - assert (L := ex_load _ X e f (nth_error_In _ _ N)). destruct (y_cur s) as [[x|] k] eqn:Y; cbn [c_ep c_ref] in *; [|split; [apply GO; cbn; auto|auto]].
    specialize (L ltac:(discriminate)). inversion L; subst x.
    assert (K : k = pins s e).
    { pose proof (i_pins _ _ _ _ _ I) as (P1 & P2 & _). destruct (i_cells _ _ _ _ _ I) as [_ IC].
      assert (W : y_prev s = pcell (g_prev g) -> y_cur s = Cell (Some (g_act g)) (g_k g) -> k = pins s e).
      { intros W1 W2. rewrite Y in W2. inversion W2; subst. destruct (g_prev g) as [[x q]|]; cbn in W1; [|lia].
        pose proof (ex_prev _ X _ _ W1). lia. }
      assert (W' : g_prev g = None -> y_cur s = Cell (Some (g_act g)) (g_k g) -> k = pins s e).
      { intros W1 W2. rewrite Y in W2. inversion W2; subst. rewrite W1 in P2. lia. }
      destruct st; repeat match goal with H : _ /\ _ |- _ => destruct H end; auto;
        match goal with H : y_cur s = null |- _ => rewrite Y in H; discriminate end. }
    destruct (Nat.eqb_spec k 0); [lia|]. split; [|auto]. apply GO. cbn. auto.
  - destruct (cell_eqb (y_cur s) old) eqn:F; [|split; [apply GO; cbn; auto|auto]]. split; [|auto].
    apply cell_eqb_eq in F. subst old. assert (L := ex_cas _ X _ _ _ (nth_error_In _ _ N)).
    apply (ex_move s _ t (SEnd (ECurrCas (y_cur s)) e f) (after f)); auto.
    intros e' k' Q. cbn in Q. pose proof (ex_prev _ X _ _ Q) as Z.
    pose proof (cur_prev _ _ _ e I L) as NE. rewrite Q in NE. cbn in NE.
    specialize (PI e'). destruct (Nat.eqb_spec e e'); [congruence|]. unfold pins in *. cbn [go w_cur y_pcs]. lia.
Qed.

(** ** One step *)

Lemma set_pins : forall s t p p', nth_error (y_pcs s) t = Some p -> pinned p' = pinned p ->
  forall e, countb (pin_eqb e) (set_nth t p' (y_pcs s)) = pins s e.
Proof.
  intros s t p p' N PN e. pose proof (pins_set s _ t p p' e N eq_refl) as Y.
  unfold pin_eqb at 2 3 in Y. rewrite PN in Y. lia.
Qed.

Lemma buf_ex : forall s c, ex s -> ex (w_buf s c).
Proof. intros s c X. apply (ex_same s); auto. Qed.

Lemma run_ex : forall s st g t p s', inv s st g -> y_stop s = None -> kinv (y_buf s) -> sx s -> safe s (UStep t) ->
  nth_error (y_pcs s) t = Some p -> run s t p = Some s' -> ex s' /\ y_stop s' = None.
Proof.
  intros s st g t p s' I NS K [X BX AH] SF N E. cbn [safe] in SF. rewrite N in SF.
  assert (UA : y_stop s' <> Some UseAfterFree /\ y_stop s' <> Some NullPointer).
  { destruct (step_good lwm hwm cap s st g t p s' I NS N E) as [[[_ H]|H] _]; rewrite H; split; discriminate. }
  pose proof (bp_some hwm cap s st g t p I N) as (bp & NB & PO & LK).
  assert (ST : recon p = true -> pc_stage p st) by (eapply stage_of; eauto).
  assert (GO : forall s1 p', y_pcs s1 = set_nth t p' (y_pcs s) -> pinned p' = pinned p -> y_prev s1 = y_prev s -> y_cur s1 = y_cur s ->
    y_stop s1 = y_stop s -> leaver s p' -> ex s1 /\ y_stop s1 = None).
  { intros s1 p' P1 P2 P3 P4 P5 P6. split; [apply (ex_keep s s1 t p p'); auto|congruence]. }
  assert (BC : forall c q, bcall hwm cap s t c q = Some s' -> pinned q = pinned p -> leaver s q -> ex s' /\ y_stop s' = None).
  { intros c q H P1 P2. destruct (bcall_eq _ _ _ _ _ _ _ _ NB H) as (bp' & _ & ->). apply (GO _ q); auto. }
  assert (BS : forall k, bstep hwm cap s t k = Some s' -> (forall bp' q, k bp' = Some q -> pinned q = pinned p /\ leaver s q) -> ex s' /\ y_stop s' = None).
  { intros k H P1. destruct (bstep_eq _ _ _ _ _ _ _ NB H) as (b' & bp' & d & _ & ->). cbv zeta.
    destruct (k bp') as [q|] eqn:Q; [destruct (P1 _ _ Q); apply (GO _ q); auto|]. split; [apply buf_ex; auto|auto]. }
  pose proof (i_cells _ _ _ _ _ I) as [NX IC]. pose proof (i_pins _ _ _ _ _ I) as (P1 & P2 & P3).
  destruct p; cbn [SysModel.run] in E; try discriminate;
    try (eapply BC; [exact E|cbn; auto|cbn; auto]; fail);
    try (eapply BS; [exact E|intros bp' q Q; destruct bp'; cbn in Q; inversion Q; subst; cbn; auto]; fail);
    try (inversion E; subst; eapply GO; cbn; auto; fail).
  - inversion E; subst. split; [eapply get_ex; eauto|]. destruct UA as [U1 U2].
    destruct g0; cbn [get_step] in *; try (destruct (cell_eqb _ _)); try destruct (c_ep _); cbn; auto; cbn in U1, U2; congruence.
  - inversion E; subst. destruct (end_ex _ _ _ _ _ _ _ I X N). auto.
  - unfold deref in E. destruct (y_heap s e); inversion E; subst; [eapply GO; cbn; auto|cbn in UA; destruct UA; congruence].
  - destruct (y_heap s e); [eapply BC; [exact E|cbn; auto|cbn; auto]|]. inversion E; subst. cbn in UA; destruct UA; congruence.
  - destruct k; try destruct (h + length acc <? tl); inversion E; subst; eapply GO; cbn; auto.
  - unfold deref in E. destruct (y_heap s e); inversion E; subst; [|cbn in UA; destruct UA; congruence]. destruct k; eapply GO; cbn; auto.
  - inversion E; subst. destruct (_ || _); eapply GO; cbn; auto.
  - inversion E; subst. destruct (_ || _); eapply GO; cbn; auto.
  - destruct (y_flag s); inversion E; subst; eapply GO; cbn; auto.
  - specialize (ST eq_refl). cbn in ST. subst st. rewrite NX in E. cbn in E. inversion E; subst. eapply GO; cbn; auto.
  - specialize (ST eq_refl). cbn in ST. destruct ST as [a ->]. rewrite NX in E. cbn in E. inversion E; subst. eapply GO; cbn; auto.
  - unfold deref in E. destruct (y_heap s a); inversion E; subst; [eapply GO; cbn; auto|cbn in UA; destruct UA; congruence].
  - destruct (y_heap s a); [eapply BC; [exact E|cbn; auto|cbn; auto]|]. inversion E; subst. cbn in UA; destruct UA; congruence.
  - destruct (h + length acc <? tl); inversion E; subst; eapply GO; cbn; auto.
  - unfold deref in E. destruct (y_heap s a); inversion E; subst; [eapply GO; cbn; auto|cbn in UA; destruct UA; congruence].
  - inversion E; subst. destruct (c_ep (y_prev s)); eapply GO; cbn; auto.
  - inversion E; subst. destruct (_ && _); [eapply GO; cbn; auto|auto].
  - destruct (cell_eqb (y_prev s) old) eqn:F; inversion E; subst; [|eapply GO; cbn; auto]. split; [|auto].
    apply (ex_move s _ t _ (DDel n p) X N); cbn; auto. discriminate.
  - unfold deref in E. destruct (y_heap s p); inversion E; subst; [eapply GO; cbn; auto|cbn in UA; destruct UA; congruence].
  - destruct (cell_eqb (y_cur s) c) eqn:F; inversion E; subst; [|eapply GO; cbn; auto]. split; [|auto].
    apply (ex_move s _ t _ (DPrev n c) X N); cbn; auto.
    intros e k Q. rewrite (ex_prev _ X _ _ Q). symmetry. apply (set_pins s t _ (DPrev n c) N); auto.
  - inversion E; subst. split; [|auto]. specialize (ST eq_refl). cbn in ST. destruct ST as [a ->]. destruct IC as (C1 & C2 & -> & C4).
    apply (ex_move s _ t _ (DAdv n) X N); cbn; auto. intros e k Q. inversion Q; subst.
    rewrite (set_pins s t _ (DAdv n) N); auto. rewrite C4 in P2. lia.
  - rewrite NX in E. specialize (ST eq_refl). cbn in ST. destruct ST as [a ->]. cbn [c_ep st_next] in E.
    destruct (y_heap s a); [|inversion E; subst; cbn in UA; destruct UA; congruence].
    destruct (BufConcModel.cexec hwm cap (y_buf s) (Advance n)); [|discriminate]. inversion E; subst. eapply GO; cbn; auto.
  - destruct (BufConcModel.cexec hwm cap (y_buf s) AdvStep) as [b|] eqn:B; [|discriminate]. inversion E; subst; clear E.
    assert (NC : cs_adv b <> VCrash).
    { specialize (ST eq_refl). cbn in ST. destruct ST as [a ->]. pose proof (i_heads _ _ _ _ _ I) as ((h & H1 & H2) & _).
      specialize (AH _ (nth_error_In _ _ N)). cbn in AH. pose proof (k_tgt _ _ _ _ K) as TG.
      destruct (y_buf s) as [b0 l v d]. cbn [BufConcModel.cexec cs_adv cs_buf] in *.
      destruct (vexec b0 v) as [[b' v']|] eqn:V; [|discriminate]. inversion B; subst. cbn [cs_adv].
      destruct v; cbn [vexec] in V; try discriminate; split_if V; inversion V; subst; try discriminate.
      - destruct H2 as [-> _]. apply Nat.ltb_ge in F. lia.
      - apply Nat.leb_gt in F. specialize (TG n0 eq_refl). lia. }
    destruct (cs_adv b); try (split; [apply buf_ex; auto|auto]; fail); [|congruence].
    destruct (adv s); (eapply GO; [reflexivity|..]; cbn; auto).
  - inversion E; subst. split; [|auto]. specialize (ST eq_refl). cbn in ST. destruct ST as [a [-> ->]]. destruct IC as (C1 & C2 & C4).
    apply (ex_move s _ t _ DNext X N); cbn; auto.
    intros e k Q. rewrite (ex_prev _ X _ _ Q). symmetry. apply (set_pins s t _ DNext N); auto.
  - inversion E; subst. split; [|auto]. assert (Y : ex (go s t (@DFlag R))) by (apply (GO _ DFlag); cbn; auto).
    change (ex (w_pcs (go s t (@DFlag R)) (map wake (y_pcs (go s t (@DFlag R)))))).
    set (s1 := go s t DFlag) in *. clearbody s1. clear - Y. destruct Y as [A B C].
    assert (W : forall p, In p (map wake (y_pcs s1)) -> forall j e f, p = SEnd j e f -> In p (y_pcs s1)).
    { intros p H j e f Q. apply in_map_iff in H as (q & H & HI). subst p. destruct q; cbn in Q; try discriminate; auto. }
    constructor; cbn [w_pcs y_prev y_cur y_pcs].
    + intros e k Q. rewrite (A _ _ Q). unfold pins. cbn [w_pcs y_pcs]. clear. induction (y_pcs s1) as [|p l IH]; cbn; auto.
      rewrite <- IH. destruct p; auto.
    + intros e f H. eapply B. eapply W; eauto.
    + intros old e f H. eapply C. eapply W; eauto.
  - inversion E; subst. destruct (c_ep (y_next s)); eapply GO; cbn; auto.
Qed.

Lemma ah_same : forall s s' p, hd (bbuf s') = hd (bbuf s) -> adv s' = adv s -> ahead s p -> ahead s' p.
Proof. intros s s' p H V A. destruct p; cbn in *; auto; rewrite ?H, ?V; auto. Qed.

Lemma ah_other : forall s p, recon p = false -> ahead s p.
Proof. intros s p H. destruct p; cbn in *; auto; discriminate. Qed.

Lemma ah_set : forall s st g s' t p p', inv s st g -> (forall q, In q (y_pcs s) -> ahead s q) -> nth_error (y_pcs s) t = Some p ->
  y_pcs s' = set_nth t p' (y_pcs s) -> ahead s' p' -> (recon p = true \/ hd (bbuf s') = hd (bbuf s) /\ adv s' = adv s) ->
  forall q, In q (y_pcs s') -> ahead s' q.
Proof.
  intros s st g s' t p p' I A N E Q C q IN. rewrite E in IN. apply In_nth_error in IN as [u U].
  destruct (Nat.eq_dec u t) as [->|NE].
  - rewrite (nth_set_same _ _ _ _ N) in U. inversion U; subst; auto.
  - rewrite nth_set_other in U by auto. destruct C as [C|[C1 C2]].
    + apply ah_other. apply (recon_other _ _ _ _ _ _ (i_own _ _ _ _ _ I) N C U NE).
    + apply (ah_same s); auto. apply A. eapply nth_error_In; eauto.
Qed.

Lemma exec_hd : forall c bp b' bp', kinv c -> In bp (cs_pcs c) -> exec (cs_buf c) bp = Some (b', bp') -> hd b' = hd (cs_buf c).
Proof.
  intros c bp b' bp' K IN X. pose proof (k_j _ _ _ _ K) as J.
  destruct (exec_K hwm cap _ bp b' bp' X (j_pcs _ _ _ J bp IN) (k_pc _ _ _ _ K bp IN)) as (T & H & O & PK & SS & C); [|auto].
  intros u U. eapply target_le; [exact (k_refs _ _ _ _ K)|apply (j_le _ _ _ J)|eapply (k_seek _ _ _ _ K); eauto].
Qed.

Lemma run_ah : forall s st g t p s', inv s st g -> y_stop s = None -> kinv (y_buf s) -> sx s -> safe s (UStep t) ->
  nth_error (y_pcs s) t = Some p -> run s t p = Some s' -> y_stop s' = None -> forall q, In q (y_pcs s') -> ahead s' q.
Proof.
  intros s st g t p s' I NS K [X BX AH] SF N E NS'. cbn [safe] in SF. rewrite N in SF.
  pose proof (bp_some hwm cap s st g t p I N) as (bp & NB & PO & LK).
  assert (AP := AH _ (nth_error_In _ _ N)).
  assert (GO : forall s1 p', y_pcs s1 = set_nth t p' (y_pcs s) -> y_buf s1 = y_buf s -> ahead s p' ->
    forall q, In q (y_pcs s1) -> ahead s1 q).
  { intros s1 p' P1 P2 P3. apply (ah_set s st g s1 t p p' I AH N P1); [apply (ah_same s); rewrite ?P2; auto|rewrite P2; auto]. }
  assert (BC : forall c q0, bcall hwm cap s t c q0 = Some s' -> ahead s q0 -> forall q, In q (y_pcs s') -> ahead s' q).
  { intros c q0 H P1. destruct (bcall_eq _ _ _ _ _ _ _ _ NB H) as (bp' & _ & ->).
    eapply (ah_set s st g _ t p q0 I AH N); [reflexivity|apply (ah_same s); auto|auto]. }
  assert (BS : forall k, bstep hwm cap s t k = Some s' ->
    (forall b' bp' q, exec (bbuf s) bp = Some (b', bp') -> k bp' = Some q -> ahead s q) -> forall q, In q (y_pcs s') -> ahead s' q).
  { intros k H P1. destruct (bstep_eq _ _ _ _ _ _ _ NB H) as (b' & bp' & d & EX & ->). cbv zeta. pose proof (exec_hd _ _ _ _ K (nth_error_In _ _ NB) EX) as HH.
    destruct (k bp') as [q|] eqn:Q.
    - eapply (ah_set s st g _ t p q I AH N); [reflexivity|apply (ah_same s); eauto|auto].
    - intros q IN. apply (ah_same s); auto. }
  destruct p; cbn [SysModel.run] in E; try discriminate;
    try (eapply BC; [exact E|cbn in AP |- *; auto]; fail);
    try (eapply BS; [exact E|intros b' bp' q EX Q; destruct bp'; cbn in Q; inversion Q; subst; cbn in AP |- *; auto]; fail);
    try (inversion E; subst; eapply GO; [reflexivity|reflexivity|cbn in AP |- *; auto]; fail).
  - inversion E; subst. destruct g0; cbn [get_step] in *; try (destruct (cell_eqb _ _)); try destruct (c_ep _);
      try (eapply GO; [reflexivity|reflexivity|cbn in AP |- *; try destruct w as [[]|]; cbn; auto]).
  - inversion E; subst. destruct j; cbn [end_step] in *; try (destruct (cell_eqb _ _)); try destruct (c_ep _); try destruct (_ =? _);
      try (eapply GO; [reflexivity|reflexivity|cbn in AP |- *; try destruct f; cbn; auto]); discriminate.
  - unfold deref in E. destruct (y_heap s e); inversion E; subst; [eapply GO; [reflexivity|reflexivity|cbn; auto]|discriminate].
  - destruct (y_heap s e); [eapply BC; [exact E|cbn; auto]|]. inversion E; subst. discriminate.
  - destruct k; try destruct (h + length acc <? tl); inversion E; subst; (eapply GO; [reflexivity|reflexivity|cbn; auto]).
  - unfold deref in E. destruct (y_heap s e); inversion E; subst; [|discriminate]. destruct k; (eapply GO; [reflexivity|reflexivity|cbn; auto]).
  - inversion E; subst. destruct (_ || _); (eapply GO; [reflexivity|reflexivity|cbn; auto]).
  - inversion E; subst. destruct (_ || _); (eapply GO; [reflexivity|reflexivity|cbn; auto]).
  - destruct (y_flag s); inversion E; subst; (eapply GO; [reflexivity|reflexivity|cbn; auto]).
  - destruct (c_ep (y_next s)); inversion E; subst; [discriminate|]. (eapply GO; [reflexivity|reflexivity|cbn; auto]).
  - destruct (c_ep (y_next s)); inversion E; subst; [|discriminate]. (eapply GO; [reflexivity|reflexivity|cbn; auto]).
  - unfold deref in E. destruct (y_heap s a); inversion E; subst; [eapply GO; [reflexivity|reflexivity|cbn; auto]|discriminate].
  - destruct (y_heap s a); [eapply BC; [exact E|cbn; auto]|]. inversion E; subst. discriminate.
  - rewrite NB in SF. eapply BS; [exact E|]. intros b' bp' q EX Q. cbn in LK. destruct LK as (h & LK & _).
    destruct bp'; cbn in Q; inversion Q; subst. cbn. destruct LK as [LK| ->].
    + destruct bp; cbn in LK; try discriminate; cbn [BufConcModel.exec] in EX; split_if EX; discriminate.
    + cbn in EX. inversion EX; subst. auto.
  - destruct (h + length acc <? tl); inversion E; subst; (eapply GO; [reflexivity|reflexivity|cbn in AP |- *; auto]).
  - unfold deref in E. destruct (y_heap s a); inversion E; subst; [eapply GO; [reflexivity|reflexivity|cbn in AP |- *; auto]|discriminate].
  - inversion E; subst. destruct (c_ep (y_prev s)); (eapply GO; [reflexivity|reflexivity|cbn in AP |- *; auto]).
  - inversion E; subst. destruct (_ && _); [(eapply GO; [reflexivity|reflexivity|cbn in AP |- *; auto])|auto].
  - destruct (cell_eqb (y_prev s) old) eqn:F; inversion E; subst; (eapply GO; [reflexivity|reflexivity|cbn in AP |- *; auto]).
  - unfold deref in E. destruct (y_heap s p); inversion E; subst; [eapply GO; [reflexivity|reflexivity|cbn in AP |- *; auto]|discriminate].
  - destruct (cell_eqb (y_cur s) c) eqn:F; inversion E; subst; (eapply GO; [reflexivity|reflexivity|cbn in AP |- *; auto]).
  - destruct (c_ep (y_next s)); [|inversion E; subst; discriminate]. destruct (y_heap s n0); [|inversion E; subst; discriminate].
    destruct (BufConcModel.cexec hwm cap (y_buf s) (Advance n)) as [c|] eqn:C; [|discriminate]. inversion E; subst.
    cbn [BufConcModel.cexec] in C. cbn in PO. rewrite PO in C. inversion C; subst.
    eapply (ah_set s st g _ t (DAdv n) (DAdvW n)); cbn; auto.
  - destruct (BufConcModel.cexec hwm cap (y_buf s) AdvStep) as [b|] eqn:B; [|discriminate]. inversion E; subst; clear E.
    cbn [BufConcModel.cexec] in B. destruct (vexec (bbuf s) (adv s)) as [[b' v']|] eqn:V; [|discriminate]. inversion B; subst; clear B.
    cbn [cs_adv] in *. cbn in AP.
    assert (AW : match v' with VIdle => match adv s with VOld _ _ => True | _ => hd b' < n end | VOld _ _ => True | _ => hd b' < n end).
    { destruct (adv s); cbn [vexec] in V; try discriminate; split_if V; inversion V; subst; cbn in *; auto. }
    assert (ID : forall s1, y_pcs s1 = y_pcs s -> ahead s1 (DAdvW n) -> forall q, In q (y_pcs s1) -> ahead s1 q).
    { intros s1 E1 A1. eapply (ah_set s st g s1 t (DAdvW n) (DAdvW n)); auto. rewrite set_nth_id; auto. }
    destruct v'; try (apply ID; [reflexivity|cbn; auto]).
    destruct (adv s) eqn:AV; (eapply (ah_set s st g _ t (DAdvW n)); [exact I|exact AH|exact N|reflexivity|cbn; auto|auto]).
  - inversion E; subst. intros q IN. apply in_map_iff in IN as (q0 & <- & IN).
    assert (Y : forall q, In q (y_pcs (go s t (@DFlag R))) -> ahead (go s t (@DFlag R)) q) by (apply (GO _ DFlag); cbn; auto).
    specialize (Y q0 IN). destruct q0; auto.
  - inversion E; subst. destruct (c_ep (y_next s)); (eapply GO; [reflexivity|reflexivity|cbn; auto]).
Qed.

(** Which buffer action an action of the system is. *)
Lemma adv_by : forall s st g t p s', inv s st g -> nth_error (y_pcs s) t = Some p -> run s t p = Some s' ->
  y_buf s' = y_buf s \/ exists a, cexec (y_buf s) a = Some (y_buf s') /\ (a = AdvStep -> exists n, p = DAdvW n).
Proof.
  intros s st g t p s' I N E. pose proof (bp_some hwm cap s st g t p I N) as (bp & NB & PO & LK).
  assert (BC : forall c q, bcall hwm cap s t c q = Some s' -> exists a, cexec (y_buf s) a = Some (y_buf s') /\ (a = AdvStep -> exists n, p = DAdvW n)).
  { intros c q H. unfold bcall in H. destruct (BufConcModel.cexec hwm cap (y_buf s) (Call t c)) as [b|] eqn:B; [|discriminate].
    inversion H; subst. exists (Call t c). split; auto. discriminate. }
  assert (BS : forall k, bstep hwm cap s t k = Some s' -> exists a, cexec (y_buf s) a = Some (y_buf s') /\ (a = AdvStep -> exists n, p = DAdvW n)).
  { intros k H. unfold bstep in H. destruct (BufConcModel.cexec hwm cap (y_buf s) (Step t)) as [b|] eqn:B; [|discriminate].
    exists (Step t). split; [|discriminate]. destruct (nth_error (cs_pcs b) t); [|inversion H; subst; auto]. destruct (k p0); inversion H; subst; auto. }
  destruct p; cbn [SysModel.run] in E; try discriminate;
    try (right; eapply BC; exact E); try (right; eapply BS; exact E); try (inversion E; subst; left; reflexivity).
  - inversion E; subst. left. destruct g0; cbn [get_step]; try (destruct (cell_eqb _ _)); try destruct (c_ep _); auto.
  - inversion E; subst. left. destruct j; cbn [end_step]; try (destruct (cell_eqb _ _)); try destruct (c_ep _); try destruct (_ =? _); auto.
  - unfold deref in E. destruct (y_heap s e); inversion E; subst; auto.
  - destruct (y_heap s e); [right; eapply BC; exact E|]. inversion E; subst. auto.
  - destruct k; try destruct (h + length acc <? tl); inversion E; subst; auto.
  - unfold deref in E. destruct (y_heap s e); inversion E; subst; auto. destruct k; auto.
  - destruct (y_flag s); inversion E; subst; auto.
  - destruct (c_ep (y_next s)); inversion E; subst; auto.
  - destruct (c_ep (y_next s)); inversion E; subst; auto.
  - unfold deref in E. destruct (y_heap s a); inversion E; subst; auto.
  - destruct (y_heap s a); [right; eapply BC; exact E|]. inversion E; subst. auto.
  - destruct (h + length acc <? tl); inversion E; subst; auto.
  - unfold deref in E. destruct (y_heap s a); inversion E; subst; auto.
  - inversion E; subst. destruct (_ && _); auto.
  - destruct (cell_eqb (y_prev s) old) eqn:F; inversion E; subst; auto.
  - unfold deref in E. destruct (y_heap s p); inversion E; subst; auto.
  - destruct (cell_eqb (y_cur s) c) eqn:F; inversion E; subst; auto.
  - destruct (c_ep (y_next s)); [|inversion E; subst; auto]. destruct (y_heap s n0); [|inversion E; subst; auto].
    destruct (BufConcModel.cexec hwm cap (y_buf s) (Advance n)) as [c|] eqn:C; [|discriminate]. inversion E; subst.
    right. exists (Advance n). split; auto. discriminate.
  - destruct (BufConcModel.cexec hwm cap (y_buf s) AdvStep) as [b|] eqn:B; [|discriminate]. inversion E; subst; clear E.
    right. exists AdvStep. split; [|eauto]. destruct (cs_adv b); auto.
Qed.

Lemma sx_step : forall s st g x s', inv s st g -> kinv (y_buf s) -> sx s -> safe s x -> sexec s x = Some s' ->
  sx s' /\ y_stop s' = None.
Proof.
  intros s st g x s' I K X SF E. pose proof E as E0. unfold SysModel.sexec in E. destruct (y_stop s) eqn:NS; [discriminate|].
  assert (UA : y_stop s' <> Some UseAfterFree).
  { destruct (exec_good lwm hwm cap s st g x s' I E0) as [[[_ H]|H] _]; rewrite H; discriminate. }
  assert (GO : forall s1 t p p', nth_error (y_pcs s) t = Some p -> y_pcs s1 = set_nth t p' (y_pcs s) -> y_buf s1 = y_buf s -> pinned p' = pinned p ->
    y_prev s1 = y_prev s -> y_cur s1 = y_cur s -> leaver s p' -> ahead s p' -> sx s1).
  { intros s1 t p p' N P1 P2 P3 P4 P5 P6 P7. constructor.
    - apply (ex_keep s s1 t p p'); auto. apply X.
    - rewrite P2. apply X.
    - apply (ah_set s st g s1 t p p' I (sx_ah _ X) N P1); [apply (ah_same s); rewrite ?P2; auto|rewrite P2; auto]. }
  destruct x as [t c|t|t a|t].
  - destruct (nth_error (y_pcs s) t) as [[]|] eqn:N; try discriminate. destruct c; [| | |destruct (y_jobs s) eqn:J; [discriminate|]];
      inversion E; subst; (split; [eapply (GO _ t); [exact N|reflexivity|..]; cbn; auto|auto]).
  - destruct (nth_error (y_pcs s) t) as [p|] eqn:N; [|discriminate].
    destruct (run_ex _ _ _ _ _ _ I NS K X SF N E) as [X1 X2]. split; auto. constructor; auto.
    + destruct (adv_by _ _ _ _ _ _ I N E) as [B|(a & B1 & B2)]; [rewrite B; apply X|].
      eapply bx_step; [exact K|apply X|exact B1|]. intros A V q IN. destruct (B2 A) as [n ->]. cbn [safe] in SF. rewrite N in SF.
      destruct (adv s); try discriminate. auto.
    + eapply run_ah; eauto.
  - destruct (nth_error (y_pcs s) t) as [[]|] eqn:N; try discriminate. destruct (y_heap s a); [discriminate|].
    unfold deref in E. destruct (y_heap s e); inversion E; subst; [|cbn in UA; congruence].
    (split; [eapply (GO _ t); [exact N|reflexivity|..]; cbn; auto|auto]).
  - destruct (nth_error (y_pcs s) t) as [[]|] eqn:N; try discriminate; inversion E; subst;
    (split; [eapply (GO _ t); [exact N|reflexivity|..]; cbn; auto|auto]).
Qed.

Notation sreach_safe n s := (sreach lwm hwm cap safe (sys_init hwm cap n) s).

Lemma sx_init : forall n, sx (sys_init hwm cap n).
Proof.
  intros n. assert (Q : forall p, In p (y_pcs (sys_init hwm cap n)) -> p = SIdle) by (intros p; apply repeat_spec).
  assert (Q' : forall bp, In bp (bpcs (sys_init hwm cap n)) -> bp = Idle) by (intros bp; apply repeat_spec).
  constructor; [constructor|constructor|].
  - cbn. discriminate.
  - intros e f IN. apply Q in IN. discriminate.
  - intros old e f IN. apply Q in IN. discriminate.
  - cbn. lia.
  - intros h IN. apply Q' in IN. discriminate.
  - intros h cur IN. apply Q' in IN. discriminate.
  - intros p IN. apply Q in IN. subst. cbn. auto.
Qed.

Lemma safe_reach : forall n s, 0 < hwm -> sreach_safe n s ->
  y_stop s = None /\ sx s /\ (exists st g, inv s st g) /\ kinv (y_buf s).
Proof.
  intros n s HW C. remember (sys_init hwm cap n) as s0. assert (W : sreach_safe n s) by (subst; auto).
  assert (G : y_stop s = None /\ sx s).
  { clear W. induction C; subst.
    - split; [auto|apply sx_init].
    - destruct (IHC eq_refl) as [N X].
      destruct (reach_inv lwm hwm cap n s1 HW) as ((st & g & I) & K); auto.
      { eapply sreach_mono; [|exact C]. auto. }
      destruct (sx_step _ _ _ _ _ I K X H H0). auto. }
  destruct G as [N X]. split; auto. split; auto. eapply reach_inv; eauto. eapply sreach_mono; [|exact W]. auto.
Qed.

(** ** What the counts are *)

Theorem safe_runs : forall n s, 0 < hwm -> sreach_safe n s -> y_stop s = None.
Proof. intros n s HW C. apply (safe_reach n s HW C). Qed.

Theorem cur_counts : forall n s e, 0 < hwm -> sreach_safe n s -> c_ep (y_cur s) = Some e -> c_ref (y_cur s) = jobs_on s e.
Proof.
  intros n s e HW C E. destruct (safe_reach n s HW C) as (_ & [X _ _] & (st & g & I) & _). change (jobs_on s e) with (pins s e).
  pose proof (i_pins _ _ _ _ _ I) as (P1 & P2 & _). destruct (i_cells _ _ _ _ _ I) as [_ IC].
  assert (W : y_prev s = pcell (g_prev g) -> y_cur s = Cell (Some (g_act g)) (g_k g) -> c_ref (y_cur s) = pins s e).
  { intros W1 W2. rewrite W2 in *. cbn in *. inversion E; subst. destruct (g_prev g) as [[x k]|]; cbn in W1; [|lia].
    pose proof (ex_prev _ X _ _ W1). lia. }
  assert (W' : g_prev g = None -> y_cur s = Cell (Some (g_act g)) (g_k g) -> c_ref (y_cur s) = pins s e).
  { intros W1 W2. rewrite W2 in *. cbn in *. inversion E; subst. rewrite W1 in P2. lia. }
  destruct st; repeat match goal with H : _ /\ _ |- _ => destruct H end; auto;
    match goal with H : y_cur s = null |- _ => rewrite H in E; discriminate end.
Qed.

Theorem prev_counts : forall n s e, 0 < hwm -> sreach_safe n s -> c_ep (y_prev s) = Some e -> c_ref (y_prev s) = jobs_on s e.
Proof.
  intros n s e HW C E. destruct (safe_reach n s HW C) as (_ & [X _ _] & _). change (jobs_on s e) with (pins s e).
  destruct (y_prev s) as [x k] eqn:Y. cbn in *. subst x. apply (ex_prev _ X _ _ Y).
Qed.

Lemma jobs_where_inv : forall s st g p e, inv s st g -> In p (y_pcs s) -> pinned p = Some e ->
  c_ep (y_cur s) = Some e \/ c_ep (y_prev s) = Some e \/ exists n k, In (DPrev n (Cell (Some e) k)) (y_pcs s).
Proof.
  intros s st g p e I IN P. apply In_nth_error in IN as [t N].
  destruct (pinned_active _ _ _ _ e (i_pins _ _ _ _ _ I) N P) as [_ AC].
  pose proof (i_own _ _ _ _ _ I) as O. destruct (i_cells _ _ _ _ _ I) as [_ IC].
  destruct AC as [->|(k & G & NE)].
  - destruct st; repeat match goal with H : _ /\ _ |- _ => destruct H end;
      try (left; match goal with H : y_cur s = _ |- _ => rewrite H; reflexivity end);
      try (right; left; match goal with H : y_prev s = Cell _ _ |- _ => rewrite H; reflexivity end).
    right; right. subst. destruct O as [(_ & _ & _ & O)|[(_ & _ & a0 & _ & O)|(O & _ & _ & O')]]; try discriminate.
    assert (exists q, In q (y_pcs s) /\ recon q = true) as (q & Q1 & Q2) by (apply countb_pos; lia).
    pose proof (O' q Q1 Q2) as PS. destruct q; cbn in Q2, PS; try discriminate Q2; try destruct w; try destruct f; try discriminate Q2;
      repeat match goal with H : exists _, _ |- _ => destruct H | H : _ /\ _ |- _ => destruct H end;
      try congruence. inversion H1; subst. eauto.
  - right; left. destruct st; repeat match goal with H : _ /\ _ |- _ => destruct H end; try congruence;
      match goal with H : y_prev s = pcell _ |- _ => rewrite H, G; reflexivity end.
Qed.

Theorem jobs_where : forall n s p e, 0 < hwm -> sreach_safe n s -> In p (y_pcs s) -> pinned p = Some e ->
  c_ep (y_cur s) = Some e \/ c_ep (y_prev s) = Some e \/ exists m k, In (DPrev m (Cell (Some e) k)) (y_pcs s).
Proof.
  intros n s p e HW C. destruct (safe_reach n s HW C) as (_ & _ & (st & g & I) & _). eapply jobs_where_inv; eauto.
Qed.

Lemma bx_counts : forall s, kinv (y_buf s) -> bx (y_buf s) -> head_there s ->
  href (cb_head (bbuf s)) = views_of s (hd (bbuf s)) /\ href (cb_old (bbuf s)) = views_of s (od (bbuf s)).
Proof.
  intros s K B H. assert (V : swinging (adv s) = false) by (unfold head_there in H; destruct (adv s); auto; contradiction).
  pose proof (bx_old _ B V) as O. pose proof (k_refs _ _ _ _ K) as F. apply refs_out in F; [|apply swing_not; auto].
  unfold views_of, cnt in *. lia.
Qed.

Theorem head_counts : forall n s, 0 < hwm -> sreach_safe n s -> head_there s ->
  href (cb_head (bbuf s)) = views_of s (hd (bbuf s)) /\ href (cb_old (bbuf s)) = views_of s (od (bbuf s)).
Proof. intros n s HW C H. destruct (safe_reach n s HW C) as (_ & X & _ & K). apply bx_counts; auto. apply X. Qed.

(** ** Checking an execution *)

Theorem safe_three : forall s x, safe s x <-> leave_ok s x /\ drop_ok s x /\ full_ok s x.
Proof.
  intros s x. split.
  - intro S. split; [|split].
    + intros t n -> N. cbn in S. rewrite N in S. auto.
    + intros t n m k -> N V. cbn in S. rewrite N, V in S. auto.
    + intros t a h -> N B. cbn in S. rewrite N, B in S. auto.
  - intros (L & D & F). destruct x; cbn; auto. destruct (nth_error (y_pcs s) t) as [p|] eqn:N; auto. destruct p; auto.
    + destruct (nth_error (bpcs s) t) as [bp|] eqn:B; auto. destruct bp; auto. eapply F; eauto.
    + destruct (adv s) eqn:V; auto. eapply D; eauto.
    + eapply L; eauto.
Qed.

Definition leaveb s (x : sact R) : bool :=
  match x with
  | UStep t => match nth_error (y_pcs s) t with Some (DPubSt _) => forallb (fun q => negb (leaving q)) (y_pcs s) | _ => true end
  | _ => true
  end.
Definition dropb s (x : sact R) : bool :=
  match x with
  | UStep t => match nth_error (y_pcs s) t, adv s with
               | Some (DAdvW _), VOld _ _ => forallb (fun bp => negb (dropping bp)) (bpcs s)
               | _, _ => true
               end
  | _ => true
  end.
Definition fullb s (x : sact R) : bool :=
  match x with
  | UStep t => match nth_error (y_pcs s) t, nth_error (bpcs s) t with
               | Some (RHold _), Some (GTail _) => hd (bbuf s) <? cb_tail (bbuf s)
               | _, _ => true
               end
  | _ => true
  end.

Lemma leaveb_ok : forall s x, leaveb s x = true -> leave_ok s x.
Proof.
  intros s x H t n -> N q IN. cbn in H. rewrite N in H. rewrite forallb_forall in H. specialize (H q IN). destruct (leaving q); auto; discriminate.
Qed.
Lemma dropb_ok : forall s x, dropb s x = true -> drop_ok s x.
Proof.
  intros s x H t n m k -> N V q IN. cbn in H. rewrite N, V in H. rewrite forallb_forall in H. specialize (H q IN).
  destruct (dropping q); auto; discriminate.
Qed.
Lemma fullb_ok : forall s x, fullb s x = true -> full_ok s x.
Proof. intros s x H t a h -> N B. cbn in H. rewrite N, B in H. apply Nat.ltb_lt in H. auto. Qed.

Lemma schecked_safe : forall l s s', schecked lwm hwm cap (fun s x => leaveb s x && dropb s x && fullb s x) s l = Some s' -> sreach lwm hwm cap safe s s'.
Proof.
  intros l s s'. apply schecked_reach. intros s0 x H. apply andb_true_iff in H as [H F]. apply andb_true_iff in H as [L D].
  apply safe_three. auto using leaveb_ok, dropb_ok, fullb_ok.
Qed.
Lemma schecked_two : forall f g (F G : sys R -> sact R -> Prop), (forall s x, f s x = true -> F s x) -> (forall s x, g s x = true -> G s x) ->
  forall l s s', schecked lwm hwm cap (fun s x => f s x && g s x && stillb s x) s l = Some s' ->
  sreach lwm hwm cap (fun s x => F s x /\ G s x /\ still s x) s s'.
Proof.
  intros f g F G HF HG l s s'. apply schecked_reach. intros s0 x H. apply andb_true_iff in H as [H S]. apply andb_true_iff in H as [A B].
  auto using stillb_ok.
Qed.

End SF.

(** In executions without lost references, all calls can come to their end. *)
From Coq Require Import List Arith ZArith NArith Lia Bool.
From Verif Require Import Base ListLemmas RecordModel BufferModel BufConcModel BufConcProofs BufConcView BufConcData SysModel SysInv
  SysSteps SysRun SysMain SysCalm SoloSpec SoloProofs SafeSpec SafeProofs.
Import ListNotations.

Section RS.
Context {R : Type} {RO : RecOps R}.
Variables lwm hwm cap : nat.
Notation exec := (exec hwm cap).
Notation cexec := (cexec hwm cap).
Notation sexec := (sexec lwm hwm cap).
Notation run := (run lwm hwm cap).
Notation inv := (inv hwm cap).
Notation kinv := (kinv hwm cap (fun _ => False)).
Notation bpcs s := (cs_pcs (y_buf s)).
Notation bbuf s := (cs_buf (y_buf s)).
Notation adv s := (cs_adv (y_buf s)).
Notation hd b := (hidx (cb_head b)).
Notation od b := (hidx (cb_old b)).
Notation reach n s := (sreach lwm hwm cap (fun _ _ => True) (sys_init hwm cap n) s).
Implicit Types (s : sys R) (p q : spc R) (b : cbuf R) (bp : pc R).

Ltac split_if H := repeat match type of H with
  | context[if ?c then _ else _] => let F := fresh "F" in destruct c eqn:F end.

(** ** What one step does to its thread *)

(** A reconstruction that has not yet seen the end of the buffer. *)
Definition before p : bool :=
  recon p && inserting p || match p with RView _ | RHold _ => true | _ => false end.
(** A thread whose record will be in the buffer by then, unless others are. *)
Definition feeds s p bp : Prop :=
  match p with
  | IApp _ _ => True
  | IAppW => match bp with ALoad _ _ => True | AHead _ _ old | ACas _ _ old => hd (bbuf s) <= old | _ => False end
  | _ => recon p && inserting p = true
  end.
Definition rels p : bool := match p with RRel _ _ | RRelW _ _ => true | _ => false end.

(** The calls that a thread can be in. *)
Definition succ p p' : Prop :=
  p' = SIdle \/ inserting p = true /\ inserting p' = true \/ reading p = true /\ reading p' = true \/
  rebuilding p = true /\ rebuilding p' = true \/ p = WWait /\ p' = WLoad \/ p = WLoad /\ p' = WLock \/ p = WLock /\ p' = WWait.

Record mv s (t : nat) p bp s' p' bp' : Prop := {
  m_pcs : y_pcs s' = set_nth t p' (y_pcs s) \/ p = DNotify /\ y_pcs s' = map wake (set_nth t p' (y_pcs s));
  m_bp : bpcs s' = set_nth t bp' (bpcs s);
  m_hd : (forall n, p <> DAdvW n) -> hd (bbuf s') = hd (bbuf s);
  m_adv : rebuilding p = false -> adv s' = adv s;
  m_tail : cb_tail (bbuf s) <= cb_tail (bbuf s');
  m_jobs : y_jobs s' <> [] -> y_jobs s <> [] \/ before p = true;
  m_kept : rebuilding p = true -> y_jobs s' = y_jobs s;
  m_before : before p' = true -> before p = true \/ feeds s' p' bp' \/ y_jobs s <> [];
  m_feed : feeds s p bp -> feeds s' p' bp' \/ hd (bbuf s') < cb_tail (bbuf s');
  m_rel : (rels p = true -> BufConcModel.holds (hd (bbuf s)) bp = true) -> rels p' = true -> BufConcModel.holds (hd (bbuf s')) bp' = true
}.

Lemma exec_tail : forall b bp b' bp', exec b bp = Some (b', bp') -> cb_tail b <= cb_tail b'.
Proof.
  intros b bp b' bp' E. destruct bp; cbn [BufConcModel.exec] in E; split_if E; inversion E; subst; cbn; auto.
  apply Nat.eqb_eq in F. lia.
Qed.

Ltac fin GO := (eapply GO; [reflexivity|reflexivity|reflexivity|..]; unfold succ; cbn; intros; try discriminate; auto 10).

Lemma run_mv : forall s st g t p bp s', inv s st g -> kinv (y_buf s) -> 0 < hwm -> y_stop s' = None ->
  nth_error (y_pcs s) t = Some p -> nth_error (bpcs s) t = Some bp -> run s t p = Some s' ->
  exists p' bp', mv s t p bp s' p' bp' /\ succ p p'.
Proof.
  intros s st g t p bp s' I K HW NS N NB E.
  destruct (i_pcs _ _ _ _ _ I _ _ _ N NB) as [PO LK].
  assert (GO : forall s1 p', y_pcs s1 = set_nth t p' (y_pcs s) -> y_buf s1 = y_buf s -> y_jobs s1 = y_jobs s ->
    (before p' = true -> before p = true \/ feeds s1 p' bp) -> (feeds s p bp -> feeds s1 p' bp) ->
    ((rels p = true -> BufConcModel.holds (hd (bbuf s)) bp = true) -> rels p' = true -> BufConcModel.holds (hd (bbuf s)) bp = true) ->
    succ p p' -> exists p' bp', mv s t p bp s1 p' bp' /\ succ p p').
  { intros s1 p' P1 P2 P3 P4 P5 P6 P7. exists p', bp. split; [|auto]. constructor; rewrite ?P2, ?P3; auto.
    - rewrite set_nth_id; auto.
    - intro H. destruct (P4 H); auto. }
  assert (BC : forall c q, bcall hwm cap s t c q = Some s' ->
    (forall s1 bp', begin c bp = Some bp' -> (before q = true -> before p = true) /\ (feeds s p bp -> feeds s1 q bp') /\
      ((rels p = true -> BufConcModel.holds (hd (bbuf s)) bp = true) -> rels q = true -> BufConcModel.holds (hd (bbuf s)) bp' = true)) ->
    succ p q -> exists p' bp', mv s t p bp s' p' bp' /\ succ p p').
  { intros c q H A SC. destruct (bcall_eq _ _ _ _ _ _ _ _ NB H) as (bp' & B & ->). exists q, bp'. split; auto.
    destruct (A (go (w_buf s (CS (bbuf s) (set_nth t bp' (bpcs s)) (adv s) (cs_done (y_buf s)))) t q) bp' B) as (A1 & A2 & A3).
    constructor; cbn; auto. }
  assert (BS : forall k, bstep hwm cap s t k = Some s' ->
    (forall b' bp' d, exec (bbuf s) bp = Some (b', bp') -> let p' := match k bp' with Some q => q | None => p end in
      (before p' = true -> before p = true) /\
      (feeds s p bp -> feeds (w_buf s (CS b' (set_nth t bp' (bpcs s)) (adv s) d)) p' bp' \/ hd b' < cb_tail b') /\
      ((rels p = true -> BufConcModel.holds (hd (bbuf s)) bp = true) -> rels p' = true -> BufConcModel.holds (hd (bbuf s)) bp' = true) /\
      succ p p') -> exists p' bp', mv s t p bp s' p' bp' /\ succ p p').
  { intros k H A. destruct (bstep_eq _ _ _ _ _ _ _ NB H) as (b' & bp' & d & X & ->). pose proof (exec_hd _ _ _ _ _ _ K (nth_error_In _ _ NB) X) as HH.
    destruct (A b' bp' d X) as (A1 & A2 & A3 & A4). cbv zeta in *. exists (match k bp' with Some q => q | None => p end), bp'. split; auto.
    pose proof (exec_tail _ _ _ _ X).
    destruct (k bp'); constructor; cbn; auto; try (left; rewrite set_nth_id; auto; fail); rewrite HH; auto. }
  destruct p; cbn [SysModel.run] in E; try discriminate; try (inversion E; subst; fin GO; fail);
    try (eapply BC; [exact E|intros s1 bp' B|unfold succ; cbn; auto 10]; split; [|split]; cbn; intros; try discriminate; auto; fail).
  - inversion E; subst. destruct g0; cbn [get_step] in *; try (destruct (cell_eqb _ _)); try destruct (c_ep _);
      destruct w as [[] ?|]; try (fin GO; fail); discriminate NS.
  - inversion E; subst. destruct j; cbn [end_step] in *; try (destruct (cell_eqb _ _)); try destruct (c_ep _); try destruct (_ =? _);
      destruct f; try (fin GO; fail); discriminate NS.
  - unfold deref in E. destruct (y_heap s e); inversion E; subst; [fin GO|discriminate NS].
  - destruct (y_heap s e); [|inversion E; subst; discriminate NS].
    eapply BC; [exact E|intros s1 bp' B|unfold succ; cbn; auto 10]; split; [|split]; cbn; intros; try discriminate; auto.
  - eapply BS; [exact E|]. intros b' bp' d X. destruct bp'; cbn; unfold succ; cbn; repeat split; intros; try discriminate; auto 10.
  - destruct k; try destruct (h + length acc <? tl); inversion E; subst; fin GO.
  - unfold deref in E. destruct (y_heap s e); inversion E; subst; [destruct k; fin GO|discriminate NS].
  - eapply BS; [exact E|]. intros b' bp' d X. destruct bp'; cbn; unfold succ; cbn; repeat split; intros; try discriminate; auto 10.
  - eapply BS; [exact E|]. intros b' bp' d X. destruct bp'; cbn; unfold succ; cbn; repeat split; intros; try discriminate; auto 10.
  - inversion E; subst. destruct (_ || _); fin GO.
  - inversion E; subst. destruct (_ || _); fin GO.
  - destruct (y_flag s); inversion E; subst; fin GO.
  - cbn in LK. eapply BC; [exact E|intros s1 bp' B|unfold succ; cbn; auto 10]. subst bp. cbn in B. inversion B; subst.
    split; [|split]; cbn; intros; try discriminate; auto.
  - eapply BS; [exact E|]. intros b' bp' d X. cbn in LK. pose proof (j_pcs _ _ _ (i_j _ _ _ _ _ I) _ (nth_error_In _ _ NB)) as PJ.
    pose proof (j_le _ _ _ (i_j _ _ _ _ _ I)) as JL.
    assert (SC : succ IAppW (match on_idle SIdle bp' with Some q => q | None => IAppW end)) by (destruct bp'; unfold succ; cbn; auto 10).
    cbv zeta. split; [destruct bp'; cbn; auto|]. split; [|split; [destruct bp'; cbn; intros; discriminate|exact SC]].
    cbn [feeds]. destruct bp; cbn in LK; try discriminate; try contradiction; cbn [BufConcModel.exec] in X; cbn in PJ; split_if X; inversion X; subst; cbn; intros; auto; try lia.
    + right. apply orb_true_iff in F as [F|F]; [apply Nat.ltb_lt in F|apply Nat.leb_le in F]; lia.
    + right. apply Nat.eqb_neq in F. lia.
  - destruct (c_ep (y_next s)); inversion E; subst; [discriminate NS|fin GO].
  - destruct (c_ep (y_next s)); inversion E; subst; [fin GO|discriminate NS].
  - unfold deref in E. destruct (y_heap s a); inversion E; subst; [|discriminate NS].
    exists (IApp r ts), bp. split; [|unfold succ; cbn; auto 10]. constructor; cbn; auto; try discriminate. rewrite set_nth_id; auto.
  - destruct (y_heap s a); [|inversion E; subst; discriminate NS].
    eapply BC; [exact E|intros s1 bp' B|unfold succ; cbn; auto 10]; split; [|split]; cbn; intros; try discriminate; auto.
  - eapply BS; [exact E|]. intros b' bp' d X. destruct bp'; cbn; unfold succ; cbn; repeat split; intros; try discriminate; auto 10.
  - destruct (h + length acc <? tl); inversion E; subst; fin GO.
  - unfold deref in E. destruct (y_heap s a); inversion E; subst; [|discriminate NS]. cbn in LK. destruct LK as (h & -> & HH).
    pose proof (stage_of _ _ _ _ _ _ _ I N eq_refl) as ST. cbn in ST. subst st.
    pose proof (i_heads _ _ _ _ _ I) as (_ & _ & C & _). destruct (C a eq_refl) as (_ & _ & C1). rewrite C1 in HH. inversion HH; subst.
    fin GO. apply Nat.eqb_refl.
  - eapply BC; [exact E|intros s1 bp' B|unfold succ; cbn; auto 10]; split; [|split]; cbn; intros; try discriminate; auto.
    cbn in LK. destruct LK as (h & tl' & ->). cbn in B. inversion B; subst. cbn in *. auto.
  - cbn in LK. eapply BS; [exact E|]. intros b' bp' d X. destruct (rel_step hwm cap _ _ _ _ X LK) as [Q| ->].
    + assert (Z : on_idle (DLoad tl) bp' = None) by (destruct bp'; try discriminate; auto).
      rewrite Z. cbn. unfold succ; cbn; repeat split; intros; try discriminate; auto 10.
      clear - H X LK Q. specialize (H eq_refl).
      destruct bp; cbn in LK; try discriminate; cbn [BufConcModel.exec] in X; split_if X; inversion X; subst; cbn in *; auto; discriminate.
    + cbn. unfold succ; cbn; repeat split; intros; try discriminate; auto 10.
  - inversion E; subst. destruct (c_ep (y_prev s)); fin GO.
  - inversion E; subst. destruct (_ && _); [fin GO|]. eapply (GO _ (DRet n p)); auto; [rewrite set_nth_id; auto|]. unfold succ; cbn; auto 10.
  - destruct (cell_eqb (y_prev s) old) eqn:F; inversion E; subst; fin GO.
  - unfold deref in E. destruct (y_heap s p); inversion E; subst; [fin GO|discriminate NS].
  - destruct (cell_eqb (y_cur s) c) eqn:F; inversion E; subst; fin GO.
  - destruct (c_ep (y_next s)); [|inversion E; subst; discriminate]. destruct (y_heap s n0); [|inversion E; subst; discriminate].
    destruct (BufConcModel.cexec hwm cap (y_buf s) (Advance n)) as [c|] eqn:C; [|discriminate]. inversion E; subst.
    cbn [BufConcModel.cexec] in C. cbn in PO. rewrite PO in C. inversion C; subst.
    exists (DAdvW n), bp. split; [|unfold succ; cbn; auto 10]. constructor; cbn; auto; try discriminate. rewrite set_nth_id; auto.
  - destruct (BufConcModel.cexec hwm cap (y_buf s) AdvStep) as [c|] eqn:B; [|discriminate]. inversion E; subst; clear E.
    cbn [BufConcModel.cexec] in B. destruct (vexec (bbuf s) (adv s)) as [[b' v']|] eqn:V; [|discriminate]. inversion B; subst; clear B.
    cbn [cs_adv] in *.
    assert (T : cb_tail b' = cb_tail (bbuf s)).
    { destruct (adv s); cbn [vexec] in V; try discriminate; split_if V; inversion V; subst; cbn in *; auto. }
    assert (ID : forall v, exists p' bp', mv s t (DAdvW n) bp (w_buf s (CS b' (bpcs s) v (cs_done (y_buf s)))) p' bp' /\ succ (DAdvW n) p').
    { intro v. exists (DAdvW n), bp. split; [|unfold succ; cbn; auto 10]. constructor; cbn; auto; try discriminate; try lia.
      - rewrite set_nth_id; auto.
      - rewrite set_nth_id; auto.
      - intros H. exfalso. eapply H; reflexivity. }
    destruct v'; auto; [|discriminate NS].
    assert (FN : forall q, before q = false -> rels q = false -> succ (DAdvW n) q ->
      exists p' bp', mv s t (DAdvW n) bp (go (w_buf s (CS b' (bpcs s) VIdle (cs_done (y_buf s)))) t q) p' bp' /\ succ (DAdvW n) p').
    { intros q Q1 Q2 Q3. exists q, bp. split; [|auto]. constructor; cbn; auto; try discriminate; try congruence; try lia.
      - rewrite set_nth_id; auto. }
    destruct (adv s); apply FN; unfold succ; cbn; auto 10.
  - inversion E; subst. exists DFlag, bp. split; [|unfold succ; cbn; auto 10]. constructor; cbn; auto; try discriminate. rewrite set_nth_id; auto.
  - inversion E; subst. destruct (c_ep (y_next s)); fin GO.
Qed.

Definition actor (x : sact R) : nat := match x with UCall t _ | UStep t | Alloc t _ | Alt t => t end.

Lemma act_mv : forall s st g x s', inv s st g -> kinv (y_buf s) -> 0 < hwm -> y_stop s' = None -> sexec s x = Some s' ->
  exists p bp p' bp', nth_error (y_pcs s) (actor x) = Some p /\ nth_error (bpcs s) (actor x) = Some bp /\
    mv s (actor x) p bp s' p' bp' /\ (own (actor x) x -> succ p p').
Proof.
  intros s st g x s' I K HW NS E. unfold SysModel.sexec in E. destruct (y_stop s); [discriminate|].
  assert (GO : forall t p bp s1 p', nth_error (bpcs s) t = Some bp -> y_pcs s1 = set_nth t p' (y_pcs s) -> y_buf s1 = y_buf s ->
    (y_jobs s1 <> [] -> y_jobs s <> []) ->
    (before p' = true -> before p = true \/ y_jobs s <> []) -> (feeds s p bp -> feeds s1 p' bp) -> rels p' = false ->
    rebuilding p = false -> mv s t p bp s1 p' bp).
  { intros t p bp s1 p' NB P1 P2 P3 P4 P5 P6 P7. constructor; rewrite ?P2; auto; try congruence.
    - rewrite set_nth_id; auto.
    - intros H. destruct (P4 H); auto. }
  destruct x as [t c|t|t a|t]; cbn [actor].
  - destruct (nth_error (y_pcs s) t) as [[]|] eqn:N; try discriminate. destruct (bp_some _ _ _ _ _ _ _ I N) as (bp & NB & _).
    assert (OW : own t (UCall t c) -> False) by (intros [H|[H|[a H]]]; discriminate).
    destruct c; [| | |destruct (y_jobs s) eqn:J; [discriminate|]]; inversion E; subst;
      (do 4 eexists; split; [reflexivity|]; split; [exact NB|]; split; [|intro; exfalso; auto]; eapply GO; [exact NB|reflexivity|reflexivity|..]);
      cbn; auto; intros; try discriminate; try (right; discriminate).
  - destruct (nth_error (y_pcs s) t) as [p|] eqn:N; [|discriminate]. destruct (bp_some _ _ _ _ _ _ _ I N) as (bp & NB & _).
    destruct (run_mv _ _ _ _ _ _ _ I K HW NS N NB E) as (p' & bp' & M & S). exists p, bp, p', bp'. auto.
  - destruct (nth_error (y_pcs s) t) as [[]|] eqn:N; try discriminate. destruct (bp_some _ _ _ _ _ _ _ I N) as (bp & NB & _).
    destruct (y_heap s a); [discriminate|]. unfold deref in E. destruct (y_heap s e); inversion E; subst; [|discriminate NS].
    exists (NClone e r ts), bp, (NStore e a r ts), bp; split; [reflexivity|]; split; [exact NB|]; split; [|intro; unfold succ; right; left; split; reflexivity].
    eapply GO; [exact NB|reflexivity|reflexivity|..]; cbn; auto.
  - destruct (nth_error (y_pcs s) t) as [[]|] eqn:N; try discriminate; destruct (bp_some _ _ _ _ _ _ _ I N) as (bp & NB & _);
      inversion E; subst.
    + exists (ILow r ts), bp, (ILowT r ts (hd (bbuf s))), bp; split; [reflexivity|]; split; [exact NB|]; split; [|intro; unfold succ; right; left; split; reflexivity].
      eapply GO; [exact NB|reflexivity|reflexivity|..]; cbn; auto; discriminate.
    + exists WWait, bp, WLoad, bp; split; [reflexivity|]; split; [exact NB|]; split; [|intro; unfold succ; cbn; auto 10].
      eapply GO; [exact NB|reflexivity|reflexivity|..]; cbn; auto; discriminate.
Qed.

(** ** A reconstruction finds records *)

Definition pending s : Prop := y_jobs s <> [] \/ exists p, In p (y_pcs s) /\ before p = true.
Definition fed s : Prop :=
  pending s -> hd (bbuf s) < cb_tail (bbuf s) \/
  exists t p bp, nth_error (y_pcs s) t = Some p /\ nth_error (bpcs s) t = Some bp /\ feeds s p bp.
(** The view of a reconstruction is of the current head. *)
Definition relok s : Prop := forall t p bp, nth_error (y_pcs s) t = Some p -> nth_error (bpcs s) t = Some bp -> rels p = true ->
  BufConcModel.holds (hd (bbuf s)) bp = true.

Lemma before_recon : forall p, before p = true -> recon p = true.
Proof. intros p H. unfold before in H. apply orb_true_iff in H as [H|H]; [apply andb_true_iff in H; tauto|]. destruct p; auto; discriminate. Qed.

Lemma mv_other : forall s t p bp s' p' bp' u, mv s t p bp s' p' bp' -> u <> t ->
  nth_error (bpcs s') u = nth_error (bpcs s) u /\
  (nth_error (y_pcs s') u = nth_error (y_pcs s) u \/ p = DNotify /\ nth_error (y_pcs s') u = option_map wake (nth_error (y_pcs s) u)).
Proof.
  intros s t p bp s' p' bp' u M NE. rewrite (m_bp _ _ _ _ _ _ _ M), nth_set_other by auto. split; auto.
  destruct (m_pcs _ _ _ _ _ _ _ M) as [E|[-> E]]; rewrite E; [left; apply nth_set_other; auto|right].
  split; auto. rewrite nth_error_map, nth_set_other; auto.
Qed.

Lemma mv_self : forall s t p bp s' p' bp', mv s t p bp s' p' bp' -> nth_error (y_pcs s) t = Some p -> nth_error (bpcs s) t = Some bp ->
  (p = DNotify -> p' <> WWait) -> nth_error (y_pcs s') t = Some p' /\ nth_error (bpcs s') t = Some bp'.
Proof.
  intros s t p bp s' p' bp' M N NB W. rewrite (m_bp _ _ _ _ _ _ _ M). split; [|eapply nth_set_same; eauto].
  destruct (m_pcs _ _ _ _ _ _ _ M) as [E|[-> E]]; rewrite E; [eapply nth_set_same; eauto|].
  rewrite nth_error_map. erewrite nth_set_same by eauto. cbn. destruct p'; auto. specialize (W eq_refl). congruence.
Qed.

(** Where a thread of the next state comes from. *)
Lemma mv_from : forall s t p bp s' p' bp' u q, mv s t p bp s' p' bp' -> nth_error (y_pcs s) t = Some p -> nth_error (y_pcs s') u = Some q -> q <> WLoad ->
  u = t /\ q = p' \/ u <> t /\ nth_error (y_pcs s) u = Some q.
Proof.
  intros s t p bp s' p' bp' u q M N U W. destruct (Nat.eq_dec u t) as [->|NE].
  - left. split; auto. destruct (m_pcs _ _ _ _ _ _ _ M) as [E|[-> E]]; rewrite E in U.
    + erewrite nth_set_same in U by eauto. congruence.
    + rewrite nth_error_map in U. erewrite nth_set_same in U by eauto. cbn in U. inversion U. destruct p'; auto. cbn in *. congruence.
  - right. split; auto. destruct (proj2 (mv_other _ _ _ _ _ _ _ _ M NE)) as [E|[_ E]]; rewrite E in U; auto.
    destruct (nth_error (y_pcs s) u) as [p0|]; cbn in U; [|discriminate]. inversion U. destruct p0; auto. cbn in *. congruence.
Qed.

Lemma fed_step : forall s st g x s', inv s st g -> kinv (y_buf s) -> 0 < hwm -> y_stop s' = None -> sexec s x = Some s' ->
  fed s -> relok s -> fed s' /\ relok s'.
Proof.
  intros s st g x s' I K HW NS E F RL. destruct (act_mv _ _ _ _ _ I K HW NS E) as (p & bp & p' & bp' & N & NB & M & _).
  set (t := actor x) in *. clearbody t.
  assert (DA : (exists n, p = DAdvW n) -> ~ pending s).
  { intros [n ->] [J|(q & Q & B)].
    - destruct (recon_one _ _ _ _ (i_own _ _ _ _ _ I) N eq_refl) as (_ & A & _). auto.
    - apply In_nth_error in Q as [u U]. destruct (Nat.eq_dec u t) as [->|NE]; [rewrite N in U; inversion U; subst; discriminate|].
      apply before_recon in B. pose proof (recon_other _ _ _ _ _ _ (i_own _ _ _ _ _ I) N eq_refl U NE). congruence. }
  assert (DB : (exists n, p = DAdvW n) -> before p = false) by (intros [n ->]; auto).
  assert (FD : (exists n, p = DAdvW n) \/ (forall n, p <> DAdvW n)).
  { destruct p; eauto; right; discriminate. }
  split.
  - intros PD.
    assert (C : pending s \/ before p = true \/ feeds s' p' bp').
    { destruct PD as [J|(q & Q & B)].
      - destruct (m_jobs _ _ _ _ _ _ _ M J); [left; left; auto|auto].
      - apply In_nth_error in Q as [u U]. destruct (mv_from _ _ _ _ _ _ _ _ _ M N U) as [[-> ->]|[NE U']].
        + intros ->. discriminate.
        + destruct (m_before _ _ _ _ _ _ _ M B) as [H|[H|H]]; auto. left; left; auto.
        + left. right. exists q. split; auto. eapply nth_error_In; eauto. }
    assert (SELF : feeds s' p' bp' -> exists u q bq, nth_error (y_pcs s') u = Some q /\ nth_error (bpcs s') u = Some bq /\ feeds s' q bq).
    { intro H. exists t, p', bp'. destruct (mv_self _ _ _ _ _ _ _ M N NB) as [Z1 Z2]; auto. intros _ ->. discriminate H. }
    assert (C' : pending s \/ feeds s' p' bp').
    { destruct C as [C|[C|C]]; auto. left. right. exists p. split; auto. eapply nth_error_In; eauto. }
    destruct C' as [PS|C']; [|right; auto].
    destruct FD as [FD|FD]; [exfalso; apply (DA FD PS)|]. pose proof (m_hd _ _ _ _ _ _ _ M FD) as HH. pose proof (m_tail _ _ _ _ _ _ _ M) as TT.
    destruct (F PS) as [L|(u & q & bq & U & UB & FQ)]; [left; lia|]. destruct (Nat.eq_dec u t) as [->|NE].
    + rewrite N in U. rewrite NB in UB. inversion U; inversion UB; subst. destruct (m_feed _ _ _ _ _ _ _ M FQ); [right; auto|left; auto].
    + right. exists u, q, bq. destruct (mv_other _ _ _ _ _ _ _ _ M NE) as [O1 O2]. rewrite O1. split; [|split; auto].
      * destruct O2 as [O2|[_ O2]]; rewrite O2, U; auto. cbn. destruct q; auto. discriminate FQ.
      * destruct q; auto. destruct bq; cbn in *; auto; rewrite HH; auto.
  - intros u q bq U UB RQ. destruct (mv_from _ _ _ _ _ _ _ _ _ M N U) as [[-> ->]|[NE U']].
    + intros ->. discriminate.
    + destruct (mv_self _ _ _ _ _ _ _ M N NB) as [Z1 Z2]; [intros _ ->; discriminate|]. rewrite Z2 in UB. inversion UB; subst.
      apply (m_rel _ _ _ _ _ _ _ M); auto. intro RP. eapply RL; eauto.
    + rewrite (proj1 (mv_other _ _ _ _ _ _ _ _ M NE)) in UB. pose proof (RL _ _ _ U' UB RQ) as H.
      assert (RC : recon q = true) by (destruct q; auto; discriminate).
      destruct FD as [[n ->]|FD]; [|rewrite (m_hd _ _ _ _ _ _ _ M FD); auto].
      pose proof (recon_other _ _ _ _ _ _ (i_own _ _ _ _ _ I) N eq_refl U' NE). congruence.
Qed.

Notation sreach_safe n s := (sreach lwm hwm cap safe (sys_init hwm cap n) s).

Lemma fed_reach : forall n s, 0 < hwm -> sreach_safe n s -> fed s /\ relok s.
Proof.
  intros n s HW C. remember (sys_init hwm cap n) as s0. induction C; subst.
  - split.
    + intros [J|(p & P & B)]; [cbn in J; congruence|]. apply repeat_spec in P. subst. discriminate.
    + intros t p bp N NB B. apply nth_error_In in N. apply repeat_spec in N. subst. discriminate.
  - destruct (IHC eq_refl) as [F RL]. destruct (safe_reach lwm hwm cap n s1 HW C) as (_ & _ & (st & g & I) & K).
    assert (C2 : sreach_safe n s2) by (econstructor; eauto).
    eapply fed_step; eauto. apply (safe_reach lwm hwm cap n s2 HW C2).
Qed.

(** ** Running one thread *)

Notation sreach_from s s' := (sreach lwm hwm cap safe s s').

Lemma sreach_trans : forall s s1 s2, sreach_from s s1 -> sreach_from s1 s2 -> sreach_from s s2.
Proof. intros s s1 s2 A B. induction B; auto. apply (sr_step _ _ _ safe s s1 x s2); auto. Qed.

Lemma sreach_one : forall s x s', safe s x -> sexec s x = Some s' -> sreach_from s s'.
Proof. intros s x s' A B. econstructor; eauto. constructor. Qed.

Lemma set_set : forall {A} (l : list A) t x y, set_nth t x (set_nth t y l) = set_nth t x l.
Proof. induction l; intros [|t] x y; cbn; auto. f_equal; auto. Qed.

Lemma own_actor : forall t x, own t x -> actor x = t.
Proof. intros t x [->|[->|[a ->]]]; auto. Qed.

Lemma idle_own : forall s t x s', nth_error (y_pcs s) t = Some SIdle -> own t x -> sexec s x = Some s' -> False.
Proof.
  intros s t x s' N [->|[->|[a ->]]] E; unfold SysModel.sexec in E; destruct (y_stop s); try discriminate; rewrite N in E; discriminate.
Qed.

Lemma busy_safe : forall s t x p, nth_error (y_pcs s) t = Some p -> own t x -> rebuilding p = false -> safe s x.
Proof. intros s t x p N [->|[->|[a ->]]] H; cbn; auto. rewrite N. destruct p; auto; discriminate. Qed.

Definition busy p : bool := inserting p || reading p.

Lemma busy_other : forall p, busy p = true -> rebuilding p = false.
Proof. intros [] H; auto; discriminate. Qed.

Lemma succ_busy : forall p p', succ p p' -> busy p = true -> p' = SIdle \/ busy p' = true.
Proof.
  unfold succ, busy. intros p p' [->|[[_ H]|[[_ H]|[[H _]|[[-> _]|[[-> _]|[-> _]]]]]]] B; auto; try discriminate.
  - rewrite H. auto.
  - rewrite H, orb_true_r. auto.
  - destruct p; discriminate.
Qed.

Lemma solo_busy : forall t k s s', solo lwm hwm cap t k s s' -> forall n p bp, 0 < hwm -> sreach_safe n s ->
  nth_error (y_pcs s) t = Some p -> nth_error (bpcs s) t = Some bp -> p = SIdle \/ busy p = true ->
  sreach_from s s' /\ adv s' = adv s /\ exists p' bp', y_pcs s' = set_nth t p' (y_pcs s) /\ bpcs s' = set_nth t bp' (bpcs s).
Proof.
  intros t k s s' S. induction S as [s|k s s1 x s2 OW E S IH]; intros n p bp HW C N NB B.
  - split; [constructor|]. split; auto. exists p, bp. rewrite !set_nth_id; auto.
  - destruct B as [->|B]; [exfalso; eapply idle_own; eauto|]. pose proof (busy_other _ B) as RB.
    pose proof (busy_safe _ _ _ _ N OW RB) as SF. destruct (safe_reach lwm hwm cap n s HW C) as (_ & _ & (st & g & I) & K).
    assert (C1 : sreach_safe n s1) by (econstructor; eauto).
    destruct (act_mv _ _ _ _ _ I K HW (proj1 (safe_reach lwm hwm cap n s1 HW C1)) E) as (q & bq & p' & bp' & N' & NB' & M & SC).
    rewrite (own_actor _ _ OW) in *. rewrite N in N'. rewrite NB in NB'. inversion N'; inversion NB'; subst q bq. specialize (SC OW).
    assert (ND : p <> DNotify) by (intros ->; discriminate).
    destruct (mv_self _ _ _ _ _ _ _ M N NB) as [Z1 Z2]; [intros; contradiction|].
    destruct (IH n p' bp' HW C1 Z1 Z2 (succ_busy _ _ SC B)) as (A1 & A2 & q & bq & A3 & A4).
    split; [eapply sreach_trans; [eapply sreach_one; eauto|auto]|]. split; [rewrite A2; apply (m_adv _ _ _ _ _ _ _ M); auto|].
    exists q, bq. destruct (m_pcs _ _ _ _ _ _ _ M) as [P|[P _]]; [|contradiction].
    rewrite A3, A4, P, (m_bp _ _ _ _ _ _ _ M), !set_set. auto.
Qed.

Definition resting p : bool := match p with SIdle | WLoad | WLock | WWait => true | _ => false end.

Lemma rest_idle : forall s st g t p bp, inv s st g -> nth_error (y_pcs s) t = Some p -> nth_error (bpcs s) t = Some bp -> resting p = true -> bp = Idle.
Proof. intros s st g t p bp I N NB RS. destruct (i_pcs _ _ _ _ _ I _ _ _ N NB) as [_ LK]. destruct p; auto; discriminate. Qed.

Definition others_rest s t : Prop := forall u q, u <> t -> nth_error (y_pcs s) u = Some q -> resting q = true.

Lemma rebuild_safe : forall s st g t p bp, inv s st g -> fed s -> nth_error (y_pcs s) t = Some p -> nth_error (bpcs s) t = Some bp ->
  rebuilding p = true -> others_rest s t -> safe s (UStep t).
Proof.
  intros s st g t p bp I F N NB RB OR. cbn [safe]. rewrite N. destruct (i_pcs _ _ _ _ _ I _ _ _ N NB) as [_ LK].
  assert (OB : forall u (b : pc R), nth_error (bpcs s) u = Some b -> u <> t -> b = Idle).
  { intros u b U NE. destruct (nth_error (y_pcs s) u) as [q|] eqn:Q; [eapply rest_idle; eauto|].
    apply nth_error_None in Q. rewrite <- (i_len _ _ _ _ _ I) in Q. apply nth_error_None in Q. congruence. }
  destruct p; auto.
  - rewrite NB. destruct bp; auto. destruct F as [L|(u & q & bq & U & UB & FQ)]; auto.
    + right. exists (RHold a). split; auto. eapply nth_error_In; eauto.
    + exfalso. destruct (Nat.eq_dec u t) as [->|NE]; [rewrite N in U; inversion U; subst; discriminate FQ|].
      specialize (OR _ _ NE U). destruct q; discriminate.
  - destruct (adv s); auto. intros q IN. apply In_nth_error in IN as [u U]. destruct (Nat.eq_dec u t) as [->|NE].
    + cbn in LK. rewrite NB in U. inversion U; subst. auto.
    + rewrite (OB _ _ U NE). auto.
  - intros q IN. apply In_nth_error in IN as [u U]. destruct (Nat.eq_dec u t) as [->|NE].
    + rewrite N in U. inversion U; subst. auto.
    + specialize (OR _ _ NE U). destruct q; auto; discriminate.
Qed.

Lemma solo_rebuild : forall t k s s', solo lwm hwm cap t k s s' -> forall n p bp, 0 < hwm -> sreach_safe n s ->
  nth_error (y_pcs s) t = Some p -> nth_error (bpcs s) t = Some bp -> p = SIdle \/ rebuilding p = true -> others_rest s t ->
  sreach_from s s' /\ others_rest s' t /\ y_jobs s' = y_jobs s.
Proof.
  intros t k s s' S. induction S as [s|k s s1 x s2 OW E S IH]; intros n p bp HW C N NB B OR.
  - split; [constructor|]. auto.
  - destruct B as [->|B]; [exfalso; eapply idle_own; eauto|]. destruct (fed_reach n s HW C) as [F _].
    destruct (safe_reach lwm hwm cap n s HW C) as (_ & _ & (st & g & I) & K).
    assert (SF : safe s x).
    { destruct OW as [->|[->|[a ->]]]; [|cbn; auto..]. eapply rebuild_safe; eauto. }
    assert (C1 : sreach_safe n s1) by (econstructor; eauto).
    destruct (act_mv _ _ _ _ _ I K HW (proj1 (safe_reach lwm hwm cap n s1 HW C1)) E) as (q & bq & p' & bp' & N' & NB' & M & SC).
    rewrite (own_actor _ _ OW) in *. rewrite N in N'. rewrite NB in NB'. inversion N'; inversion NB'; subst q bq. specialize (SC OW).
    assert (B' : p' = SIdle \/ rebuilding p' = true).
    { destruct SC as [->|[[H _]|[[H _]|[[_ H]|[[H _]|[[H _]|[H _]]]]]]]; auto; destruct p; try discriminate. }
    destruct (mv_self _ _ _ _ _ _ _ M N NB) as [Z1 Z2]; [intros _ ->; destruct B'; discriminate|].
    destruct (IH n p' bp' HW C1 Z1 Z2 B') as (A1 & A2 & A3).
    { intros u q NE U. destruct (proj2 (mv_other _ _ _ _ _ _ _ _ M NE)) as [O|[_ O]]; rewrite O in U; [eapply OR; eauto|].
      destruct (nth_error (y_pcs s) u) as [q0|] eqn:U0; [|discriminate]. cbn in U. inversion U. specialize (OR _ _ NE U0).
      destruct q0; auto. }
    split; [eapply sreach_trans; [eapply sreach_one; eauto|auto]|]. split; auto. rewrite A3. apply (m_kept _ _ _ _ _ _ _ M); auto.
Qed.

(** ** The phases *)

(** No epoch is between its cells. *)
Definition settled s : Prop := forall m c, ~ In (DPrev m c) (y_pcs s).

Lemma stage_pc : forall s st, owner s st -> match st with StQuiet | StNext _ => False | _ => True end ->
  exists t p, nth_error (y_pcs s) t = Some p /\ recon p = true /\ pc_stage p st.
Proof.
  intros s st [(_ & _ & _ & ->)|[(_ & _ & a & _ & ->)|(O & _ & _ & O')]] H; try contradiction.
  assert (exists q, In q (y_pcs s) /\ recon q = true) as (q & Q1 & Q2) by (apply countb_pos; lia).
  pose proof (O' q Q1 Q2). apply In_nth_error in Q1 as [t N]. eauto.
Qed.

Lemma settled_there : forall s st g, inv s st g -> settled s -> epoch_there s.
Proof.
  intros s st g I S. destruct (i_cells _ _ _ _ _ I) as [_ IC]. unfold epoch_there.
  destruct st; repeat match goal with H : _ /\ _ |- _ => destruct H end;
    try (left; match goal with H : y_cur s = Cell _ _ |- _ => rewrite H; discriminate end);
    try (right; match goal with H : y_prev s = Cell _ _ |- _ => rewrite H; discriminate end).
  exfalso. destruct (stage_pc _ _ (i_own _ _ _ _ _ I) Logic.I) as (t & p & N & RC & PS). apply nth_error_In in N.
  destruct p; cbn in RC, PS; try discriminate RC; try destruct w; try destruct f; try discriminate RC;
    repeat match goal with H : exists _, _ |- _ => destruct H | H : _ /\ _ |- _ => destruct H end; try congruence.
  eapply S; eauto.
Qed.

Lemma hand_over : forall n s, 0 < hwm -> sreach_safe n s -> exists s', sreach_from s s' /\ settled s'.
Proof.
  intros n s HW C. destruct (safe_reach lwm hwm cap n s HW C) as (NS & _ & (st & g & I) & K).
  destruct (existsb (fun p => match p with DPrev _ _ => true | _ => false end) (y_pcs s)) eqn:EX.
  - apply existsb_exists in EX as (p & IN & P). destruct p; try discriminate. apply In_nth_error in IN as [t N].
    exists (go (w_prev s c) t (DAdv n0)). split.
    + apply (sreach_one s (UStep t)); [cbn; rewrite N; auto|]. unfold SysModel.sexec. rewrite NS, N. reflexivity.
    + intros m c0 IN. cbn in IN. apply In_nth_error in IN as [u U]. destruct (Nat.eq_dec u t) as [->|NE].
      * erewrite nth_set_same in U by eauto. discriminate.
      * rewrite nth_set_other in U by auto. pose proof (recon_other _ _ _ _ _ _ (i_own _ _ _ _ _ I) N eq_refl U NE). discriminate.
  - exists s. split; [constructor|]. intros m c IN. assert (H : existsb (fun p => match p with DPrev _ _ => true | _ => false end) (y_pcs s) = true).
    { apply existsb_exists. eexists. split; [exact IN|auto]. }
    congruence.
Qed.

Lemma drop_one : forall s st g t bp h, inv s st g -> y_stop s = None -> nth_error (bpcs s) t = Some bp -> bp = RCurLd h ->
  (exists u m, nth_error (y_pcs s) u = Some (DAdvW m)) ->
  exists bp' d, dropping bp' = false /\ safe s (UStep t) /\
    sexec s (UStep t) = Some (w_buf s (CS (bbuf s) (set_nth t bp' (bpcs s)) (adv s) d)).
Proof.
  intros s st g t bp h I NS NB -> (u & m & U).
  assert (exists p, nth_error (y_pcs s) t = Some p) as [p N].
  { destruct (nth_error (y_pcs s) t) eqn:Q; [eauto|]. apply nth_error_None in Q. rewrite <- (i_len _ _ _ _ _ I) in Q.
    apply nth_error_None in Q. congruence. }
  destruct (i_pcs _ _ _ _ _ I _ _ _ N NB) as [_ LK].
  exists (if href (cb_head (bbuf s)) =? 0 then ROld h else RCurCas h (cb_head (bbuf s))).
  assert (X : forall k, k = on_idle (R := R) SIdle \/ (exists e, k = on_idle (SEnd ELoad e ToIdle)) ->
    exists d, bstep hwm cap s t k =
      Some (w_buf s (CS (bbuf s) (set_nth t (if href (cb_head (bbuf s)) =? 0 then ROld h else RCurCas h (cb_head (bbuf s))) (bpcs s)) (adv s) d))).
  { intros k KK. unfold bstep, BufConcModel.cexec. rewrite NB. cbn [BufConcModel.exec cs_pcs]. rewrite (nth_set_same _ _ _ _ NB).
    destruct (href (cb_head (bbuf s)) =? 0); (destruct KK as [->|[e ->]]; eexists; reflexivity). }
  assert (PP : (exists e, p = JRelW e) \/ p = QRelW).
  { destruct p; cbn in LK; eauto; try discriminate;
      repeat match goal with H : exists _, _ |- _ => destruct H | H : _ /\ _ |- _ => destruct H | H : _ \/ _ |- _ => destruct H end; try discriminate.
    - destruct f; repeat match goal with H : exists _, _ |- _ => destruct H end; discriminate.
    - destruct k; repeat match goal with H : _ /\ _ |- _ => destruct H end; discriminate.
    - assert (NE : t <> u) by (intros ->; congruence).
      pose proof (recon_other _ _ _ _ _ _ (i_own _ _ _ _ _ I) U eq_refl N NE). discriminate. }
  unfold SysModel.sexec. rewrite NS, N. destruct PP as [[e ->]| ->].
  - destruct (X (on_idle (SEnd ELoad e ToIdle))) as [d D]; [eauto|]. exists d. split; [destruct (_ =? 0); auto|].
    split; [cbn; rewrite N; auto|exact D].
  - destruct (X (on_idle SIdle)) as [d D]; [eauto|]. exists d. split; [destruct (_ =? 0); auto|].
    split; [cbn; rewrite N; auto|exact D].
Qed.

Lemma drop_all : forall k n s, 0 < hwm -> sreach_safe n s -> countb dropping (bpcs s) = k -> (exists u m, nth_error (y_pcs s) u = Some (DAdvW m)) ->
  exists s', sreach_from s s' /\ y_pcs s' = y_pcs s /\ adv s' = adv s /\ countb dropping (bpcs s') = 0.
Proof.
  induction k as [|k IH]; intros n s HW C KK D.
  - exists s. split; [constructor|]. auto.
  - assert (exists bp, In bp (bpcs s) /\ dropping bp = true) as (bp & IN & DR) by (apply countb_pos; lia).
    apply In_nth_error in IN as [t NB]. destruct (safe_reach lwm hwm cap n s HW C) as (NS & _ & (st & g & I) & K).
    destruct bp; try discriminate. destruct (drop_one _ _ _ _ _ _ I NS NB eq_refl D) as (bp' & d & B1 & B2 & B3).
    set (s1 := w_buf s (CS (bbuf s) (set_nth t bp' (bpcs s)) (adv s) d)) in *.
    assert (C1 : sreach_safe n s1) by (econstructor; eauto).
    destruct (IH n s1 HW C1) as (s' & A1 & A2 & A3 & A4); auto.
    + cbn. pose proof (countb_set_nth dropping _ _ _ bp' NB) as Y. rewrite B1 in Y. cbn in Y. lia.
    + exists s'. split; [eapply sreach_trans; [eapply sreach_one; eauto|auto]|]. auto.
Qed.

Lemma swing : forall n s, 0 < hwm -> sreach_safe n s -> settled s -> exists s', sreach_from s s' /\ settled s' /\ head_there s'.
Proof.
  intros n s HW C S. destruct (swinging (adv s)) eqn:V.
  2: { exists s. split; [constructor|]. split; auto. unfold head_there. destruct (adv s); auto; discriminate. }
  destruct (safe_reach lwm hwm cap n s HW C) as (NS & _ & (st & g & I) & K).
  assert (D : exists u m, nth_error (y_pcs s) u = Some (DAdvW m)).
  { pose proof (i_heads _ _ _ _ _ I) as ((h & _ & A) & _).
    assert (ST : exists a m, st = StMoved a m).
    { destruct st; eauto; destruct A as [A _]; rewrite A in V; discriminate. }
    destruct ST as (a & m & ->). destruct (stage_pc _ _ (i_own _ _ _ _ _ I) Logic.I) as (u & p & U & RC & PS).
    exists u, m. rewrite U. destruct p; cbn in RC, PS; try discriminate RC; try destruct w; try destruct f; try discriminate RC;
      repeat match goal with H : exists _, _ |- _ => destruct H | H : _ /\ _ |- _ => destruct H end; try congruence.
    exfalso. destruct (bp_some _ _ _ _ _ _ _ I U) as (bp & _ & PO & _). cbn in PO. rewrite PO in V. discriminate. }
  destruct (drop_all _ n s HW C eq_refl D) as (s1 & A1 & A2 & A3 & A4). destruct D as (u & m & U).
  assert (C1 : sreach_safe n s1) by (eapply sreach_trans; eauto).
  destruct (safe_reach lwm hwm cap n s1 HW C1) as (NS1 & _ & (st1 & g1 & I1) & K1).
  rewrite <- A2 in U. rewrite <- A3 in V. destruct (adv s1) as [| | | | | |m1 cur|] eqn:AV; try discriminate.
  exists (go (w_buf s1 (CS (with_old (bbuf s1) cur) (bpcs s1) VIdle (cs_done (y_buf s1)))) u DPub). split; [|split].
  - eapply sreach_trans; [exact A1|]. apply (sreach_one s1 (UStep u)).
    + cbn. rewrite U, AV. intros q IN. destruct (dropping q) eqn:Q; auto. pose proof (countb_in dropping _ _ IN Q). lia.
    + unfold SysModel.sexec. rewrite NS1, U. cbn [SysModel.run BufConcModel.cexec]. rewrite AV. reflexivity.
  - intros m0 c IN. cbn in IN. rewrite A2 in IN. apply in_set_nth in IN as [IN|IN]; [discriminate|]. eapply S; eauto.
  - unfold head_there. cbn. auto.
Qed.

Lemma finish_one : forall n s t p, 0 < hwm -> sreach_safe n s -> settled s -> head_there s -> nth_error (y_pcs s) t = Some p -> busy p = true ->
  exists s', sreach_from s s' /\ y_pcs s' = set_nth t SIdle (y_pcs s) /\ adv s' = adv s.
Proof.
  intros n s t p HW C S HT N B. destruct (safe_reach lwm hwm cap n s HW C) as (NS & X & (st & g & I) & K).
  destruct (bp_some _ _ _ _ _ _ _ I N) as (bp & NB & _).
  assert (Q : exists k s', solo lwm hwm cap t k s s' /\ over t s').
  { unfold busy in B. destruct (inserting p) eqn:IN.
    - destruct (insert_ends lwm hwm cap safe n s t p HW C NS N IN) as (k & s' & _ & Q). eauto.
    - assert (CR : can_read s).
      { split; [eapply settled_there; eauto|]. split; auto. unfold refs_there.
        destruct (bx_counts hwm cap s K (sx_bx _ X) HT) as [E _]. unfold views_of in E. lia. }
      destruct (read_ends lwm hwm cap safe n s t p HW C NS N B CR) as (k & s' & _ & Q). eauto. }
  destruct Q as (k & s' & SO & OV). destruct (solo_busy _ _ _ _ SO n p bp HW C N NB (or_intror B)) as (A1 & A2 & p' & bp' & A3 & A4).
  exists s'. split; auto. split; auto. assert (C' : sreach_safe n s') by (eapply sreach_trans; eauto).
  destruct OV as [OV|OV]; [rewrite (safe_runs lwm hwm cap n s' HW C') in OV; discriminate|].
  rewrite A3 in OV. erewrite nth_set_same in OV by eauto. congruence.
Qed.

Lemma finish_all : forall k n s, 0 < hwm -> sreach_safe n s -> settled s -> head_there s -> countb busy (y_pcs s) = k ->
  exists s', sreach_from s s' /\ head_there s' /\ countb busy (y_pcs s') = 0.
Proof.
  induction k as [|k IH]; intros n s HW C S HT KK.
  - exists s. split; [constructor|]. auto.
  - assert (exists p, In p (y_pcs s) /\ busy p = true) as (p & IN & B) by (apply countb_pos; lia). apply In_nth_error in IN as [t N].
    destruct (finish_one n s t p HW C S HT N B) as (s1 & A1 & A2 & A3).
    destruct (IH n s1 HW) as (s' & B1 & B2 & B3).
    + eapply sreach_trans; eauto.
    + intros m c IN. rewrite A2 in IN. apply in_set_nth in IN as [IN|IN]; [discriminate|]. eapply S; eauto.
    + unfold head_there in *. rewrite A3. auto.
    + rewrite A2. pose proof (countb_set_nth busy _ _ _ SIdle N) as Y. rewrite B in Y. cbn in Y. lia.
    + exists s'. split; [eapply sreach_trans; eauto|]. auto.
Qed.

Lemma holds_one : forall i j bp, BufConcModel.holds i bp = true -> BufConcModel.holds j bp = true -> i = j.
Proof.
  intros i j bp A B. destruct bp; cbn in A, B; try discriminate; apply Nat.eqb_eq in A; apply Nat.eqb_eq in B; congruence.
Qed.

Lemma no_count : forall {A} (f : A -> bool) l, (forall x, In x l -> f x = false) -> countb f l = 0.
Proof.
  intros A f l H. destruct (countb f l) eqn:E; auto. assert (exists x, In x l /\ f x = true) as (x & X1 & X2) by (apply countb_pos; lia).
  rewrite H in X2; auto. discriminate.
Qed.

(** The reconstruction is the only thread that is not resting. *)
Lemma rebuild_one : forall n s t p, 0 < hwm -> sreach_safe n s -> head_there s -> nth_error (y_pcs s) t = Some p -> rebuilding p = true -> others_rest s t ->
  exists s', sreach_from s s' /\ (forall q, In q (y_pcs s') -> resting q = true) /\ nth_error (y_pcs s') t = Some SIdle /\ y_jobs s' = [].
Proof.
  intros n s t p HW C HT N RB OR. destruct (safe_reach lwm hwm cap n s HW C) as (NS & X & (st & g & I) & K).
  destruct (fed_reach n s HW C) as [_ RL].
  destruct (bp_some _ _ _ _ _ _ _ I N) as (bp & NB & PO & LK).
  assert (RC : recon p = true) by (destruct p; auto; discriminate).
  assert (PS := stage_of _ _ _ _ _ _ _ I N RC).
  assert (NP : forall e, pins s e = 0).
  { intro e. unfold pins. apply no_count. intros q IN. apply In_nth_error in IN as [u U]. destruct (Nat.eq_dec u t) as [->|NE].
    - rewrite N in U. inversion U; subst. destruct q; auto; discriminate.
    - specialize (OR _ _ NE U). destruct q; auto; discriminate. }
  assert (P0 : c_ref (y_prev s) = 0).
  { destruct (y_prev s) as [[e|] k] eqn:Y; cbn.
    - rewrite (ex_prev _ (sx_ex _ X) _ _ Y). apply NP.
    - destruct (i_cells _ _ _ _ _ I) as [_ IC]. destruct (g_prev g) as [[x y]|]; cbn in IC;
        destruct st; repeat match goal with H : _ /\ _ |- _ => destruct H end; unfold null in *; congruence. }
  assert (NE : od (bbuf s) <> hd (bbuf s)).
  { pose proof (k_refs _ _ _ _ K) as F. apply refs_out in F; [tauto|]. intros m cur E. unfold head_there in HT. rewrite E in HT. auto. }
  assert (HB : BufConcModel.holds (od (bbuf s)) bp = false).
  { destruct (BufConcModel.holds (od (bbuf s)) bp) eqn:HB; auto. exfalso. apply NE.
    assert (HH : forall a h, st = StNext a -> headof s a = Some h -> h = hd (bbuf s)).
    { intros a h -> H. pose proof (i_heads _ _ _ _ _ I) as (_ & _ & D & _). destruct (D a eq_refl) as (_ & _ & D1). congruence. }
    destruct p; cbn in RB, LK, PS; try discriminate RB; try (subst bp; cbn in HB; discriminate HB).
    - destruct LK as (h & LK & E). apply HH in E; auto. subst h. destruct LK as [LK| ->].
      + destruct bp; cbn in LK, HB; discriminate.
      + apply Nat.eqb_eq in HB. auto.
    - destruct LK as (-> & E). apply HH in E; auto. subst h. apply Nat.eqb_eq in HB. auto.
    - destruct LK as (h & -> & E). apply HH in E; auto. subst h. apply Nat.eqb_eq in HB. auto.
    - eapply holds_one; [exact HB|]. eapply RL; eauto.
    - eapply holds_one; [exact HB|]. eapply RL; eauto. }
  assert (O0 : href (cb_old (bbuf s)) = 0).
  { destruct (bx_counts hwm cap s K (sx_bx _ X) HT) as [_ E]. rewrite E. unfold views_of. apply no_count. intros b IN.
    apply In_nth_error in IN as [u U]. destruct (Nat.eq_dec u t) as [->|NU]; [congruence|].
    destruct (nth_error (y_pcs s) u) as [q|] eqn:Q.
    - rewrite (rest_idle _ _ _ _ _ _ I Q U (OR _ _ NU Q)). auto.
    - apply nth_error_None in Q. rewrite <- (i_len _ _ _ _ _ I) in Q. apply nth_error_None in Q. congruence. }
  assert (CB : can_rebuild s p) by (destruct p; cbn; auto; destruct (adv s); auto).
  destruct (rebuild_ends lwm hwm cap safe n s t p HW C NS N RB CB) as (k & s' & _ & SO & OV).
  destruct (solo_rebuild _ _ _ _ SO n p bp HW C N NB (or_intror RB) OR) as (A1 & A2 & A3).
  exists s'. split; auto. assert (C' : sreach_safe n s') by (eapply sreach_trans; eauto).
  destruct OV as [OV|OV]; [rewrite (safe_runs lwm hwm cap n s' HW C') in OV; discriminate|].
  split; [|split; auto].
  - intros q IN. apply In_nth_error in IN as [u U]. destruct (Nat.eq_dec u t) as [->|NU]; [rewrite OV in U; inversion U; auto|]. eapply A2; eauto.
  - rewrite A3. apply (recon_one _ _ _ _ (i_own _ _ _ _ _ I) N RC).
Qed.

Lemma calm_down : forall n s, 0 < hwm -> sreach_safe n s -> exists s', sreach_from s s' /\ forall q, In q (y_pcs s') -> resting q = true.
Proof.
  intros n s HW C. destruct (hand_over n s HW C) as (s1 & A1 & A2). assert (C1 : sreach_safe n s1) by (eapply sreach_trans; eauto).
  destruct (swing n s1 HW C1 A2) as (s2 & B1 & B2 & B3). assert (C2 : sreach_safe n s2) by (eapply sreach_trans; eauto).
  destruct (finish_all _ n s2 HW C2 B2 B3 eq_refl) as (s3 & D1 & D2 & D3). assert (C3 : sreach_safe n s3) by (eapply sreach_trans; eauto).
  assert (R3 : sreach_from s s3) by (eapply sreach_trans; [exact A1|eapply sreach_trans; eauto]).
  assert (Q : forall q, In q (y_pcs s3) -> resting q = true \/ rebuilding q = true).
  { intros q IN. destruct (busy q) eqn:B; [pose proof (countb_in busy _ _ IN B); lia|]. destruct q; auto; try discriminate.
    - destruct w; discriminate.
    - destruct f; discriminate. }
  destruct (existsb rebuilding (y_pcs s3)) eqn:EX.
  - apply existsb_exists in EX as (p & IN & RB). apply In_nth_error in IN as [t N].
    destruct (safe_reach lwm hwm cap n s3 HW C3) as (NS & X & (st & g & I) & K).
    assert (RC : recon p = true) by (destruct p; auto; discriminate).
    destruct (rebuild_one n s3 t p HW C3 D2 N RB) as (s4 & E1 & E2 & _).
    + intros u q NE U. destruct (Q q (nth_error_In _ _ U)) as [H|H]; auto.
      pose proof (recon_other _ _ _ _ _ _ (i_own _ _ _ _ _ I) N RC U NE). destruct q; discriminate.
    + exists s4. split; auto. eapply sreach_trans; eauto.
  - exists s3. split; auto. intros q IN. destruct (Q q IN) as [H|H]; auto.
    assert (existsb rebuilding (y_pcs s3) = true) by (apply existsb_exists; eauto). congruence.
Qed.

Definition loading p : bool := match p with WLoad => true | _ => false end.
Definition locking p : bool := match p with WLock => true | _ => false end.

Lemma load_all : forall k n s, 0 < hwm -> sreach_safe n s -> (forall q, In q (y_pcs s) -> resting q = true) -> countb loading (y_pcs s) = k ->
  exists s', sreach_from s s' /\ (forall q, In q (y_pcs s') -> resting q = true) /\ countb loading (y_pcs s') = 0 /\ y_jobs s' = y_jobs s /\
    (forall t, nth_error (y_pcs s) t = Some SIdle -> nth_error (y_pcs s') t = Some SIdle).
Proof.
  induction k as [|k IH]; intros n s HW C RS KK.
  - exists s. split; [constructor|]. auto.
  - assert (exists p, In p (y_pcs s) /\ loading p = true) as (p & IN & B) by (apply countb_pos; lia). apply In_nth_error in IN as [t N].
    destruct p; try discriminate. pose proof (safe_runs lwm hwm cap n s HW C) as NS.
    set (p' := match c_ep (y_next s) with None => @SIdle R | Some _ => WLock end).
    assert (E : sexec s (UStep t) = Some (go s t p')) by (unfold SysModel.sexec; rewrite NS, N; auto).
    assert (A1 : sreach_from s (go s t p')) by (eapply sreach_one; eauto; cbn; rewrite N; auto).
    assert (L : loading p' = false) by (unfold p'; destruct (c_ep (y_next s)); auto).
    assert (RP : resting p' = true) by (unfold p'; destruct (c_ep (y_next s)); auto).
    destruct (IH n (go s t p') HW) as (s' & B1 & B2 & B3 & B4 & B5).
    + eapply sreach_trans; eauto.
    + intros q IN. cbn in IN. apply in_set_nth in IN as [->|IN]; auto.
    + cbn. pose proof (countb_set_nth loading _ _ _ p' N) as Y. rewrite L in Y. cbn in Y. lia.
    + exists s'. split; [eapply sreach_trans; eauto|]. split; auto. split; auto. split; auto.
      intros u U. apply B5. cbn. rewrite nth_set_other; auto. intros ->. congruence.
Qed.

Lemma lock_all : forall k n s, 0 < hwm -> sreach_safe n s -> (forall q, In q (y_pcs s) -> resting q = true) -> countb loading (y_pcs s) = 0 ->
  countb locking (y_pcs s) = k ->
  exists s', sreach_from s s' /\ (forall q, In q (y_pcs s') -> at_rest q) /\ y_jobs s' = y_jobs s /\
    (forall t, nth_error (y_pcs s) t = Some SIdle -> nth_error (y_pcs s') t = Some SIdle).
Proof.
  induction k as [|k IH]; intros n s HW C RS LL KK.
  - exists s. split; [constructor|]. split; auto. intros q IN. unfold at_rest. specialize (RS q IN). destruct q; auto; try discriminate.
    + pose proof (countb_in loading _ _ IN eq_refl). lia.
    + pose proof (countb_in locking _ _ IN eq_refl). lia.
  - assert (exists p, In p (y_pcs s) /\ locking p = true) as (p & IN & B) by (apply countb_pos; lia). apply In_nth_error in IN as [t N].
    destruct p; try discriminate. pose proof (safe_runs lwm hwm cap n s HW C) as NS.
    assert (E : sexec s (UStep t) = Some (go s t WWait)) by (unfold SysModel.sexec; rewrite NS, N; auto).
    assert (A1 : sreach_from s (go s t WWait)) by (eapply sreach_one; eauto; cbn; rewrite N; auto).
    destruct (IH n (go s t WWait) HW) as (s' & B1 & B2 & B3 & B4).
    + eapply sreach_trans; eauto.
    + intros q IN. cbn in IN. apply in_set_nth in IN as [->|IN]; auto.
    + cbn. pose proof (countb_set_nth loading _ _ _ WWait N) as Y. cbn in Y. lia.
    + cbn. pose proof (countb_set_nth locking _ _ _ WWait N) as Y. cbn in Y. lia.
    + exists s'. split; [eapply sreach_trans; eauto|]. split; auto. split; auto.
      intros u U. apply B4. cbn. rewrite nth_set_other; auto. intros ->. congruence.
Qed.

Lemma wait_all : forall n s, 0 < hwm -> sreach_safe n s -> (forall q, In q (y_pcs s) -> resting q = true) ->
  exists s', sreach_from s s' /\ (forall q, In q (y_pcs s') -> at_rest q) /\ y_jobs s' = y_jobs s.
Proof.
  intros n s HW C RS. destruct (load_all _ n s HW C RS eq_refl) as (s1 & A1 & A2 & A3 & A4 & _).
  assert (C1 : sreach_safe n s1) by (eapply sreach_trans; eauto).
  destruct (lock_all _ n s1 HW C1 A2 A3 eq_refl) as (s2 & B1 & B2 & B3 & _).
  exists s2. split; [eapply sreach_trans; eauto|]. split; auto. congruence.
Qed.

Lemma rest_flag : forall s st, owner s st -> (forall q, In q (y_pcs s) -> at_rest q) -> y_jobs s = [] -> y_flag s = false.
Proof.
  intros s st O RS J. destruct O as [(_ & _ & F & _)|[(_ & _ & a & J' & _)|(O & _)]]; [auto|congruence|].
  assert (exists q, In q (y_pcs s) /\ recon q = true) as (q & Q1 & Q2) by (apply countb_pos; lia).
  destruct (RS q Q1) as [-> | ->]; discriminate.
Qed.

Theorem drains : forall n s, 0 < hwm -> sreach_safe n s ->
  exists s', sreach_from s s' /\ (forall q, In q (y_pcs s') -> at_rest q) /\
    (y_jobs s' = [] /\ y_flag s' = false \/ forall q, In q (y_pcs s') -> q = WWait).
Proof.
  intros n s HW C. destruct (calm_down n s HW C) as (s1 & A1 & A2). assert (C1 : sreach_safe n s1) by (eapply sreach_trans; eauto).
  destruct (wait_all n s1 HW C1 A2) as (s2 & B1 & B2 & B3). assert (C2 : sreach_safe n s2) by (eapply sreach_trans; eauto).
  assert (R2 : sreach_from s s2) by (eapply sreach_trans; eauto).
  destruct (safe_reach lwm hwm cap n s2 HW C2) as (NS & _ & (st & g & I) & K).
  destruct (y_jobs s2) as [|a js] eqn:J.
  - exists s2. split; auto. split; auto. left. split; auto. eapply rest_flag; eauto. apply I.
  - destruct (existsb (fun q => match q with SIdle => true | _ => false end) (y_pcs s2)) eqn:EX.
    + apply existsb_exists in EX as (q & IN & Q). destruct q; try discriminate. apply In_nth_error in IN as [t N].
      assert (E : sexec s2 (UCall t URecon) = Some (go (w_jobs s2 js) t (RView a))) by (unfold SysModel.sexec; rewrite NS, N, J; auto).
      assert (E1 : sreach_from s2 (go (w_jobs s2 js) t (RView a))) by (eapply sreach_one; eauto; cbn; auto).
      set (s3 := go (w_jobs s2 js) t (RView a)) in *. assert (C3 : sreach_safe n s3) by (eapply sreach_trans; eauto).
      assert (N3 : nth_error (y_pcs s3) t = Some (RView a)) by (cbn; eapply nth_set_same; eauto).
      destruct (safe_reach lwm hwm cap n s3 HW C3) as (NS3 & _ & (st3 & g3 & I3) & K3).
      destruct (rebuild_one n s3 t (RView a) HW C3) as (s4 & D1 & D2 & D3 & D4); auto.
      * eapply stage_idle; eauto; cbn; auto.
      * intros u q NE U. cbn in U. rewrite nth_set_other in U by auto. destruct (B2 q (nth_error_In _ _ U)) as [-> | ->]; auto.
      * assert (C4 : sreach_safe n s4) by (eapply sreach_trans; eauto).
        destruct (wait_all n s4 HW C4 D2) as (s5 & F1 & F2 & F3). assert (C5 : sreach_safe n s5) by (eapply sreach_trans; eauto).
        destruct (safe_reach lwm hwm cap n s5 HW C5) as (_ & _ & (st5 & g5 & I5) & _).
        exists s5. split; [eapply sreach_trans; [exact R2|eapply sreach_trans; [exact E1|eapply sreach_trans; eauto]]|]. split; auto.
        left. rewrite F3. split; auto. eapply rest_flag; eauto; [apply I5|congruence].
    + exists s2. split; auto. split; auto. right. intros q IN. destruct (B2 q IN) as [-> | ->]; auto.
      assert (existsb (fun q => match q with SIdle => true | _ => false end) (y_pcs s2) = true) by (apply existsb_exists; exists SIdle; auto). congruence.
Qed.

End RS.

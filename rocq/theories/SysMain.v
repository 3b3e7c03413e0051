(** The transition of epochs, and the invariant over whole executions. *)
From Coq Require Import List Arith ZArith NArith Lia Bool.
From Verif Require Import Base ListLemmas RecordModel BufferModel BufConcModel BufConcProofs BufConcData SysModel SysInv SysSteps
  SysRun.
Import ListNotations.

Section SM.
Context {R : Type} {RO : RecOps R}.
Variables lwm hwm cap : nat.
Notation exec := (exec hwm cap).
Notation cexec := (cexec hwm cap).
Notation sexec := (sexec lwm hwm cap).
Notation run := (run lwm hwm cap).
Notation inv := (inv hwm cap).
Notation jinv := (jinv hwm cap).
Notation good := (good hwm cap).
Notation hd s := (hidx (cb_head (cs_buf (y_buf s)))).
Notation od s := (hidx (cb_old (cs_buf (y_buf s)))).
Notation adv s := (cs_adv (y_buf s)).
Notation bpcs s := (cs_pcs (y_buf s)).
Implicit Types (s : sys R) (p : spc R) (bp : pc R).

(** A step of the reconstruction that changes what the others see. *)
Lemma wild_inv : forall s s' st st' g g' t p p' bp bp', inv s st g ->
  nth_error (y_pcs s) t = Some p -> nth_error (bpcs s) t = Some bp ->
  y_pcs s' = set_nth t p' (y_pcs s) -> bpcs s' = set_nth t bp' (bpcs s) ->
  jinv (y_buf s') -> owner s' st' -> cells s' st' g' -> pins_ok s' g' -> heads s' st' g' ->
  (forall u q bq, u <> t -> nth_error (y_pcs s) u = Some q -> nth_error (bpcs s) u = Some bq ->
     pc_ok s q -> link s q bq -> pc_ok s' q /\ link s' q bq) ->
  pc_ok s' p' -> link s' p' bp' -> inv s' st' g'.
Proof.
  intros s s' st st' g g' t p p' bp bp' I N NB E EB J O C P H OT PO LK. destruct I as [_ _ _ _ IP IL _].
  constructor; auto.
  - intros u q bq U UB. rewrite E in U. rewrite EB in UB. destruct (Nat.eq_dec u t) as [->|NE].
    + rewrite (nth_set_same _ _ _ _ N) in U. rewrite (nth_set_same _ _ _ _ NB) in UB.
      inversion U; inversion UB; subst. auto.
    + rewrite nth_set_other in U by auto. rewrite nth_set_other in UB by auto. destruct (IP _ _ _ U UB) as [A B].
      eapply OT; eauto.
  - rewrite E, EB, !set_nth_length. auto.
Qed.

Definition active (g : ghost) (e : nat) : Prop := e = g_act g \/ exists q, g_prev g = Some (e, q).

Lemma link_others : forall s s' st g t u p q bq, inv s st g -> nth_error (y_pcs s) t = Some p -> recon p = true ->
  nth_error (y_pcs s) u = Some q -> u <> t ->
  (forall e, active g e -> headof s' e = headof s e) -> link s q bq -> link s' q bq.
Proof.
  intros s s' st g t u p q bq I N RP U NE H LK.
  pose proof (recon_other _ _ _ _ _ _ (i_own _ _ _ _ _ I) N RP U NE) as RQ.
  assert (A : forall e, pinned q = Some e -> headof s' e = headof s e).
  { intros e P. apply H. destruct (pinned_active _ _ _ _ _ (i_pins _ _ _ _ _ I) U P) as (_ & [->|(x & X & _)]); [left|right]; eauto. }
  destruct q; cbn in RQ; try discriminate; cbn in *; auto; try (rewrite A by auto; auto; fail).
Qed.

Lemma pc_others : forall s s' st g t u p q, inv s st g -> nth_error (y_pcs s) t = Some p -> recon p = true ->
  nth_error (y_pcs s) u = Some q -> u <> t ->
  (forall e, 0 < pins s e -> c_ep (y_prev s) = Some e -> c_ep (y_prev s') = Some e) -> pc_ok s q -> pc_ok s' q.
Proof.
  intros s s' st g t u p q I N RP U NE H PO.
  pose proof (recon_other _ _ _ _ _ _ (i_own _ _ _ _ _ I) N RP U NE) as RQ.
  assert (PI : forall e, pinned q = Some e -> 0 < pins s e).
  { intros e P. apply (pinned_active _ _ _ _ _ (i_pins _ _ _ _ _ I) U P). }
  destruct q; cbn in RQ; try discriminate; cbn in *; auto.
  destruct j; auto. destruct PO as (P1 & P2). split; auto.
Qed.

Lemma stage_of : forall s st g t p, inv s st g -> nth_error (y_pcs s) t = Some p -> recon p = true -> pc_stage p st.
Proof. intros s st g t p I N RP. apply (recon_one _ _ _ _ (i_own _ _ _ _ _ I) N RP). Qed.

(** ** Scheduling a reconstruction *)

Lemma flag_good : forall s st g t r ts, inv s st g -> y_stop s = None ->
  nth_error (y_pcs s) t = Some (IFlag r ts) -> y_flag s = false -> good s (go (w_flag s true) t (NNull r ts)).
Proof.
  intros s st g t r ts I NS N F. destruct (bp_some _ _ _ _ _ _ _ I N) as (bp & NB & PO & LK). cbn in LK. subst bp.
  pose proof I as [IO IC IPI IH IP IL IJ]. set (s' := go _ _ _).
  assert (Q : countb recon (y_pcs s) = 0 /\ y_jobs s = [] /\ st = StQuiet).
  { destruct IO as [(H1 & H2 & _ & H3)|[(_ & H & _)|(_ & _ & H & _)]]; try congruence. auto. }
  destruct Q as (Q1 & Q2 & ->).
  apply (good_same hwm cap s s' StQuiet g); auto.
  eapply (tame_inv hwm cap s s' StQuiet g StQuiet g t _ (NNull r ts) Idle Idle); eauto; try (cbn; auto; fail).
  - cbn. symmetry. apply set_nth_id. auto.
  - apply tame_refl; auto.
  - right. right. cbn. split; [|split; [auto|split; [auto|]]].
    + pose proof (countb_set_nth recon _ t _ (NNull r ts) N) as C. cbn in C. lia.
    + intros q Iq RC. apply in_set_nth_other in Iq as [->|(u & U1 & U)]; [cbn; auto|].
      pose proof (countb_in recon _ _ (nth_error_In _ _ U) RC). lia.
  - exact (pins_same s s' g t _ _ IPI N eq_refl eq_refl).
Qed.

Lemma submit_good : forall s st g t a r ts, inv s st g -> y_stop s = None ->
  nth_error (y_pcs s) t = Some (NTask a r ts) -> good s (go (w_jobs s (y_jobs s ++ [a])) t (IApp r ts)).
Proof.
  intros s st g t a r ts I NS N. destruct (bp_some _ _ _ _ _ _ _ I N) as (bp & NB & PO & LK). cbn in LK. subst bp.
  pose proof I as [IO IC IPI IH IP IL IJ]. set (s' := go _ _ _).
  destruct (recon_one _ _ _ _ IO N eq_refl) as (Q1 & Q2 & Q3 & Q4). cbn in Q4. subst st.
  apply (good_same hwm cap s s' (StNext a) g); auto.
  eapply (tame_inv hwm cap s s' (StNext a) g (StNext a) g t _ (IApp r ts) Idle Idle); eauto; try (cbn; auto; fail).
  - cbn. symmetry. apply set_nth_id. auto.
  - apply tame_refl; auto.
  - right. left. cbn. rewrite Q2. split; [|split; [auto|exists a; auto]].
    pose proof (countb_set_nth recon _ t _ (IApp r ts) N) as C. cbn in C. lia.
  - exact (pins_same s s' g t _ _ IPI N eq_refl eq_refl).
Qed.

Lemma start_good : forall s st g t a js, inv s st g -> y_stop s = None ->
  nth_error (y_pcs s) t = Some SIdle -> y_jobs s = a :: js -> good s (go (w_jobs s js) t (RView a)).
Proof.
  intros s st g t a js I NS N J. destruct (bp_some _ _ _ _ _ _ _ I N) as (bp & NB & PO & LK). cbn in LK. subst bp.
  pose proof I as [IO IC IPI IH IP IL IJ]. set (s' := go _ _ _).
  assert (Q : countb recon (y_pcs s) = 0 /\ y_flag s = true /\ js = [] /\ st = StNext a).
  { destruct IO as [(_ & H & _)|[(H & F & b & E & S)|(_ & H & _)]]; try congruence. rewrite E in J. inversion J; subst. auto. }
  destruct Q as (Q1 & Q2 & -> & ->).
  apply (good_same hwm cap s s' (StNext a) g); auto.
  eapply (tame_inv hwm cap s s' (StNext a) g (StNext a) g t _ (RView a) Idle Idle); eauto; try (cbn; auto; fail).
  - cbn. symmetry. apply set_nth_id. auto.
  - apply tame_refl; auto.
  - right. right. cbn. split; [|split; [auto|split; [auto|]]].
    + pose proof (countb_set_nth recon _ t _ (RView a) N) as C. cbn in C. lia.
    + intros q Iq RC. apply in_set_nth_other in Iq as [->|(u & U1 & U)]; [cbn; auto|].
      pose proof (countb_in recon _ _ (nth_error_In _ _ U) RC). lia.
  - exact (pins_same s s' g t _ _ IPI N eq_refl eq_refl).
Qed.

Lemma finish_good : forall s st g t, inv s st g -> y_stop s = None ->
  nth_error (y_pcs s) t = Some (@DFlag R) -> good s (go (w_flag s false) t SIdle).
Proof.
  intros s st g t I NS N. destruct (bp_some _ _ _ _ _ _ _ I N) as (bp & NB & PO & LK). cbn in LK. subst bp.
  pose proof I as [IO IC IPI IH IP IL IJ]. set (s' := go _ _ _).
  destruct (recon_one _ _ _ _ IO N eq_refl) as (Q1 & Q2 & Q3 & Q4). cbn in Q4. subst st.
  apply (good_same hwm cap s s' StQuiet g); auto.
  eapply (tame_inv hwm cap s s' StQuiet g StQuiet g t _ SIdle Idle Idle); eauto; try (cbn; auto; fail).
  - cbn. symmetry. apply set_nth_id. auto.
  - apply tame_refl; auto.
  - left. cbn. split; [|auto].
    pose proof (countb_set_nth recon _ t _ SIdle N) as C. cbn in C. lia.
  - exact (pins_same s s' g t _ _ IPI N eq_refl eq_refl).
Qed.

Lemma headof_upd : forall s m a x e, headof (w_heap s (upd m a x)) e = if e =? a then option_map e_head x else option_map e_head (m e).
Proof. intros. unfold headof, w_heap, upd. cbn. destruct (e =? a); auto. Qed.

(** Only the state of the heap matters for [headof]. *)
Lemma headof_heap : forall s s' e, y_heap s' = y_heap s -> headof s' e = headof s e.
Proof. intros s s' e H. unfold headof. rewrite H. auto. Qed.

Lemma clone_good : forall s st g t e r ts a x, inv s st g -> y_stop s = None ->
  nth_error (y_pcs s) t = Some (NClone e r ts) -> y_heap s a = None -> y_heap s e = Some x ->
  good s (go (w_heap s (upd (y_heap s) a (Some (Ep (e_runs x) (e_head x))))) t (NStore e a r ts)).
Proof.
  intros s st g t e r ts a x I NS N HA HX. destruct (bp_some _ _ _ _ _ _ _ I N) as (bp & NB & PO & LK). cbn in LK. subst bp.
  pose proof I as [IO IC IPI IH IP IL IJ]. set (s' := go _ _ _).
  pose proof (stage_of _ _ _ _ _ I N eq_refl) as ST. cbn in ST. subst st.
  assert (HO : forall b, headof s' b = if b =? a then Some (e_head x) else headof s b).
  { intro b. unfold headof. cbn. unfold upd. destruct (b =? a); auto. }
  assert (OLD : forall b, headof s b <> None -> headof s' b = headof s b).
  { intros b B. rewrite HO. destruct (Nat.eqb_spec b a); auto. subst. unfold headof in B. rewrite HA in B. cbn in B. congruence. }
  pose proof IH as ((h & A1 & A2 & A3) & B & _ & _).
  assert (ACT : forall b, active g b -> headof s b <> None).
  { intros b [->|(q & Q)]; [congruence|]. destruct (B _ _ Q). congruence. }
  assert (NA : ~ active g a).
  { intro Q. apply (ACT a Q). unfold headof. rewrite HA. auto. }
  apply (good_same hwm cap s s' (StAlloc a) g); auto.
  eapply (wild_inv s s' StQuiet (StAlloc a) g g t _ (NStore e a r ts) Idle Idle); eauto; try (cbn; auto; fail).
  - cbn. symmetry. apply set_nth_id. auto.
  - apply (own_move s s' StQuiet (StAlloc a) t _ (NStore e a r ts) IO N); cbn; auto.
  - exact (pins_same s s' g t _ _ IPI N eq_refl eq_refl).
  - split; [|split; [|split]].
    + exists h. rewrite OLD by congruence. auto.
    + intros y q Q. destruct (B _ _ Q) as [B1 B2]. rewrite OLD by congruence. auto.
    + intros b H. cbn in H. inversion H; subst b. split; [intro; apply NA; left; auto|].
      split; [intros q Q; apply NA; right; eauto|]. rewrite HO, Nat.eqb_refl.
      destruct IC as (_ & C1 & _). cbn in PO. rewrite C1 in PO. cbn in PO. inversion PO; subst e.
      unfold headof in A1. rewrite HX in A1. cbn in A1. inversion A1. cbn. congruence.
    + intros b n p H. discriminate.
  - intros u q bq NE U UB P L. split.
    + apply (pc_others s s' StQuiet g t u (NClone e r ts) q I N eq_refl U NE); auto.
    + apply (link_others s s' StQuiet g t u (NClone e r ts) q bq I N eq_refl U NE); auto.
Qed.

(** ** The transition *)

(** Steps of the reconstruction that only move it along. *)
Lemma good_own : forall s s' st st' g t p p' bp, inv s st g -> y_stop s' = None ->
  nth_error (y_pcs s) t = Some p -> nth_error (bpcs s) t = Some bp ->
  y_pcs s' = set_nth t p' (y_pcs s) -> y_buf s' = y_buf s -> (forall e, headof s' e = headof s e) ->
  c_ep (y_prev s') = c_ep (y_prev s) -> c_ep (y_cur s') = c_ep (y_cur s) -> y_flag s' = y_flag s -> y_jobs s' = y_jobs s ->
  recon p = true -> recon p' = true -> pinned p' = pinned p ->
  pc_stage p' st' -> cells s' st' g -> heads s st' g ->
  pc_ok s' p' -> link s' p' bp -> good s s'.
Proof.
  intros s s' st st' g t p p' bp I NS N NB E EB EH E3 E2 E4 E5 RP RQ P PS C H PO LK.
  apply (good_same hwm cap s s' st' g); auto. eapply (inv_owner hwm cap s s' st st' g t p p' bp); eauto.
Qed.

Lemma store_next_good : forall s st g t e a r ts, inv s st g -> y_stop s = None ->
  nth_error (y_pcs s) t = Some (NStore e a r ts) ->
  good s (go (w_next s (Cell (Some a) 0)) t (SEnd ELoad e (ToNew r ts))).
Proof.
  intros s st g t e a r ts I NS N. destruct (bp_some _ _ _ _ _ _ _ I N) as (bp & NB & PO & LK). cbn in LK. subst bp.
  pose proof (stage_of _ _ _ _ _ I N eq_refl) as ST. cbn in ST. subst st. set (s' := go _ _ _).
  pose proof I as [IO IC IPI IH IP IL IJ].
  eapply (good_own s s' (StAlloc a) (StNext a) g t _ (SEnd ELoad e (ToNew r ts)) Idle); eauto; try (cbn; eauto; fail).
  - destruct IC as (_ & C). split; [auto|]. exact C.
  - destruct IH as (A & B & C & D). split; [exact A|]. split; [exact B|]. split; [exact C|]. discriminate.
Qed.

Lemma flush_good : forall s st g t a tl acc x, inv s st g -> y_stop s = None ->
  nth_error (y_pcs s) t = Some (RFlush a tl acc) -> y_heap s a = Some x ->
  good s (go (w_heap s (upd (y_heap s) a (Some (Ep (e_runs x ++ [acc]) (e_head x))))) t (RRel a tl)).
Proof.
  intros s st g t a tl acc x I NS N HX. destruct (bp_some _ _ _ _ _ _ _ I N) as (bp & NB & PO & LK). cbn in LK.
  pose proof (stage_of _ _ _ _ _ I N eq_refl) as ST. cbn in ST. subst st. set (s' := go _ _ _).
  pose proof I as [IO IC IPI IH IP IL IJ].
  eapply (good_own s s' (StNext a) (StFlushed a tl) g t _ (RRel a tl) bp); eauto; try (cbn; eauto; fail).
  - intro e. unfold headof. cbn. unfold upd. destruct (Nat.eqb_spec e a); auto. subst. rewrite HX. auto.
  - destruct IH as (A & B & C & D). split; [exact A|]. split; [exact B|]. split.
    + intros b H. cbn in H. inversion H; subst b. destruct (C a eq_refl) as (C1 & C2 & C3). repeat split; auto. congruence.
    + intros. discriminate.
  - cbn. destruct LK as (h & -> & _). eauto.
Qed.

Lemma dload_good : forall s st g t n, inv s st g -> y_stop s = None ->
  nth_error (y_pcs s) t = Some (@DLoad R n) ->
  good s (go s t (match c_ep (y_prev s) with Some p => DRet n p | None => DCur n end)).
Proof.
  intros s st g t n I NS N. destruct (bp_some _ _ _ _ _ _ _ I N) as (bp & NB & PO & LK). cbn in LK. subst bp.
  pose proof (stage_of _ _ _ _ _ I N eq_refl) as ST. cbn in ST. destruct ST as [a ->]. set (s' := go _ _ _).
  pose proof I as [IO IC IPI IH IP IL IJ]. destruct (c_ep (y_prev s)) as [x|] eqn:E.
  - eapply (good_own s s' (StFlushed a n) (StFlushed a n) g t _ (DRet n x) Idle); eauto; try (cbn; eauto; fail).
  - destruct IC as (C0 & C1 & C2). destruct (g_prev g) as [[y q]|] eqn:GP; [rewrite C2 in E; discriminate|].
    eapply (good_own s s' (StFlushed a n) (StRetired a n) g t _ (DCur n) Idle); eauto; try (cbn; eauto; fail).
    + split; [auto|]. auto.
    + destruct IH as (A & B & C & D). split; [exact A|]. split; [exact B|]. split; [exact C|]. intros. discriminate.
Qed.

Lemma dret_good : forall s st g t n x, inv s st g -> y_stop s = None ->
  nth_error (y_pcs s) t = Some (@DRet R n x) -> c_ref (y_prev s) = 0 -> good s (go s t (DRetCas n x (y_prev s))).
Proof.
  intros s st g t n x I NS N Z. destruct (bp_some _ _ _ _ _ _ _ I N) as (bp & NB & PO & LK).
  eapply (good_go hwm cap s st g t _ _ bp); eauto; try (cbn; auto; fail). cbn in *. split; auto.
  destruct (y_prev s); cbn in *. congruence.
Qed.

Lemma others : forall s s' st g t p, inv s st g -> nth_error (y_pcs s) t = Some p -> recon p = true ->
  (forall e, active g e -> headof s' e = headof s e) ->
  (forall e, 0 < pins s e -> c_ep (y_prev s) = Some e -> c_ep (y_prev s') = Some e) ->
  forall u q bq, u <> t -> nth_error (y_pcs s) u = Some q -> nth_error (bpcs s) u = Some bq ->
     pc_ok s q -> link s q bq -> pc_ok s' q /\ link s' q bq.
Proof.
  intros s s' st g t p I N RP H1 H2 u q bq NE U UB P L. split.
  - eapply (pc_others s s' st g t u p q); eauto.
  - eapply (link_others s s' st g t u p q bq); eauto.
Qed.

Lemma retire_good : forall s st g t n x old, inv s st g -> y_stop s = None ->
  nth_error (y_pcs s) t = Some (@DRetCas R n x old) -> y_prev s = old -> good s (go (w_prev s null) t (DDel n x)).
Proof.
  intros s st g t n x old I NS N EO. destruct (bp_some _ _ _ _ _ _ _ I N) as (bp & NB & PO & LK). cbn in LK. subst bp.
  pose proof (stage_of _ _ _ _ _ I N eq_refl) as ST. cbn in ST. destruct ST as [a ->]. set (s' := go _ _ _).
  pose proof I as [IO IC IPI IH IP IL IJ]. cbn in PO. destruct PO as [_ EO']. rewrite EO' in EO.
  destruct IC as (C0 & C1 & C2). rewrite EO in C2.
  destruct (g_prev g) as [[y q]|] eqn:GP; [|discriminate]. cbn in C2. inversion C2; subst y q. clear C2.
  destruct IPI as (P1 & P2 & P3). rewrite GP in P2. destruct P2 as [P2 P4].
  destruct IH as ((h & A1 & A2) & B & C & _). destruct (B _ _ GP) as [B1 B2].
  destruct (C a eq_refl) as (D1 & D2 & D3).
  assert (Q : forall e, pins s' e = pins s e).
  { intro e. pose proof (pins_set s _ t _ (DDel n x) e N eq_refl) as Q. cbn in Q. unfold pins in *. cbn in *. lia. }
  apply (good_same hwm cap s s' (StDel a n x) (Gh (g_act g) (g_k g) None 0)); auto.
  eapply (wild_inv s s' (StFlushed a n) (StDel a n x) g _ t _ (DDel n x) Idle Idle); eauto; try (cbn; auto; fail).
  - cbn. symmetry. apply set_nth_id. auto.
  - apply (own_move s s' (StFlushed a n) (StDel a n x) t _ (DDel n x) IO N); cbn; eauto.
  - repeat split; cbn; auto.
  - unfold pins_ok. cbn [g_act g_k g_prev g_m]. rewrite Q. split; [lia|]. split; auto. intros e E1 _. rewrite Q.
    destruct (Nat.eq_dec e x) as [->|NX]; [lia|]. apply P3; auto. intros q E. congruence.
  - split; [|split; [|split]].
    + exists h. auto.
    + cbn. discriminate.
    + intros b E. cbn in E. inversion E; subst b. split; [auto|]. split; [cbn; discriminate|auto].
    + intros b m y E. inversion E; subst. cbn. split; [auto|]. split; [intro; subst; eapply D2; eauto|].
      change (headof s' y) with (headof s y). congruence.
  - apply (others s s' (StFlushed a n) g t _ I N eq_refl); auto.
    intros e E1 E2. rewrite EO in E2. cbn in E2. inversion E2; subst. lia.
Qed.

Lemma delete_good : forall s st g t n x, inv s st g -> y_stop s = None ->
  nth_error (y_pcs s) t = Some (@DDel R n x) -> good s (go (w_heap s (upd (y_heap s) x None)) t (DCur n)).
Proof.
  intros s st g t n x I NS N. destruct (bp_some _ _ _ _ _ _ _ I N) as (bp & NB & PO & LK). cbn in LK. subst bp.
  pose proof (stage_of _ _ _ _ _ I N eq_refl) as ST. cbn in ST. destruct ST as [a ->]. set (s' := go _ _ _).
  pose proof I as [IO IC IPI IH IP IL IJ]. destruct IC as (C0 & C1 & C2 & C3).
  destruct IH as ((h & A1 & A2) & B & C & D). destruct (D _ _ _ eq_refl) as (D1 & D2 & D3).
  destruct (C a eq_refl) as (E1 & E2 & E3).
  assert (HO : forall b, b <> x -> headof s' b = headof s b).
  { intros b NE. unfold headof. cbn. unfold upd. destruct (Nat.eqb_spec b x); congruence. }
  apply (good_same hwm cap s s' (StRetired a n) g); auto.
  eapply (wild_inv s s' (StDel a n x) (StRetired a n) g _ t _ (DCur n) Idle Idle); eauto; try (cbn; auto; fail).
  - cbn. symmetry. apply set_nth_id. auto.
  - apply (own_move s s' (StDel a n x) (StRetired a n) t _ (DCur n) IO N); cbn; eauto.
  - repeat split; cbn; auto.
  - exact (pins_same s s' g t _ _ IPI N eq_refl eq_refl).
  - split; [|split; [|split]].
    + exists h. rewrite HO by auto. auto.
    + rewrite C3. discriminate.
    + intros b E. cbn in E. inversion E; subst b. split; [auto|]. split; [auto|]. rewrite HO by auto. auto.
    + discriminate.
  - apply (others s s' (StDel a n x) g t _ I N eq_refl); auto.
    intros e [->|(q & Q)]; [apply HO; auto|congruence].
Qed.

Lemma dcurcas_good : forall s st g t n c, inv s st g -> y_stop s = None ->
  nth_error (y_pcs s) t = Some (@DCurCas R n c) -> y_cur s = c -> good s (go (w_cur s null) t (DPrev n c)).
Proof.
  intros s st g t n c I NS N EC. destruct (bp_some _ _ _ _ _ _ _ I N) as (bp & NB & PO & LK). cbn in LK. subst bp.
  pose proof (stage_of _ _ _ _ _ I N eq_refl) as ST. cbn in ST. destruct ST as [a ->]. set (s' := go _ _ _).
  pose proof I as [IO IC IPI IH IP IL IJ]. destruct IC as (C0 & C1 & C2 & C3).
  apply (good_same hwm cap s s' (StHand a n c) g); auto.
  eapply (wild_inv s s' (StRetired a n) (StHand a n c) g _ t _ (DPrev n c) Idle Idle); eauto; try (cbn; auto; fail).
  - cbn. symmetry. apply set_nth_id. auto.
  - apply (own_move s s' (StRetired a n) (StHand a n c) t _ (DPrev n c) IO N); cbn; eauto.
  - repeat split; cbn; auto. congruence.
  - exact (pins_same s s' g t _ _ IPI N eq_refl eq_refl).
  - destruct IH as (A & B & C & D). split; [exact A|]. split; [exact B|]. split; [exact C|]. discriminate.
  - apply (others s s' (StRetired a n) g t _ I N eq_refl); auto.
Qed.

Lemma dprev_good : forall s st g t n c, inv s st g -> y_stop s = None ->
  nth_error (y_pcs s) t = Some (@DPrev R n c) -> good s (go (w_prev s c) t (DAdv n)).
Proof.
  intros s st g t n c I NS N. destruct (bp_some _ _ _ _ _ _ _ I N) as (bp & NB & PO & LK). cbn in LK. subst bp.
  pose proof (stage_of _ _ _ _ _ I N eq_refl) as ST. cbn in ST. destruct ST as [a ->]. set (s' := go _ _ _).
  pose proof I as [IO IC IPI IH IP IL IJ]. destruct IC as (C0 & C1 & C2 & C3 & C4).
  destruct IH as ((h & A1 & A2 & A3) & B & C & D).
  apply (good_same hwm cap s s' (StMoved a n) g); auto.
  eapply (wild_inv s s' (StHand a n c) (StMoved a n) g _ t _ (DAdv n) Idle Idle); eauto; try (cbn; auto; fail).
  - cbn. symmetry. apply set_nth_id. auto.
  - apply (own_move s s' (StHand a n c) (StMoved a n) t _ (DAdv n) IO N); cbn; eauto.
  - repeat split; cbn; auto.
  - exact (pins_same s s' g t _ _ IPI N eq_refl eq_refl).
  - split; [|split; [exact B|split]].
    + exists h. split; [exact A1|]. cbn. rewrite A2. auto.
    + intros b E. cbn in E. inversion E; subst b. destruct (C a eq_refl) as (E1 & E2 & E3). split; [auto|]. split; [auto|].
      cbn. rewrite A2. exact E3.
    + discriminate.
  - apply (others s s' (StHand a n c) g t _ I N eq_refl); auto.
    intros e _ E. rewrite C2 in E. discriminate.
Qed.

(** Who seeks a head while a reconstruction moves the buffer's. *)
Lemma seek_act : forall s g t n a, inv s (StMoved a n) g -> nth_error (y_pcs s) t = Some (@DAdv R n) ->
  forall bp h, In bp (bpcs s) -> seeks bp = Some h -> h = hd s.
Proof.
  intros s g t n a I N bp h IN SK. pose proof I as [IO IC IPI IH IP IL IJ].
  destruct (bp_some _ _ _ _ _ _ _ I N) as (bp0 & NB & PO & LK). cbn in PO.
  apply In_nth_error in IN as [u UB].
  destruct (nth_error (y_pcs s) u) as [q|] eqn:U.
  2: { apply nth_error_None in U. assert (u < length (bpcs s)) by (apply nth_error_Some; congruence). lia. }
  destruct (IP _ _ _ U UB) as [P L].
  assert (X : (exists k e seen pre, q = JHold k e seen pre) \/ exists e, q = RHold e).
  { destruct q; cbn in L; eauto 10; try (subst bp; discriminate); try (destruct L; subst bp; discriminate);
      try (destruct L as (? & ? & ->); discriminate); try (destruct L as (? & -> & _); discriminate);
      try (destruct bp; discriminate).
    - destruct f; try (destruct L as (? & ? & ->); discriminate); subst bp; discriminate.
    - destruct k; try (destruct L; subst bp; discriminate); subst bp; discriminate. }
  destruct X as [(k & e & seen & pre & ->)|(e & ->)].
  - cbn in L. destruct L as (h' & [S'| ->] & H); [|discriminate]. rewrite SK in S'. inversion S'; subst h'.
    destruct IH as ((h' & A1 & A2) & _). rewrite PO in A2.
    destruct (pinned_active _ _ _ _ _ IPI U eq_refl) as (_ & [->|(q & Q & _)]); [congruence|].
    destruct IC as (_ & _ & _ & C). congruence.
  - assert (NE : u <> t) by congruence.
    pose proof (recon_other _ _ _ _ _ _ IO N eq_refl U NE). discriminate.
Qed.

Lemma dadv_good : forall s st g t n a x b, inv s st g -> y_stop s = None ->
  nth_error (y_pcs s) t = Some (@DAdv R n) -> c_ep (y_next s) = Some a -> y_heap s a = Some x ->
  cexec (y_buf s) (Advance n) = Some b ->
  good s (go (w_heap (w_buf s b) (upd (y_heap s) a (Some (Ep (e_runs x) n)))) t (DAdvW n)).
Proof.
  intros s st g t n a x b I NS N EA HX E. destruct (bp_some _ _ _ _ _ _ _ I N) as (bp & NB & PO & LK). cbn in LK. subst bp.
  pose proof (stage_of _ _ _ _ _ I N eq_refl) as ST. cbn in ST. destruct ST as [a' ->]. set (s' := go _ _ _).
  pose proof (seek_act s g t n a' I N) as SK.
  pose proof I as [IO IC IPI IH IP IL IJ]. destruct IC as (C0 & C1 & C2 & C3). rewrite C0 in EA. cbn in EA. inversion EA; subst a'. clear EA.
  destruct IH as ((h & A1 & A2) & B & C & D). cbn in PO. rewrite PO in A2.
  destruct (C a eq_refl) as (D1 & D2 & D3). rewrite PO in D3.
  assert (J := j_step _ _ _ _ _ IJ E).
  pose proof E as E'. cbn in E'. rewrite PO in E'. inversion E' as [E2]. clear E'.
  assert (HO : forall c, c <> a -> headof s' c = headof s c).
  { intros c NE. unfold headof. cbn. unfold upd. destruct (Nat.eqb_spec c a); congruence. }
  split; [left; split; [|auto]|right; exists (Advance n); split; [|split; [exact E|]]].
  2: { intros p h' P1 P2. eapply SK; eauto. }
  2: { intros m M. inversion M; subst m. eapply nth_error_In; eauto. }
  exists (StMoved a n), g.
  eapply (wild_inv s s' (StMoved a n) (StMoved a n) g _ t _ (DAdvW n) Idle Idle); eauto; try (cbn; subst b; cbn; auto; fail).
  - cbn. subst b. symmetry. apply set_nth_id. auto.
  - apply (own_move s s' (StMoved a n) (StMoved a n) t _ (DAdvW n) IO N); cbn; eauto.
  - repeat split; cbn; auto.
  - exact (pins_same s s' g t _ _ IPI N eq_refl eq_refl).
  - split; [|split; [|split]].
    + exists h. rewrite HO by auto. split; [auto|]. cbn. subst b. cbn. auto.
    + intros y q Q. congruence.
    + intros c Ec. cbn in Ec. inversion Ec; subst c. split; [auto|]. split; [auto|]. cbn. subst b. cbn.
      unfold headof, upd. cbn. unfold upd. rewrite Nat.eqb_refl. auto.
    + discriminate.
  - apply (others s s' (StMoved a n) g t _ I N eq_refl); auto.
    intros e [->|(q & Q)]; [apply HO; auto|congruence].
  - cbn. subst b. cbn. discriminate.
Qed.

(** One step of advance_head. *)
Lemma dadvw_good : forall s st g t n s', inv s st g -> y_stop s = None ->
  nth_error (y_pcs s) t = Some (@DAdvW R n) -> run s t (DAdvW n) = Some s' -> good s s'.
Proof.
  intros s st g t n s' I NS N E. destruct (bp_some _ _ _ _ _ _ _ I N) as (bp & NB & PO & LK). cbn in LK. subst bp.
  pose proof (stage_of _ _ _ _ _ I N eq_refl) as ST. cbn in ST. destruct ST as [a ->].
  pose proof I as [IO IC IPI IH IP IL IJ]. cbn [SysModel.run] in E.
  destruct (cexec (y_buf s) AdvStep) as [b|] eqn:X; [|discriminate].
  assert (J := j_step _ _ _ _ _ IJ X).
  cbn in X. destruct (vexec (cs_buf (y_buf s)) (adv s)) as [[b' v']|] eqn:V; [|discriminate]. inversion X as [X2]. clear X.
  assert (PROJ : forall z, y_buf z = b -> proj hwm cap s z).
  { intros z Z. right. exists AdvStep. split; [exact Logic.I|]. split; [cbn; rewrite V; congruence|discriminate]. }
  destruct IH as ((h & A1 & A2) & B & C & D). destruct (C a eq_refl) as (D1 & D2 & D3).
  pose proof (j_adv _ _ _ IJ) as AJ. destruct IC as (C0 & C1 & C2 & C3).
  assert (VI : adv s <> VIdle) by exact PO.
  assert (KEEP : forall p' st' s1, s1 = go (w_buf s b) t p' -> recon p' = true -> pinned p' = None -> pc_stage p' st' ->
            cells s1 st' g -> heads s1 st' g -> pc_ok s1 p' -> link s1 p' Idle -> good s s1).
  { intros p' st' s1 E1 Q1 Q2 Q3 Q4 Q5 Q6 Q7. split; [left; split; [|subst; auto]|apply PROJ; subst; auto].
    exists st', g. eapply (wild_inv s s1 (StMoved a n) st' g g t _ p' Idle Idle); eauto; try (subst; cbn; auto; fail).
    - subst. cbn. symmetry. apply set_nth_id. auto.
    - apply (own_move s s1 (StMoved a n) st' t _ p' IO N); subst; cbn; eauto.
    - apply (pins_same s s1 g t _ p' IPI N); subst; auto.
    - apply (others s s1 (StMoved a n) g t _ I N eq_refl); subst; auto. }
  assert (SAME : w_buf s b = go (w_buf s b) t (DAdvW n)).
  { unfold go, w_buf. cbn. rewrite set_nth_id; auto. }
  assert (MV : forall s1, s1 = w_buf s b -> v' <> VIdle -> v' <> VCrash ->
            (exists h, headof s (g_act g) = Some h /\ match v' with
              | VHead n' | VTail n' | VRef n' | VLoad n' | VCas n' _ => n' = n /\ hidx (cb_head b') = h
              | VOld n' cur => n' = n /\ hidx cur = h /\ hidx (cb_head b') = n /\ h < n /\ headof s a = Some n
              | _ => False end) -> headof s a = Some n -> good s s1).
  { intros s1 E1 N1 N2 (h1 & H1 & H2) H3. rewrite SAME in E1. eapply (KEEP (DAdvW n) (StMoved a n) s1 E1); subst; cbn; eauto.
    - repeat split; auto.
    - split; [|split; [|split]].
      + exists h1. split; [exact H1|]. cbn. destruct v'; cbn; auto; congruence.
      + intros y q Q. congruence.
      + intros c Ec. cbn in Ec. inversion Ec; subst c. split; [auto|]. split; [auto|]. cbn.
        destruct v'; try congruence; exact H3.
      + discriminate. }
  subst b. cbn [cs_adv] in E.
  destruct (adv s) eqn:AD; cbn [vexec] in V; try discriminate; cbn in A2, D3, AJ.
  - destruct A2 as [-> A2]. destruct (hidx _ <? n) eqn:F; inversion V; subst b' v'; inversion E; subst s'.
    + apply MV; auto; try discriminate. eauto.
    + split; [right; auto|apply PROJ; auto].
  - destruct A2 as [-> A2]. destruct (n <=? _) eqn:F; inversion V; subst b' v'; inversion E; subst s'.
    + apply MV; auto; try discriminate. eauto.
    + split; [right; auto|apply PROJ; auto].
  - destruct A2 as [-> A2]. destruct (0 <? _) eqn:F; inversion V; subst b' v'; inversion E; subst s'.
    + eapply (KEEP (DAdv n) (StMoved a n)); cbn; eauto.
      * repeat split; auto.
      * split; [|split; [|split]].
        -- exists h. split; [exact A1|]. cbn. auto.
        -- intros y q Q. congruence.
        -- intros c Ec. cbn in Ec. inversion Ec; subst c. split; [auto|]. split; [auto|]. cbn.
           change (headof s a <> None). congruence.
        -- discriminate.
    + apply MV; auto; try discriminate. eauto.
  - destruct A2 as [-> A2]. inversion V; subst b' v'; inversion E; subst s'. apply MV; auto; try discriminate. eauto.
  - destruct A2 as [-> A2]. destruct (head_eqb _ cur) eqn:F; inversion V; subst b' v'; inversion E; subst s'.
    + apply MV; auto; try discriminate. apply head_eqb_eq in F. exists h. split; auto. cbn. subst cur.
      repeat split; auto. lia.
    + apply MV; auto; try discriminate. eauto.
  - destruct A2 as (-> & A2 & A3 & A4 & A5). inversion V; subst b' v'; inversion E; subst s'.
    eapply (KEEP DPub (StSwung a)); cbn; eauto.
    + repeat split; auto.
    + split; [|split; [|split]].
      * exists h. split; [exact A1|]. cbn. rewrite A3. repeat split; auto.
      * intros y q Q. congruence.
      * intros c Ec. cbn in Ec. inversion Ec; subst c. split; [auto|]. split; [auto|].
        change (headof s a <> None). congruence.
      * discriminate.
Qed.

Lemma publish_good : forall s st g t x, inv s st g -> y_stop s = None ->
  nth_error (y_pcs s) t = Some (@DPubSt R x) -> good s (go (w_cur s x) t DNext).
Proof.
  intros s st g t x I NS N. destruct (bp_some _ _ _ _ _ _ _ I N) as (bp & NB & PO & LK). cbn in LK. subst bp.
  pose proof (stage_of _ _ _ _ _ I N eq_refl) as ST. cbn in ST. destruct ST as (a & -> & ->). set (s' := go _ _ _).
  pose proof I as [IO IC IPI IH IP IL IJ]. destruct IC as (C0 & C1 & C2 & C3).
  destruct IH as ((h & A1 & A2 & A3 & A4 & A5) & B & C & D). destruct (C a eq_refl) as (D1 & D2 & _).
  destruct IPI as (P1 & P2 & P3). rewrite C3 in P2.
  assert (Q : forall e, pins s' e = pins s e).
  { intro e. pose proof (pins_set s _ t _ (@DNext R) e N eq_refl) as Q. cbn in Q. unfold pins in *. cbn in *. lia. }
  apply (good_same hwm cap s s' (StPub a) (Gh a 0 (Some (g_act g, g_k g)) 0)); auto.
  eapply (wild_inv s s' (StSwung a) (StPub a) g _ t _ DNext Idle Idle); eauto; try (cbn; auto; fail).
  - cbn. symmetry. apply set_nth_id. auto.
  - apply (own_move s s' (StSwung a) (StPub a) t _ DNext IO N); cbn; eauto.
  - repeat split; cbn; auto.
  - unfold pins_ok. cbn [g_act g_k g_prev g_m]. rewrite !Q. rewrite (P3 a) by (auto; intros; congruence).
    split; [auto|]. split; [split; [lia|auto]|]. intros e E1 E2. rewrite Q. apply P3; [|congruence].
    intro; subst. eapply E2; eauto.
  - split; [|split; [|split]].
    + exists (hd s). auto.
    + cbn. intros y q E. inversion E; subst. change (headof s (g_act g) = Some (od s) /\ od s < hd s). split; [congruence|lia].
    + discriminate.
    + discriminate.
  - apply (others s s' (StSwung a) g t _ I N eq_refl); auto.
Qed.

Lemma dnext_good : forall s st g t, inv s st g -> y_stop s = None ->
  nth_error (y_pcs s) t = Some (@DNext R) -> good s (go (w_next s null) t DNotify).
Proof.
  intros s st g t I NS N. destruct (bp_some _ _ _ _ _ _ _ I N) as (bp & NB & PO & LK). cbn in LK. subst bp.
  pose proof (stage_of _ _ _ _ _ I N eq_refl) as ST. cbn in ST. destruct ST as (a & ->). set (s' := go _ _ _).
  pose proof I as [IO IC IPI IH IP IL IJ]. destruct IC as (C0 & C1 & C2 & C3).
  eapply (good_own s s' (StPub a) StQuiet g t _ DNotify Idle); eauto; try (cbn; eauto; fail).
  - split; cbn; auto.
  - destruct IH as (A & B & C & D). split; [exact A|]. split; [exact B|]. split; discriminate.
Qed.

(** notify_all *)
Lemma wake_facts : forall p, recon (wake p) = recon p /\ pinned (wake p) = pinned p.
Proof. intros []; auto. Qed.

Lemma countb_map : forall {A} (f g : A -> bool) (h : A -> A) l, (forall x, f (h x) = g x) -> countb f (map h l) = countb g l.
Proof. induction l; intros; cbn; auto. rewrite H, IHl; auto. Qed.

Lemma wake_inv : forall s st g, inv s st g -> inv (w_pcs s (map wake (y_pcs s))) st g.
Proof.
  intros s st g I. pose proof I as [IO IC IPI IH IP IL IJ]. set (s' := w_pcs _ _).
  assert (PI : forall e, pins s' e = pins s e).
  { intro e. unfold pins. cbn. apply countb_map. intro p. unfold pin_eqb. rewrite (proj2 (wake_facts p)). auto. }
  constructor; auto.
  - unfold owner in *. cbn. rewrite (countb_map recon recon wake) by (intro p; apply wake_facts).
    destruct IO as [H|[H|(H1 & H2 & H3 & H4)]]; auto. right. right. repeat split; auto.
    intros p P1 P2. apply in_map_iff in P1 as (q & <- & Q). rewrite (proj1 (wake_facts q)) in P2.
    specialize (H4 _ Q P2). destruct q; auto.
  - unfold pins_ok. rewrite !PI. destruct IPI as (P1 & P2 & P3). split; auto. split.
    + destruct (g_prev g) as [[p q]|]; auto. rewrite PI. auto.
    + intros. rewrite PI. auto.
  - intros t p bp T TB. cbn in T. rewrite nth_error_map in T. destruct (nth_error (y_pcs s) t) as [q|] eqn:Q; [|discriminate].
    cbn in T. inversion T; subst p. destruct (IP _ _ _ Q TB) as [P L]. destruct q; auto.
  - cbn. rewrite map_length. auto.
Qed.

Lemma notify_good : forall s st g t, inv s st g -> y_stop s = None ->
  nth_error (y_pcs s) t = Some (@DNotify R) -> good s (w_pcs s (map wake (set_nth t DFlag (y_pcs s)))).
Proof.
  intros s st g t I NS N. destruct (bp_some _ _ _ _ _ _ _ I N) as (bp & NB & PO & LK). cbn in LK. subst bp.
  pose proof (stage_of _ _ _ _ _ I N eq_refl) as ST. cbn in ST. subst st.
  apply (good_same hwm cap s _ StQuiet g); auto.
  change (inv (w_pcs (go s t DFlag) (map wake (y_pcs (go s t DFlag)))) StQuiet g). apply wake_inv.
  eapply (inv_same hwm cap s _ StQuiet g t _ DFlag Idle); eauto; cbn; auto.
Qed.

(** ** Every action *)

Lemma step_good : forall s st g t p s', inv s st g -> y_stop s = None ->
  nth_error (y_pcs s) t = Some p -> run s t p = Some s' -> good s s'.
Proof.
  intros s st g t p s' I NS N E. pose proof (pinned_alive hwm cap s st g t p) as AL. specialize (fun e => AL e I N).
  pose proof (bp_some hwm cap s st g t p I N) as (bp & NB & PO & LK).
  assert (ST : recon p = true -> pc_stage p st) by (eapply stage_of; eauto).
  assert (GO : forall p', recon p' = recon p -> (pc_stage p st -> pc_stage p' st) -> pinned p' = pinned p ->
    pc_ok s p' -> link s p' bp -> good s (go s t p')) by (intros; eapply good_go; eauto).
  destruct p; cbn [SysModel.run] in E; try discriminate.
  - inversion E; subst. eapply get_good; eauto.
  - inversion E; subst. eapply end_good; eauto.
  - destruct (AL e eq_refl) as [x X]. unfold deref in E. rewrite X in E. inversion E; subst. apply GO; cbn; auto.
  - destruct (AL e eq_refl) as [x X]. rewrite X in E. eapply bcall_good; eauto; cbn; auto.
    + eapply (view_ok hwm cap s st g t _ e); eauto; auto. unfold headof. rewrite X. auto.
    + intros b b' B1 B2. rewrite NB in B1. inversion B1; subst b. cbn in LK. subst bp. cbn in B2. inversion B2; subst.
      exists (e_head x). split; [left; auto|]. unfold headof. rewrite X. auto.
  - eapply bstep_good; eauto. intros b b' c B1 B2 B3 B4. cbn in B3. destruct B3 as (h & B3 & H).
    destruct (seek_step hwm cap _ _ _ _ _ B2 B3) as [Q|[-> _]].
    + assert (X : on_hold (fun h tl => JRead k e seen pre h tl []) b' = None).
      { destruct Q as [Q| ->]; auto. destruct b'; try discriminate; auto. }
      rewrite X. cbn. eauto.
    + cbn. auto 10.
  - destruct k.
    + destruct (h + length acc <? tl); inversion E; subst; apply GO; cbn; auto.
    + inversion E; subst; apply GO; cbn; auto.
    + destruct (h + length acc <? tl); inversion E; subst; [apply GO; cbn; auto|].
      eapply good_ans; eauto; cbn; auto. destruct LK. eauto.
    + inversion E; subst; cbn in PO. contradiction.
  - destruct (AL e eq_refl) as [x X]. unfold deref in E. rewrite X in E. inversion E; subst; clear E.
    destruct k; cbn in LK.
    + destruct LK as [-> LK]. eapply good_ans; eauto; cbn; eauto.
    + destruct LK as [-> LK]. eapply good_ans; eauto; cbn; eauto.
    + destruct LK as [-> LK]. eapply good_ans; eauto; cbn; eauto.
    + apply GO; cbn; auto.
  - cbn in LK. destruct LK as (h & tl & ->). eapply bcall_good; eauto; cbn; auto.
    intros b b' B1 B2. rewrite NB in B1. inversion B1; subst b. cbn in B2. inversion B2; auto.
  - eapply bstep_good; eauto. intros b b' c B1 B2 B3 B4. cbn in B3. destruct (rel_step hwm cap _ _ _ _ B2 B3) as [Q| ->].
    + destruct b'; try discriminate; cbn; auto.
    + cbn. auto.
  - cbn in LK. destruct LK as (h & tl & ->). eapply bcall_good; eauto; cbn; auto.
    intros b b' B1 B2. rewrite NB in B1. inversion B1; subst b. cbn in B2. inversion B2; auto.
  - eapply bstep_good; eauto. intros b b' c B1 B2 B3 B4. cbn in B3. destruct (rel_step hwm cap _ _ _ _ B2 B3) as [Q| ->].
    + destruct b'; try discriminate; cbn; auto.
    + cbn. auto 10.
  - inversion E; subst; apply GO; cbn; auto.
  - inversion E; subst; apply GO; destruct (_ || _); cbn; auto.
  - inversion E; subst; apply GO; destruct (_ || _); cbn; auto.
  - destruct (y_flag s) eqn:F; inversion E; subst; [apply GO; cbn; auto|]. eapply flag_good; eauto.
  - cbn in LK. subst bp. eapply bcall_good; eauto; cbn; auto.
    intros b b' B1 B2. rewrite NB in B1. inversion B1; subst b. cbn in B2. inversion B2; auto.
  - eapply bstep_good; eauto. intros b b' c B1 B2 B3 B4. cbn in B3. destruct (app_step hwm cap _ _ _ _ B2 B3) as [Q| ->].
    + destruct b'; try discriminate; cbn; auto.
    + cbn. auto 10.
  - destruct (c_ep (y_next s)); inversion E; subst; [apply halt_good|apply GO; cbn; auto].
  - inversion E; subst. eapply store_next_good; eauto.
  - specialize (ST eq_refl). cbn in ST. destruct ST as [a ->]. pose proof (i_cells _ _ _ _ _ I) as [C _]. rewrite C in E. cbn in E.
    inversion E; subst. apply GO; cbn; auto.
  - specialize (ST eq_refl). cbn in ST. subst st. pose proof (i_heads _ _ _ _ _ I) as (_ & _ & C & _).
    destruct (C a eq_refl) as (_ & _ & H). unfold headof in H. unfold deref in E.
    destruct (y_heap s a) as [x|]; [|discriminate]. inversion E; subst. eapply submit_good; eauto.
  - specialize (ST eq_refl). cbn in ST. subst st. pose proof (i_heads _ _ _ _ _ I) as (_ & _ & C & _).
    destruct (C a eq_refl) as (_ & _ & H). unfold headof in H.
    destruct (y_heap s a) as [x|] eqn:X; [|discriminate].
    assert (HX : headof s a = Some (e_head x)) by (unfold headof; rewrite X; auto).
    eapply bcall_good; eauto; cbn; auto.
    + eapply (view_next hwm cap s _ g a); eauto.
    + intros b b' B1 B2. rewrite NB in B1. inversion B1; subst b. cbn in LK. subst bp. cbn in B2. inversion B2; subst.
      exists (e_head x). split; [left; auto|]. auto.
  - eapply bstep_good; eauto. intros b b' c B1 B2 B3 B4. cbn in B3. destruct B3 as (h & B3 & H).
    destruct (seek_step hwm cap _ _ _ _ _ B2 B3) as [Q|[-> _]].
    + assert (X : on_hold (fun h tl => RRead a h tl []) b' = None).
      { destruct Q as [Q| ->]; auto. destruct b'; try discriminate; auto. }
      rewrite X. cbn. eauto.
    + cbn. auto 10.
  - destruct (h + length acc <? tl); inversion E; subst; apply GO; cbn; auto. destruct LK. eauto.
  - specialize (ST eq_refl). cbn in ST. subst st. pose proof (i_heads _ _ _ _ _ I) as (_ & _ & C & _).
    destruct (C a eq_refl) as (_ & _ & H). unfold headof in H. unfold deref in E.
    destruct (y_heap s a) as [x|] eqn:X; [|discriminate]. inversion E; subst. eapply flush_good; eauto.
  - cbn in LK. destruct LK as (h & tl' & ->). eapply bcall_good; eauto; cbn; auto.
    intros b b' B1 B2. rewrite NB in B1. inversion B1; subst b. cbn in B2. inversion B2; auto.
  - eapply bstep_good; eauto. intros b b' c B1 B2 B3 B4. cbn in B3. destruct (rel_step hwm cap _ _ _ _ B2 B3) as [Q| ->].
    + destruct b'; try discriminate; cbn; auto.
    + cbn. repeat split; auto. intros ->. eauto.
  - inversion E; subst. eapply dload_good; eauto.
  - inversion E; subst. cbn in PO. rewrite PO. cbn. rewrite Nat.eqb_refl. destruct (Nat.eqb_spec (c_ref (y_prev s)) 0); cbn.
    + eapply dret_good; eauto.
    + apply (good_same hwm cap s s st g); auto.
  - destruct (cell_eqb (y_prev s) old) eqn:F; inversion E; subst.
    + eapply retire_good; eauto. apply cell_eqb_eq. auto.
    + apply GO; cbn; auto. apply PO.
  - specialize (ST eq_refl). cbn in ST. destruct ST as [a ->]. pose proof (i_heads _ _ _ _ _ I) as (_ & _ & _ & D).
    destruct (D _ _ _ eq_refl) as (_ & _ & H). unfold headof in H. unfold deref in E.
    destruct (y_heap s p) as [x|] eqn:X; [|cbn in H; congruence]. inversion E; subst. eapply delete_good; eauto.
  - inversion E; subst; apply GO; cbn; auto.
  - destruct (cell_eqb (y_cur s) c) eqn:F; inversion E; subst.
    + eapply dcurcas_good; eauto. apply cell_eqb_eq. auto.
    + apply GO; cbn; auto.
  - inversion E; subst. eapply dprev_good; eauto.
  - specialize (ST eq_refl). cbn in ST. destruct ST as [a ->]. pose proof (i_heads _ _ _ _ _ I) as (_ & _ & C & _).
    pose proof (i_cells _ _ _ _ _ I) as [C0 _]. rewrite C0 in E. cbn [c_ep st_next] in E. cbn in PO.
    destruct (C a eq_refl) as (_ & _ & H). rewrite PO in H. unfold headof in H.
    destruct (y_heap s a) as [x|] eqn:X; [|cbn in H; congruence].
    destruct (BufConcModel.cexec hwm cap (y_buf s) (Advance n)) as [b|] eqn:B; [|discriminate E]. inversion E; subst.
    eapply dadv_good; eauto. rewrite C0. auto.
  - eapply dadvw_good; eauto.
  - inversion E; subst; apply GO; cbn; auto. intros [a ->]. exists a. split; auto.
    pose proof (i_cells _ _ _ _ _ I) as [C0 _]. rewrite C0. auto.
  - inversion E; subst. eapply publish_good; eauto.
  - inversion E; subst. eapply dnext_good; eauto.
  - inversion E; subst. eapply notify_good; eauto.
  - inversion E; subst. eapply finish_good; eauto.
  - inversion E; subst; apply GO; destruct (c_ep (y_next s)); cbn; auto.
  - inversion E; subst; apply GO; cbn; auto.
    Unshelve. all: exact 0.
Qed.

Lemma exec_good : forall s st g x s', inv s st g -> sexec s x = Some s' -> good s s'.
Proof.
  intros s st g x s' I E. unfold SysModel.sexec in E. destruct (y_stop s) eqn:NS; [discriminate|]. destruct x as [t c|t|t a|t].
  - destruct (nth_error (y_pcs s) t) as [[]|] eqn:N; try discriminate.
    destruct (bp_some hwm cap s st g t _ I N) as (bp & NB & PO & LK). destruct c; [| | |destruct (y_jobs s) eqn:J; [discriminate|]];
      inversion E; subst; try (eapply good_go; eauto; cbn; auto; fail). eapply start_good; eauto.
  - destruct (nth_error (y_pcs s) t) as [p|] eqn:N; [|discriminate]. eapply step_good; eauto.
  - destruct (nth_error (y_pcs s) t) as [[]|] eqn:N; try discriminate.
    destruct (y_heap s a) eqn:A; [discriminate|].
    destruct (pinned_alive hwm cap s st g t _ e I N eq_refl) as [x X]. unfold deref in E. rewrite X in E. inversion E; subst.
    eapply clone_good; eauto.
  - destruct (nth_error (y_pcs s) t) as [[]|] eqn:N; try discriminate; inversion E; subst;
    destruct (bp_some hwm cap s st g t _ I N) as (bp & NB & PO & LK); eapply good_go; eauto; cbn; auto.
Qed.

Lemma init_inv : forall n, inv (sys_init hwm cap n) StQuiet (Gh 0 0 None 0).
Proof.
  intro n. assert (Z : forall f, f SIdle = false -> countb f (repeat (@SIdle R) n) = 0).
  { intros f F. induction n; cbn; auto. rewrite F. auto. }
  constructor.
  - left. cbn. auto.
  - split; [reflexivity|]. split; reflexivity.
  - unfold pins_ok, pins. cbn. rewrite Z by auto. repeat split; auto.
  - split; [exists 0; cbn; auto|]. split; [discriminate|]. split; discriminate.
  - intros t p bp T TB. cbn in T, TB. apply nth_error_In in T. apply nth_error_In in TB.
    apply repeat_spec in T. apply repeat_spec in TB. subst. cbn. auto.
  - cbn. rewrite !repeat_length. auto.
  - apply j_init.
Qed.

Lemma sreach_mono : forall (ok ok' : sys R -> sact R -> Prop) s s', (forall s x, ok s x -> ok' s x) ->
  sreach lwm hwm cap ok s s' -> sreach lwm hwm cap ok' s s'.
Proof. intros ok ok' s s' H C. induction C; [constructor|econstructor; eauto]. Qed.

(** Until an assertion fails, the invariant holds; the buffer is used as BufConcModel.v
    supposes. *)
Lemma sys_reach : forall ok n s, sreach lwm hwm cap ok (sys_init hwm cap n) s ->
  ((exists st g, inv s st g) /\ y_stop s = None \/ y_stop s = Some AssertFailed) /\
  creach hwm cap epochs_ok (cs_init hwm cap n) (y_buf s).
Proof.
  intros ok n s C. remember (sys_init hwm cap n) as s0. induction C; subst.
  - split; [|constructor]. left. split; auto. exists StQuiet, (Gh 0 0 None 0). apply init_inv.
  - destruct (IHC eq_refl) as [[[(st & g & I) NS]|A] CR].
    + destruct (exec_good _ _ _ _ _ I H0) as [G P]. split; [exact G|]. destruct P as [P|(a & P1 & P2 & _)].
      * rewrite P. auto.
      * econstructor; eauto.
    + unfold SysModel.sexec in H0. rewrite A in H0. discriminate.
Qed.

End SM.

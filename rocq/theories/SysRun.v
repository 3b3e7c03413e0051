(** Every action keeps the invariant: jobs, inserts, reconstructions. *)
From Coq Require Import List Arith ZArith NArith Lia Bool.
From Verif Require Import Base ListLemmas RecordModel BufferModel BufConcModel BufConcProofs BufConcData SysModel SysInv SysSteps.
Import ListNotations.

Section SR.
Context {R : Type} {RO : RecOps R}.
Variables lwm hwm cap : nat.
Notation exec := (exec hwm cap).
Notation cexec := (cexec hwm cap).
Notation sexec := (sexec lwm hwm cap).
Notation inv := (inv hwm cap).
Notation jinv := (jinv hwm cap).
Notation good := (good hwm cap).
Notation hd s := (hidx (cb_head (cs_buf (y_buf s)))).
Notation od s := (hidx (cb_old (cs_buf (y_buf s)))).
Notation adv s := (cs_adv (y_buf s)).
Notation bpcs s := (cs_pcs (y_buf s)).
Implicit Types (s : sys R) (p : spc R) (bp : pc R).

Lemma bp_some : forall s st g t p, inv s st g -> nth_error (y_pcs s) t = Some p ->
  exists bp, nth_error (bpcs s) t = Some bp /\ pc_ok s p /\ link s p bp.
Proof.
  intros s st g t p I N. destruct I as [_ _ _ _ IP IL _].
  destruct (nth_error (bpcs s) t) as [bp|] eqn:NB; [exists bp; destruct (IP _ _ _ N NB); auto|].
  apply nth_error_None in NB. assert (t < length (y_pcs s)) by (apply nth_error_Some; congruence). lia.
Qed.

Lemma good_go : forall s st g t p p' bp, inv s st g -> y_stop s = None ->
  nth_error (y_pcs s) t = Some p -> nth_error (bpcs s) t = Some bp ->
  recon p' = recon p -> (pc_stage p st -> pc_stage p' st) -> pinned p' = pinned p ->
  pc_ok s p' -> link s p' bp -> good s (go s t p').
Proof.
  intros s st g t p p' bp I NS N NB RC PS P PO LK.
  apply (good_same hwm cap s _ st g); auto. eapply (inv_same hwm cap s _ st g t p p' bp); eauto.
Qed.

Lemma good_ans : forall s st g t p p' bp x, inv s st g -> y_stop s = None ->
  nth_error (y_pcs s) t = Some p -> nth_error (bpcs s) t = Some bp ->
  recon p' = recon p -> (pc_stage p st -> pc_stage p' st) -> pinned p' = pinned p ->
  pc_ok s p' -> link s p' bp -> good s (go (w_ans s x) t p').
Proof.
  intros s st g t p p' bp x I NS N NB RC PS P PO LK.
  apply (good_same hwm cap s _ st g); auto. eapply (inv_same hwm cap s _ st g t p p' bp); eauto.
Qed.

Lemma halt_good : forall s, good s (halt s AssertFailed).
Proof. intros. split; [right; auto|left; auto]. Qed.

(** ** get_active_epoch and end_job *)

Lemma get_good : forall s st g t q w, inv s st g -> y_stop s = None ->
  nth_error (y_pcs s) t = Some (SGet q w) -> good s (get_step s t q w).
Proof.
  intros s st g t q w I NS N. destruct (bp_some _ _ _ _ _ I N) as (bp & NB & PO & LK). cbn in LK. subst bp.
  assert (GO : forall q', pc_ok s (SGet q' w) -> good s (go s t (SGet q' w))).
  { intros q' PO'. eapply good_go; eauto; destruct w; cbn; auto. }
  assert (NWC : forall r ts, w = ForNew r ts -> exists e, c_ep (y_cur s) = Some e).
  { intros r ts ->. destruct (recon_one _ _ _ _ (i_own _ _ _ _ _ I) N eq_refl) as (_ & _ & _ & ST). cbn in ST. subst st.
    destruct (i_cells _ _ _ _ _ I) as (_ & C & _). rewrite C. cbn. eauto. }
  destruct q; cbn [get_step].
  - apply GO. destruct (c_ep (y_cur s)) eqn:E; cbn; auto. destruct w; auto. destruct (NWC r ts eq_refl) as [e X]. discriminate.
  - cbn in PO. apply GO. destruct (c_ep (y_prev s)) eqn:E; cbn; auto. destruct w; [congruence|auto].
  - cbn in PO. assert (NW : forall r ts, w <> ForNew r ts) by (intros r ts ->; auto).
    assert (PO' : c_ep old <> None) by (destruct w; [auto|contradiction]).
    destruct (cell_eqb (y_prev s) old) eqn:E; [|apply GO; cbn; auto]. apply cell_eqb_eq in E.
    destruct (c_ep old) as [e|] eqn:EO; [|congruence].
    eapply (acquire_prev hwm cap s st g t w (GPrevCas old) e (c_ref old)); eauto. rewrite E. destruct old; cbn in *. congruence.
  - apply GO. destruct (c_ep (y_cur s)) eqn:E; cbn; auto. congruence.
  - destruct (cell_eqb (y_cur s) old) eqn:E; [|apply GO; cbn; auto]. apply cell_eqb_eq in E.
    cbn in PO. destruct (c_ep old) as [e|] eqn:EO; [|congruence].
    eapply (acquire_cur hwm cap s st g t w (GCurrCas old) e (c_ref old)); eauto. rewrite E. destruct old; cbn in *. congruence.
Qed.

Lemma end_good : forall s st g t j e f, inv s st g -> y_stop s = None ->
  nth_error (y_pcs s) t = Some (SEnd j e f) -> good s (end_step s t j e f).
Proof.
  intros s st g t j e f I NS N. destruct (bp_some _ _ _ _ _ I N) as (bp & NB & PO & LK).
  assert (GO : forall j', pc_ok s (SEnd j' e f) -> good s (go s t (SEnd j' e f))).
  { intros j' PO'. eapply good_go; eauto; destruct f; auto. }
  destruct j; cbn [end_step].
  - apply GO. destruct (ep_eqb (c_ep (y_prev s)) (Some e)) eqn:E; cbn; auto. apply ep_eqb_eq. auto.
  - cbn in PO. rewrite PO. destruct (Nat.eqb_spec (c_ref (y_prev s)) 0); [apply halt_good|]. apply GO. cbn. repeat split; auto. lia.
  - destruct (cell_eqb (y_prev s) old) eqn:E; [|apply GO; cbn; auto]. apply cell_eqb_eq in E. cbn in PO.
    destruct PO as (P1 & P2 & P3). eapply (release_prev hwm cap s st g t f (EPrevCas old) e (c_ref old)); eauto.
    + rewrite E. destruct old; cbn in *. congruence.
    + rewrite P2. auto.
  - destruct (c_ep (y_cur s)) as [x|] eqn:E; [|apply GO; cbn; auto].
    destruct (Nat.eqb_spec (c_ref (y_cur s)) 0); [apply halt_good|]. apply GO. cbn. split; [congruence|lia].
  - destruct (cell_eqb (y_cur s) old) eqn:E; [|apply GO; cbn; auto]. apply cell_eqb_eq in E. cbn in PO.
    destruct PO as (P1 & P2). destruct (c_ep old) as [x|] eqn:EO; [|congruence].
    eapply (release_cur hwm cap s st g t f (ECurrCas old) e x (c_ref old)); eauto. rewrite E. destruct old; cbn in *. congruence.
Qed.

(** ** Buffer operations *)

Lemma exec_od : forall (b : cbuf R) bp b' bp', exec b bp = Some (b', bp') -> pcJ hwm b bp ->
  hidx (cb_old b') = hidx (cb_old b).
Proof.
  intros b bp b' bp' E J. destruct bp; cbn [BufConcModel.exec] in E; try discriminate.
  all: repeat match type of E with
       | context[if ?c then _ else _] => let F := fresh "F" in destruct c eqn:F
       end; inversion E; subst; clear E; cbn [pcJ] in J; auto.
  all: try (apply head_eqb_eq in F; subst; cbn; auto).
Qed.

Lemma bcall_good : forall s st g t c p p' s', inv s st g -> y_stop s = None -> bcall hwm cap s t c p' = Some s' ->
  epochs_ok (y_buf s) (Call t c) -> nth_error (y_pcs s) t = Some p ->
  recon p' = recon p -> (pc_stage p st -> pc_stage p' st) -> pinned p' = pinned p -> pc_ok s p' ->
  (forall bp bp', nth_error (bpcs s) t = Some bp -> begin c bp = Some bp' -> link s p' bp') -> good s s'.
Proof.
  intros s st g t c p p' s' I NS E OK N RC PS P PO LK. unfold bcall in E.
  destruct (cexec (y_buf s) (Call t c)) as [b|] eqn:X; [|discriminate]. inversion E; subst; clear E.
  assert (J := j_step _ _ _ _ _ (i_j _ _ _ _ _ I) X).
  destruct (bp_some _ _ _ _ _ I N) as (bp & NB & _ & _).
  pose proof X as X'. cbn [BufConcModel.cexec] in X'. rewrite NB in X'. destruct (begin c bp) as [bp'|] eqn:B; [|discriminate].
  inversion X'; subst; clear X'. set (s' := go _ _ _).
  split; [left; split; [|auto]|right; exists (Call t c); split; [auto|split; [auto|discriminate]]].
  exists st, g. eapply (inv_thread hwm cap s s' st g t p p' bp bp'); eauto.
Qed.

Lemma bstep_good : forall s st g t k p s', inv s st g -> y_stop s = None -> bstep hwm cap s t k = Some s' ->
  nth_error (y_pcs s) t = Some p ->
  (forall bp bp' b', nth_error (bpcs s) t = Some bp -> exec (cs_buf (y_buf s)) bp = Some (b', bp') ->
     link s p bp -> pcJ hwm (cs_buf (y_buf s)) bp ->
     match k bp' with
     | Some q => recon q = recon p /\ (pc_stage p st -> pc_stage q st) /\ pinned q = pinned p /\ pc_ok s q /\ link s q bp'
     | None => link s p bp'
     end) -> good s s'.
Proof.
  intros s st g t k p s' I NS E N H. unfold bstep in E.
  destruct (cexec (y_buf s) (Step t)) as [b|] eqn:X; [|discriminate].
  assert (J := j_step _ _ _ _ _ (i_j _ _ _ _ _ I) X).
  destruct (bp_some _ _ _ _ _ I N) as (bp & NB & PO & LK).
  pose proof X as X'. cbn [BufConcModel.cexec] in X'. rewrite NB in X'.
  destruct (exec (cs_buf (y_buf s)) bp) as [[b' bp']|] eqn:B; [|discriminate].
  assert (PJ : pcJ hwm (cs_buf (y_buf s)) bp).
  { apply (j_pcs _ _ _ (i_j _ _ _ _ _ I)). eapply nth_error_In; eauto. }
  assert (HD := exec_od _ _ _ _ B PJ).
  destruct (exec_J hwm cap _ _ _ _ B PJ (j_le _ _ _ (i_j _ _ _ _ _ I)) (j_cnt _ _ _ (i_j _ _ _ _ _ I))) as (_ & HH & _).
  specialize (H bp bp' b' NB B LK PJ).
  assert (X2 : b = CS b' (set_nth t bp' (bpcs s)) (adv s) (match bp with AVis r ts q => (q, (r, ts)) :: cs_done (y_buf s) | _ => cs_done (y_buf s) end)).
  { inversion X'. destruct (y_buf s); auto. }
  assert (X3 : cs_pcs b = set_nth t bp' (bpcs s)) by (rewrite X2; auto).
  rewrite X3, (nth_set_same _ _ _ _ NB) in E.
  assert (AV : cs_adv b = adv s) by (rewrite X2; auto).
  assert (BB : cs_buf b = b') by (rewrite X2; auto). clear X'.
  destruct (k bp') as [q|] eqn:K; inversion E; subst s'; clear E.
  - destruct H as (H1 & H2 & H3 & H4 & H5). set (s' := go _ _ _).
    assert (T : tame s s') by (unfold tame; cbn; rewrite AV, BB; auto).
    split; [left; split; [|auto]|right; exists (Step t); split; [exact Logic.I|split; [auto|discriminate]]].
    exists st, g. eapply (inv_thread hwm cap s s' st g t p q bp bp'); eauto; try (cbn; rewrite BB; auto; fail).
    all: try (eapply tame_pc; eauto; fail); try (eapply tame_link; eauto; fail).
  - set (s' := w_buf s b).
    assert (T : tame s s') by (unfold tame; cbn; rewrite AV, BB; auto).
    split; [left; split; [|auto]|right; exists (Step t); split; [exact Logic.I|split; [auto|discriminate]]].
    exists st, g. eapply (inv_thread hwm cap s s' st g t p p bp bp'); eauto; try (cbn; rewrite BB; auto; fail).
    all: try (eapply tame_pc; eauto; fail); try (eapply tame_link; eauto; fail).
    cbn. symmetry. apply set_nth_id. auto.
Qed.

Lemma seek_step : forall (b : cbuf R) bp b' bp' t, exec b bp = Some (b', bp') -> seeks bp = Some t \/ bp = GTail t ->
  (seeks bp' = Some t \/ bp' = GTail t) \/ (bp' = Hold t (cb_tail b) /\ bp = GTail t).
Proof.
  intros b bp b' bp' t E [H| ->]; [|cbn in E; inversion E; auto].
  destruct bp; cbn in H; try discriminate; inversion H; subst; clear H; cbn [BufConcModel.exec] in E.
  all: repeat match type of E with
       | context[if ?c then _ else _] => let F := fresh "F" in destruct c eqn:F
       end; inversion E; subst; cbn; auto.
Qed.

Lemma rel_step : forall (b : cbuf R) bp b' bp', exec b bp = Some (b', bp') -> releasing bp = true ->
  releasing bp' = true \/ bp' = Idle.
Proof.
  intros b bp b' bp' E H. destruct bp; cbn in H; try discriminate; cbn [BufConcModel.exec] in E.
  all: repeat match type of E with
       | context[if ?c then _ else _] => let F := fresh "F" in destruct c eqn:F
       end; inversion E; subst; cbn; auto.
Qed.

Lemma app_step : forall (b : cbuf R) bp b' bp', exec b bp = Some (b', bp') -> appending bp = true ->
  appending bp' = true \/ bp' = Idle.
Proof.
  intros b bp b' bp' E H. destruct bp; cbn in H; try discriminate; cbn [BufConcModel.exec] in E.
  all: repeat match type of E with
       | context[if ?c then _ else _] => let F := fresh "F" in destruct c eqn:F
       end; inversion E; subst; cbn; auto.
Qed.

(** A view of a pinned epoch's head, or of the next epoch's. *)
Lemma view_ok : forall s st g t p e h u, inv s st g -> nth_error (y_pcs s) t = Some p -> pinned p = Some e ->
  headof s e = Some h -> epochs_ok (y_buf s) (Call u (View_ h)).
Proof.
  intros s st g t p e h u I N P H. pose proof I as [IO IC IPI IH IP IL IJ].
  destruct (pinned_active _ _ _ _ _ IPI N P) as (_ & [->|(q & GP & NE)]).
  - destruct IH as ((h' & A & B) & _). rewrite A in H. inversion H; subst h'. cbn. unfold base.
    destruct st; try (left; destruct B as [B1 B2]; rewrite B1; auto; fail).
    + destruct (adv s); left; intuition.
    + right. destruct B as (B1 & B2 & B3 & _). auto.
  - destruct IH as ((h' & A & B) & C & _). destruct (C _ _ GP) as [C1 C2]. rewrite C1 in H. inversion H; subst h. cbn.
    assert (AV : adv s = VIdle).
    { destruct IC as [_ IC]. destruct st; try (destruct B; auto; fail).
      - destruct IC as (_ & _ & X). congruence.
    }
    right. auto.
Qed.

Lemma view_next : forall s st g a h u, inv s st g -> st = StNext a ->
  headof s a = Some h -> epochs_ok (y_buf s) (Call u (View_ h)).
Proof.
  intros s st g a h u I -> H. pose proof (i_heads _ _ _ _ _ I) as ((h' & A & B) & _ & C & _).
  destruct (C a eq_refl) as (_ & _ & C3). rewrite C3 in H. inversion H; subst. destruct B as [B1 B2].
  cbn. unfold base. rewrite B1. auto.
Qed.

End SR.

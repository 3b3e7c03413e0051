(** Every step keeps the invariant of SysInv.v and follows the epoch discipline of the
    buffer. *)
From Coq Require Import List Arith ZArith NArith Lia Bool.
From Verif Require Import Base ListLemmas RecordModel BufferModel BufConcModel BufConcProofs BufConcData SysModel SysInv.
Import ListNotations.

Section SS.
Context {R : Type} {RO : RecOps R}.
Variables lwm hwm cap : nat.
Notation cexec := (cexec hwm cap).
Notation sexec := (sexec lwm hwm cap).
Notation inv := (inv hwm cap).
Notation jinv := (jinv hwm cap).
Notation hd s := (hidx (cb_head (cs_buf (y_buf s)))).
Notation od s := (hidx (cb_old (cs_buf (y_buf s)))).
Notation adv s := (cs_adv (y_buf s)).
Notation bpcs s := (cs_pcs (y_buf s)).
Implicit Types (s : sys R) (p : spc R) (bp : pc R).

(** What a step makes of the buffer. *)
Definition proj s s' : Prop :=
  y_buf s' = y_buf s \/ exists a, epochs_ok (y_buf s) a /\ cexec (y_buf s) a = Some (y_buf s') /\
    forall m, a = Advance m -> In (DAdv m) (y_pcs s).

Definition good s s' : Prop :=
  ((exists st g, inv s' st g) /\ y_stop s' = None \/ y_stop s' = Some AssertFailed) /\ proj s s'.

Lemma own_same : forall s s' st t p p', owner s st -> nth_error (y_pcs s) t = Some p ->
  recon p' = recon p -> (pc_stage p st -> pc_stage p' st) -> y_pcs s' = set_nth t p' (y_pcs s) ->
  y_jobs s' = y_jobs s -> y_flag s' = y_flag s -> owner s' st.
Proof.
  intros s s' st t p p' O N RC PS E J F. destruct (recon p) eqn:RP.
  - destruct (recon_one _ _ _ _ O N RP) as (_ & _ & _ & Q). eapply own_move; eauto.
  - eapply own_stay; eauto.
Qed.

(** A thread step that leaves the epochs alone. *)
Lemma inv_thread : forall s s' st g t p p' bp bp', inv s st g ->
  nth_error (y_pcs s) t = Some p -> nth_error (bpcs s) t = Some bp ->
  y_pcs s' = set_nth t p' (y_pcs s) -> bpcs s' = set_nth t bp' (bpcs s) ->
  adv s' = adv s -> hd s' = hd s -> od s' = od s -> jinv (y_buf s') -> y_heap s' = y_heap s ->
  y_next s' = y_next s -> y_cur s' = y_cur s -> y_prev s' = y_prev s -> y_flag s' = y_flag s -> y_jobs s' = y_jobs s ->
  recon p' = recon p -> (pc_stage p st -> pc_stage p' st) -> pinned p' = pinned p ->
  pc_ok s' p' -> link s' p' bp' -> inv s' st g.
Proof.
  intros s s' st g t p p' bp bp' I N NB E EB A H O J EH E1 E2 E3 E4 E5 RC PS P PO LK.
  pose proof I as [IO IC IPI IH IP IL IJ].
  eapply (tame_inv hwm cap s s' st g st g t p p' bp bp'); eauto.
  - unfold tame, headof. rewrite EH, E2, E3. auto.
  - eapply own_same; eauto.
  - unfold cells in *. rewrite E1, E2, E3. auto.
  - eapply pins_same; eauto.
Qed.

Lemma inv_same : forall s s' st g t p p' bp, inv s st g ->
  nth_error (y_pcs s) t = Some p -> nth_error (bpcs s) t = Some bp ->
  y_pcs s' = set_nth t p' (y_pcs s) -> y_buf s' = y_buf s -> y_heap s' = y_heap s ->
  y_next s' = y_next s -> y_cur s' = y_cur s -> y_prev s' = y_prev s -> y_flag s' = y_flag s -> y_jobs s' = y_jobs s ->
  recon p' = recon p -> (pc_stage p st -> pc_stage p' st) -> pinned p' = pinned p ->
  pc_ok s' p' -> link s' p' bp -> inv s' st g.
Proof.
  intros s s' st g t p p' bp I N NB E EB EH E1 E2 E3 E4 E5 RC PS P PO LK.
  eapply (inv_thread s s' st g t p p' bp bp); eauto; rewrite EB; auto.
  - symmetry. apply set_nth_id. auto.
  - apply (i_j _ _ _ _ _ I).
Qed.

Lemma good_same : forall s s' st g, inv s' st g -> y_stop s' = None -> y_buf s' = y_buf s -> good s s'.
Proof. intros. split; [left; eauto|left; auto]. Qed.

(** ** The cells *)

Lemma cells_cur : forall s st g e r, cells s st g -> y_cur s = Cell (Some e) r ->
  e = g_act g /\ r = g_k g /\ forall s' r' po m, y_cur s' = Cell (Some e) r' -> y_next s' = y_next s -> y_prev s' = y_prev s ->
    po = g_prev g -> cells s' st (Gh e r' po m).
Proof.
  intros s st g e r (NX & C) E. unfold cells.
  assert (X : e = g_act g /\ r = g_k g).
  { destruct st; destruct C as [C C']; rewrite C in E; inversion E; auto. }
  destruct X as [-> ->]. split; auto. split; auto. intros s' r' po m E1 E2 E3 ->. cbn.
  rewrite E2, E3. split; auto. destruct st; destruct C as [C C']; try (rewrite C in E; discriminate); auto.
Qed.

Lemma cells_prev : forall s st g e r, cells s st g -> y_prev s = Cell (Some e) r ->
  (e = g_act g /\ r = g_k g /\ g_prev g = None /\ c_ep (y_cur s) = None /\
   forall s' r' m, y_prev s' = Cell (Some e) r' -> y_next s' = y_next s -> y_cur s' = y_cur s ->
     cells s' st (Gh e r' None m)) \/
  (g_prev g = Some (e, r) /\
   forall s' r' m, y_prev s' = Cell (Some e) r' -> y_next s' = y_next s -> y_cur s' = y_cur s ->
     cells s' st (Gh (g_act g) (g_k g) (Some (e, r')) m)).
Proof.
  intros s st g e r (NX & C) E. unfold cells.
  assert (PC : forall po, pcell po = Cell (Some e) r -> po = Some (e, r)).
  { intros [[x q]|] H; cbn in H; inversion H; auto. }
  destruct st.
  all: try (right; destruct C as [C1 C2]; rewrite C2 in E; apply PC in E; split; [auto|];
            intros s' r' m E1 E2 E3; rewrite E2, E3; cbn; auto; fail).
  all: try (destruct C as (C1 & C2 & C3); rewrite C2 in E; discriminate).
  - left. destruct C as (C1 & C2 & C3). rewrite C2 in E. inversion E; subst. rewrite C1. repeat split; auto.
    all: cbn in *; congruence.
  - left. destruct C as (C1 & C2 & C3). rewrite C2 in E. inversion E; subst. rewrite C1. repeat split; auto.
    all: cbn in *; congruence.
  - right. destruct C as (C1 & C2 & C3). rewrite C2 in E. apply PC in E. split; auto.
    intros s' r' m E1 E2 E3. rewrite E2, E3. cbn. auto.
Qed.

Lemma heads_g : forall s st g g', heads s st g -> g_act g' = g_act g ->
  (forall x q, g_prev g' = Some (x, q) -> exists q', g_prev g = Some (x, q')) -> heads s st g'.
Proof.
  intros s st g g' (A & B & C & D) E P. unfold heads. rewrite E. split; auto. split; [|split; auto].
  - intros x q H. destruct (P _ _ H) as [q' H']. eauto.
  - intros a H. destruct (C a H) as (C1 & C2 & C3). split; auto. split; auto. intros q Q.
    destruct (P _ _ Q) as [q' Q']. eapply C2; eauto.
Qed.

(** ** Acquiring an epoch *)

Lemma got_facts : forall s (w : who R) e st, recon (got e w) = recon (SGet GLoad w) /\
  pinned (got e w) = Some e /\ (pc_stage (SGet GLoad w) st -> pc_stage (got e w) st) /\
  (c_ep (y_cur s) = Some e -> pc_ok s (got e w)) /\
  ((forall r ts, w <> ForNew r ts) -> pc_ok s (got e w)) /\ link s (got e w) Idle.
Proof.
  intros s [[] seen|r ts] e st; cbn; repeat split; auto. intro H. exfalso. eapply H; eauto.
Qed.

Lemma pins_add : forall s s' t p p' e, nth_error (y_pcs s) t = Some p ->
  y_pcs s' = set_nth t p' (y_pcs s) -> pinned p = None -> pinned p' = Some e ->
  forall x, pins s' x = pins s x + (if e =? x then 1 else 0).
Proof.
  intros s s' t p p' e N E P P' x. pose proof (pins_set s _ t p p' x N E) as Q.
  unfold pins in *. unfold pin_eqb at 2 4 in Q. rewrite P, P' in Q. lia.
Qed.

Lemma pins_drop : forall s s' t p p' e, nth_error (y_pcs s) t = Some p ->
  y_pcs s' = set_nth t p' (y_pcs s) -> pinned p = Some e -> pinned p' = None ->
  forall x, pins s' x + (if e =? x then 1 else 0) = pins s x.
Proof.
  intros s s' t p p' e N E P P' x. pose proof (pins_set s _ t p p' x N E) as Q.
  unfold pins in *. unfold pin_eqb at 2 4 in Q. rewrite P, P' in Q. lia.
Qed.

Lemma acquire_cur : forall s st g t (w : who R) q e r s', inv s st g -> y_stop s = None ->
  nth_error (y_pcs s) t = Some (SGet q w) -> y_cur s = Cell (Some e) r ->
  s' = go (w_cur s (Cell (Some e) (S r))) t (got e w) -> good s s'.
Proof.
  intros s st g t w q e r s' I NS N E ->. pose proof I as [IO IC IPI IH IP IL IJ].
  destruct (nth_error (bpcs s) t) as [bp|] eqn:NB; [|apply nth_error_None in NB; assert (t < length (y_pcs s)) by (apply nth_error_Some; congruence); lia].
  destruct (IP _ _ _ N NB) as [_ LK]. cbn in LK. subst bp.
  destruct (cells_cur _ _ _ _ _ IC E) as (-> & -> & CC). set (s' := go _ _ _).
  destruct (got_facts s' w (g_act g) st) as (G1 & G2 & G3 & G4 & _ & G5).
  apply (good_same s s' st (Gh (g_act g) (S (g_k g)) (g_prev g) (g_m g))); auto.
  eapply (tame_inv hwm cap s s' st g st _ t _ (got (g_act g) w) Idle Idle); eauto.
  - cbn. symmetry. apply set_nth_id. auto.
  - unfold tame, headof. cbn. rewrite E. auto.
  - eapply (own_same s s'); eauto.
  - assert (PA := pins_add s s' t _ (got (g_act g) w) (g_act g) N eq_refl eq_refl G2).
    destruct IPI as (P1 & P2 & P3). unfold pins_ok. cbn [g_act g_k g_prev g_m]. rewrite PA, Nat.eqb_refl. split; [lia|].
    split.
    + destruct (g_prev g) as [[x y]|]; auto. rewrite PA. destruct P2 as [P2 P2']. split; auto.
      destruct (Nat.eqb_spec (g_act g) x); [congruence|lia].
    + intros x NX NP. rewrite PA, P3; auto. destruct (Nat.eqb_spec (g_act g) x); [congruence|lia].
Qed.

Lemma acquire_prev : forall s st g t (w : who R) q e r s', inv s st g -> y_stop s = None ->
  nth_error (y_pcs s) t = Some (SGet q w) -> y_prev s = Cell (Some e) r -> (forall r ts, w <> ForNew r ts) ->
  s' = go (w_prev s (Cell (Some e) (S r))) t (got e w) -> good s s'.
Proof.
  intros s st g t w q e r s' I NS N E NW ->. pose proof I as [IO IC IPI IH IP IL IJ].
  destruct (nth_error (bpcs s) t) as [bp|] eqn:NB; [|apply nth_error_None in NB; assert (t < length (y_pcs s)) by (apply nth_error_Some; congruence); lia].
  destruct (IP _ _ _ N NB) as [PO LK]. cbn in LK. subst bp. set (s' := go _ _ _).
  destruct (got_facts s' w e st) as (G1 & G2 & G3 & _ & G4 & G5). specialize (G4 NW).
  assert (PA := pins_add s s' t _ (got e w) e N eq_refl eq_refl G2).
  destruct IPI as (P1 & P2 & P3).
  destruct (cells_prev _ _ _ _ _ IC E) as [(-> & -> & GP & _ & CC)|(GP & CC)].
  - apply (good_same s s' st (Gh (g_act g) (S (g_k g)) None (g_m g))); auto.
    eapply (tame_inv hwm cap s s' st g st _ t _ (got (g_act g) w) Idle Idle); eauto.
    + cbn. symmetry. apply set_nth_id. auto.
    + unfold tame, headof. cbn. rewrite E. auto.
    + eapply (own_same s s'); eauto.
    + unfold pins_ok. cbn [g_act g_k g_prev g_m]. rewrite PA, Nat.eqb_refl. rewrite GP in P2. split; [lia|]. split; auto.
      intros x NX _. rewrite PA, P3; auto; [|rewrite GP; congruence]. destruct (Nat.eqb_spec (g_act g) x); [congruence|lia].
    + eapply heads_g; eauto. cbn. discriminate.
  - apply (good_same s s' st (Gh (g_act g) (g_k g) (Some (e, S r)) (g_m g))); auto.
    rewrite GP in P2. destruct P2 as [P2 P2'].
    eapply (tame_inv hwm cap s s' st g st _ t _ (got e w) Idle Idle); eauto.
    + cbn. symmetry. apply set_nth_id. auto.
    + unfold tame, headof. cbn. rewrite E. auto.
    + eapply (own_same s s'); eauto.
    + unfold pins_ok. cbn [g_act g_k g_prev g_m]. rewrite !PA. destruct (Nat.eqb_spec e (g_act g)); [congruence|].
      rewrite Nat.eqb_refl. split; [lia|]. split; [split; [lia|auto]|].
      intros x NX NP. rewrite PA. destruct (Nat.eqb_spec e x); [subst; exfalso; eapply NP; eauto|].
      rewrite P3; auto. rewrite GP. intros y Y. congruence.
    + eapply heads_g; eauto. cbn. intros x y H. inversion H; subst. eauto.
Qed.

(** ** Giving it back *)

Lemma after_facts : forall s (f : fin R) j e bp st, recon (after f) = recon (SEnd j e f) /\
  pinned (after f) = None /\ (pc_stage (SEnd j e f) st -> pc_stage (after f) st) /\
  pc_ok s (after f) /\ (link s (SEnd j e f) bp -> link s (after f) bp).
Proof. intros s [] j e bp st; cbn; auto 10. Qed.

Lemma link_end : forall s s' j j' e (f : fin R) bp, link s (SEnd j e f) bp -> link s' (SEnd j' e f) bp.
Proof. intros s s' j j' e [] bp H; cbn in *; auto. Qed.

Lemma release_cur : forall s st g t (f : fin R) j e a r s', inv s st g -> y_stop s = None ->
  nth_error (y_pcs s) t = Some (SEnd j e f) -> y_cur s = Cell (Some a) r -> 0 < r ->
  s' = go (w_cur s (Cell (Some a) (r - 1))) t (after f) -> good s s'.
Proof.
  intros s st g t f j e a r s' I NS N E POS ->. pose proof I as [IO IC IPI IH IP IL IJ].
  destruct (nth_error (bpcs s) t) as [bp|] eqn:NB; [|apply nth_error_None in NB; assert (t < length (y_pcs s)) by (apply nth_error_Some; congruence); lia].
  destruct (IP _ _ _ N NB) as [_ LK].
  destruct (cells_cur _ _ _ _ _ IC E) as (-> & -> & CC). set (s' := go _ _ _).
  destruct (after_facts s' f j e bp st) as (G1 & G2 & G3 & G4 & G5).
  assert (PA := pins_drop s s' t _ (after f) e N eq_refl eq_refl G2).
  destruct (pinned_active _ _ _ _ _ IPI N eq_refl) as (PP & [EA|(q & GP & NE)]).
  - subst e. apply (good_same s s' st (Gh (g_act g) (g_k g - 1) (g_prev g) (g_m g))); auto.
    eapply (tame_inv hwm cap s s' st g st _ t _ (after f) bp bp); eauto.
    + cbn. symmetry. apply set_nth_id. auto.
    + unfold tame, headof. cbn. rewrite E. auto.
    + eapply (own_same s s'); eauto.
    + destruct IPI as (P1 & P2 & P3). unfold pins_ok. cbn [g_act g_k g_prev g_m].
      specialize (PA (g_act g)) as PA1. rewrite Nat.eqb_refl in PA1. split; [lia|]. split.
      * destruct (g_prev g) as [[x y]|]; auto. destruct P2 as [P2 P2']. split; auto.
        specialize (PA x). destruct (Nat.eqb_spec (g_act g) x); [congruence|lia].
      * intros x NX NP. specialize (PA x). rewrite (P3 x) in PA; auto. lia.
  - (* the job was on the previous epoch *)
    apply (good_same s s' st (Gh (g_act g) (g_k g - 1) (g_prev g) (S (g_m g)))); auto.
    eapply (tame_inv hwm cap s s' st g st _ t _ (after f) bp bp); eauto.
    + cbn. symmetry. apply set_nth_id. auto.
    + unfold tame, headof. cbn. rewrite E. auto.
    + eapply (own_same s s'); eauto.
    + destruct IPI as (P1 & P2 & P3). unfold pins_ok. cbn [g_act g_k g_prev g_m]. rewrite GP in *.
      destruct P2 as [P2 P2'].
      pose proof (PA (g_act g)) as PA1. destruct (Nat.eqb_spec e (g_act g)) as [X|_]; [congruence|].
      split; [lia|]. split.
      * split; auto. specialize (PA e). rewrite Nat.eqb_refl in PA. lia.
      * intros x NX NP. specialize (PA x). rewrite (P3 x) in PA; auto. lia.
Qed.

Lemma release_prev : forall s st g t (f : fin R) j e r s', inv s st g -> y_stop s = None ->
  nth_error (y_pcs s) t = Some (SEnd j e f) -> y_prev s = Cell (Some e) r -> 0 < r ->
  s' = go (w_prev s (Cell (Some e) (r - 1))) t (after f) -> good s s'.
Proof.
  intros s st g t f j e r s' I NS N E POS ->. pose proof I as [IO IC IPI IH IP IL IJ].
  destruct (nth_error (bpcs s) t) as [bp|] eqn:NB; [|apply nth_error_None in NB; assert (t < length (y_pcs s)) by (apply nth_error_Some; congruence); lia].
  destruct (IP _ _ _ N NB) as [_ LK]. set (s' := go _ _ _).
  destruct (after_facts s' f j e bp st) as (G1 & G2 & G3 & G4 & G5).
  assert (PA := pins_drop s s' t _ (after f) e N eq_refl eq_refl G2).
  destruct (pinned_active _ _ _ _ _ IPI N eq_refl) as (PP & _).
  destruct IPI as (P1 & P2 & P3).
  destruct (cells_prev _ _ _ _ _ IC E) as [(-> & -> & GP & _ & CC)|(GP & CC)].
  - apply (good_same s s' st (Gh (g_act g) (g_k g - 1) None (g_m g))); auto.
    eapply (tame_inv hwm cap s s' st g st _ t _ (after f) bp bp); eauto.
    + cbn. symmetry. apply set_nth_id. auto.
    + unfold tame, headof. cbn. rewrite E. auto.
    + eapply (own_same s s'); eauto.
    + unfold pins_ok. cbn [g_act g_k g_prev g_m]. rewrite GP in P2.
      pose proof (PA (g_act g)) as PA1. rewrite Nat.eqb_refl in PA1. split; [lia|]. split; auto.
      intros x NX _. specialize (PA x). rewrite (P3 x) in PA; auto; [lia|]. rewrite GP. congruence.
    + eapply heads_g; eauto. cbn. discriminate.
  - apply (good_same s s' st (Gh (g_act g) (g_k g) (Some (e, r - 1)) (g_m g))); auto.
    rewrite GP in P2. destruct P2 as [P2 P2'].
    eapply (tame_inv hwm cap s s' st g st _ t _ (after f) bp bp); eauto.
    + cbn. symmetry. apply set_nth_id. auto.
    + unfold tame, headof. cbn. rewrite E. auto.
    + eapply (own_same s s'); eauto.
    + unfold pins_ok. cbn [g_act g_k g_prev g_m].
      pose proof (PA (g_act g)) as PA1. destruct (Nat.eqb_spec e (g_act g)) as [X|_]; [congruence|].
      split; [lia|]. split.
      * split; auto. specialize (PA e). rewrite Nat.eqb_refl in PA. lia.
      * intros x NX NP. specialize (PA x). destruct (Nat.eqb_spec e x) as [->|NE]; [exfalso; eapply NP; eauto|].
        rewrite (P3 x) in PA; auto; [lia|]. rewrite GP. intros y Y. congruence.
    + eapply heads_g; eauto. cbn. intros x y H. inversion H; subst. eauto.
Qed.

End SS.

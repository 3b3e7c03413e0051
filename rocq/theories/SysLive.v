(** The epochs that are allocated, in any execution; the destructor. *)
From Coq Require Import List Arith ZArith NArith Lia Bool.
From Verif Require Import Base ListLemmas RecordModel BufferModel BufConcModel BufConcProofs BufConcView BufConcData
  SysModel SysInv SysSteps SysRun SysMain SysSpec.
Import ListNotations.

Section SL.
Context {R : Type} {RO : RecOps R}.
Variables lwm hwm cap : nat.
Notation cexec := (cexec hwm cap).
Notation sexec := (sexec lwm hwm cap).
Notation run := (run lwm hwm cap).
Notation inv := (inv hwm cap).
Implicit Types (s : sys R) (p q : spc R).

Definition linv s : Prop := forall e, y_heap s e <> None -> held s e.

(** A step that keeps the epochs of the cells and of the other threads. *)
Lemma frame_l : forall s s' t p q, nth_error (y_pcs s) t = Some p -> y_pcs s' = set_nth t q (y_pcs s) ->
  linv s -> (forall e, y_heap s' e <> None -> y_heap s e <> None \/ holds q = Some e) ->
  (forall e, y_heap s' e <> None -> c_ep (y_next s) = Some e \/ c_ep (y_cur s) = Some e \/ c_ep (y_prev s) = Some e \/ holds p = Some e ->
     c_ep (y_next s') = Some e \/ c_ep (y_cur s') = Some e \/ c_ep (y_prev s') = Some e \/ holds q = Some e) ->
  linv s'.
Proof.
  intros s s' t p q N P L H K e E.
  assert (Q : nth_error (y_pcs s') t = Some q) by (rewrite P; eapply nth_set_same; eauto).
  assert (D : c_ep (y_next s') = Some e \/ c_ep (y_cur s') = Some e \/ c_ep (y_prev s') = Some e \/ holds q = Some e \/
    exists u z, u <> t /\ nth_error (y_pcs s) u = Some z /\ holds z = Some e).
  { destruct (H e E) as [H1|H1]; [|tauto].
    destruct (L e H1) as [X|[X|[X|(u & z & U & Z)]]]; [..|destruct (Nat.eq_dec u t) as [->|NE]; [|right; right; right; right; eauto]].
    all: try (rewrite N in U; injection U as <-); specialize (K e E); tauto. }
  unfold held. destruct D as [D|[D|[D|[D|(u & z & U1 & U2 & U3)]]]]; auto.
  - right. right. right. eauto.
  - right. right. right. exists u, z. split; auto. rewrite P, nth_set_other; auto.
Qed.

Lemma keep_l : forall s s' t p q, nth_error (y_pcs s) t = Some p -> y_pcs s' = set_nth t q (y_pcs s) ->
  linv s -> y_heap s' = y_heap s -> c_ep (y_next s') = c_ep (y_next s) -> c_ep (y_cur s') = c_ep (y_cur s) ->
  c_ep (y_prev s') = c_ep (y_prev s) -> holds p = None -> linv s'.
Proof.
  intros s s' t p q N P L H E1 E2 E3 E4. eapply frame_l; eauto.
  - intros e. rewrite H. auto.
  - intros e _. rewrite E1, E2, E3, E4. intuition discriminate.
Qed.

Lemma same_l : forall s s', y_pcs s' = y_pcs s -> linv s -> y_heap s' = y_heap s -> y_next s' = y_next s -> y_cur s' = y_cur s ->
  y_prev s' = y_prev s -> linv s'.
Proof. intros s s' P L H E1 E2 E3 e E. unfold held. rewrite P, E1, E2, E3. apply L. congruence. Qed.

Lemma bcall_l : forall s t c p q s', linv s -> nth_error (y_pcs s) t = Some p -> bcall hwm cap s t c q = Some s' ->
  holds p = None -> linv s'.
Proof.
  intros s t c p q s' L N E H. unfold bcall in E. destruct (cexec (y_buf s) (Call t c)); [|discriminate].
  injection E as <-. eapply keep_l; eauto; reflexivity.
Qed.

Lemma bstep_l : forall s t k p s', linv s -> nth_error (y_pcs s) t = Some p -> bstep hwm cap s t k = Some s' ->
  holds p = None -> linv s'.
Proof.
  intros s t k p s' L N E H. unfold bstep in E. destruct (cexec (y_buf s) (Step t)) as [b|]; [|discriminate].
  destruct (nth_error (cs_pcs b) t) as [bp|]; [|discriminate].
  destruct (k bp) as [q|]; injection E as <-; [eapply keep_l; eauto; reflexivity|eapply same_l; eauto; reflexivity].
Qed.

Lemma wake_l : forall s t p q, nth_error (y_pcs s) t = Some p -> holds p = None -> linv s ->
  linv (w_pcs s (map wake (set_nth t q (y_pcs s)))).
Proof.
  intros s t p q N H L e E. destruct (L e E) as [X|[X|[X|(u & z & U & Z)]]]; unfold held; cbn; auto.
  assert (u <> t) by (intros ->; congruence).
  right. right. right. exists u, (wake z). rewrite nth_error_map, nth_set_other by auto. rewrite U. split; auto.
  destruct z; auto; discriminate.
Qed.

Lemma run_l : forall s st g t p s', inv s st g -> linv s -> nth_error (y_pcs s) t = Some p -> run s t p = Some s' -> linv s'.
Proof.
  intros s st g t p s' I L N E.
  destruct (bp_some _ _ _ _ _ _ _ I N) as (bp & NB & PO & LK). clear LK.
  assert (ST : recon p = true -> pc_stage p st) by (eapply stage_of; eauto).
  pose proof (i_cells _ _ _ _ _ I) as [CN CC].
  destruct p; cbn [SysModel.run] in E; unfold deref, get_step, end_step in E; try discriminate.
  all: try (eapply bcall_l; eauto; reflexivity); try (eapply bstep_l; eauto; reflexivity).
  all: repeat match type of E with context[match ?x with _ => _ end] => destruct x eqn:?; try discriminate E end.
  all: repeat match goal with H : cell_eqb _ _ = true |- _ => apply cell_eqb_eq in H end.
  all: try (eapply bcall_l; eauto; reflexivity); try (eapply bstep_l; eauto; reflexivity).
  all: injection E as <-; try (eapply same_l; eauto; reflexivity); try (eapply keep_l; [exact N|reflexivity|exact L|..]; cbn; congruence).
  all: try (specialize (ST eq_refl); cbn in ST).
  all: try (eapply frame_l; [exact N|reflexivity|exact L|..]; cbn; unfold upd;
    intros e'; try (destruct (Nat.eqb_spec e' a); subst); try (intros; left; congruence); auto).
  all: cbn in PO.
  - rewrite CN. cbn. intuition discriminate.
  - destruct PO as [-> ->]. intuition.
  - destruct (Nat.eqb_spec e' p); [congruence|]. auto.
  - destruct (Nat.eqb_spec e' p); [congruence|]. intuition congruence.
  - subst c. intuition.
  - destruct ST as [a ->]. destruct CC as (C1 & C2 & _). rewrite C2. cbn. intuition discriminate.
  - destruct (Nat.eqb_spec e' n0); [subst; left; congruence|]. auto.
  - destruct ST as (a & -> & ->). destruct CC as (C1 & _). rewrite C1. cbn. intuition discriminate.
  - destruct ST as [a ->]. destruct CC as (C1 & _ & C3). rewrite CN, C1. cbn. intuition congruence.
  - eapply wake_l; eauto.
Qed.

Lemma exec_l : forall s st g x s', inv s st g -> linv s -> sexec s x = Some s' -> linv s'.
Proof.
  intros s st g x s' I L E. unfold SysModel.sexec in E. destruct (y_stop s); [discriminate|].
  destruct x as [t c|t|t a|t]; destruct (nth_error (y_pcs s) t) as [p|] eqn:N; try discriminate.
  - destruct p; try discriminate.
    destruct c; [..|destruct (y_jobs s); [discriminate|]]; injection E as <-;
      (eapply keep_l; [exact N|reflexivity|exact L|..]; reflexivity).
  - eapply run_l; eauto.
  - destruct p; try discriminate. destruct (y_heap s a) eqn:A; [discriminate|]. unfold deref in E.
    destruct (y_heap s e) as [x|]; injection E as <-; [|eapply same_l; eauto; reflexivity].
    eapply frame_l; [exact N|reflexivity|exact L|..]; cbn; unfold upd; intros e'.
    + destruct (Nat.eqb_spec e' a); subst; auto.
    + intuition discriminate.
  - destruct p; try discriminate; injection E as <-; (eapply keep_l; [exact N|reflexivity|exact L|..]; reflexivity).
Qed.

Lemma linv_reach : forall ok n s, sreach lwm hwm cap ok (sys_init hwm cap n) s -> linv s.
Proof.
  intros ok n s C. remember (sys_init hwm cap n) as s0 eqn:E0. induction C as [|s s1 x s2 C IH K E]; subst.
  - intros e H. cbn in H. destruct (Nat.eqb_spec e 0); [|congruence]. subst. right. left. reflexivity.
  - specialize (IH eq_refl). destruct (sys_reach _ _ _ _ _ _ C) as [[[(st & g & I) NS]|AF] _].
    + eapply exec_l; eauto.
    + unfold SysModel.sexec in E. rewrite AF in E. discriminate.
Qed.

(** C59 *)
Theorem live_held : forall ok n s e, sreach lwm hwm cap ok (sys_init hwm cap n) s -> y_heap s e <> None -> held s e.
Proof. intros ok n s e C. apply (linv_reach _ _ _ C). Qed.

Definition owned (st : stage) (g : ghost) : list nat :=
  match st with StHand a _ _ | StMoved a _ | StSwung a => [a; g_act g] | StDel a _ x => [a; g_act g; x]
  | _ => g_act g :: match st_new st with Some a => [a] | None => [] end ++ match g_prev g with Some (x, _) => [x] | None => [] end
  end.

Lemma held_owned : forall s st g e, inv s st g -> held s e -> In e (owned st g).
Proof.
  intros s st g e I H. pose proof (i_cells _ _ _ _ _ I) as [CN CC].
  destruct H as [H|[H|[H|(t & p & N & H)]]].
  - rewrite CN in H. cbn in H. destruct st; inversion H; subst; cbn; auto. destruct CC as (_ & _ & <-). auto.
  - destruct st; cbn in *; destruct CC as (C1 & _); rewrite C1 in H; inversion H; auto.
  - destruct st; cbn in *.
    all: repeat match type of CC with _ /\ _ => let X := fresh in destruct CC as [X CC] end; subst.
    all: repeat match goal with X : y_prev _ = _ |- _ => rewrite X in H; clear X end; cbn in H; try discriminate.
    all: try (inversion H; auto; fail).
    all: destruct (g_prev g) as [[x q]|]; cbn in *; inversion H; auto.
  - assert (RP : recon p = true) by (destruct p; auto; discriminate).
    pose proof (stage_of _ _ _ _ _ _ _ I N RP) as ST.
    destruct p; try discriminate; cbn in ST, H.
    + subst st. inversion H. cbn. auto.
    + destruct ST as [a ->]. inversion H. cbn. auto.
    + destruct ST as [a ->]. destruct CC as (_ & _ & -> & _). inversion H. cbn. auto.
Qed.

Theorem live_few : forall ok n s l, sreach lwm hwm cap ok (sys_init hwm cap n) s -> y_stop s = None -> NoDup l ->
  (forall e, In e l -> y_heap s e <> None) -> length l <= 3.
Proof.
  intros ok n s l C NS ND H. destruct (sys_reach _ _ _ _ _ _ C) as [[[(st & g & I) _]|AF] _]; [|congruence].
  apply Nat.le_trans with (length (owned st g)).
  - apply NoDup_incl_length; auto. intros e X. eapply held_owned; eauto. eapply live_held; eauto.
  - destruct st; cbn; auto; destruct (g_prev g) as [[]|]; cbn; auto.
Qed.

(** The destructor frees every epoch, and none twice. *)
Theorem destroy_ok : forall ok n s, sreach lwm hwm cap ok (sys_init hwm cap n) s -> y_stop s = None ->
  (forall p, In p (y_pcs s) -> p = SIdle) -> c_ep (y_next s) = None ->
  y_jobs s = [] /\ exists m, destroy s = inl m /\ forall e, m e = None.
Proof.
  intros ok n s C NS ID NX. destruct (sys_reach _ _ _ _ _ _ C) as [[[(st & g & I) _]|AF] _]; [|congruence].
  pose proof (linv_reach _ _ _ C) as L.
  pose proof (i_cells _ _ _ _ _ I) as [CN CC]. rewrite CN in NX. cbn in NX.
  assert (Z : countb recon (y_pcs s) = 0).
  { clear -ID. induction (y_pcs s) as [|p l IH]; auto. cbn. rewrite (ID p) by (left; auto). cbn. apply IH. intros. apply ID. right. auto. }
  assert (Q : st = StQuiet /\ y_jobs s = []).
  { destruct (i_own _ _ _ _ _ I) as [(A & B & D & E)|[(A & B & a & D & E)|(A & B & D & E)]]; auto.
    - subst st. discriminate.
    - lia. }
  destruct Q as [-> J]. split; auto. cbn in CC. destruct CC as [C1 C2].
  pose proof (i_heads _ _ _ _ _ I) as ((h & A1 & _) & A2 & _). pose proof (i_pins _ _ _ _ _ I) as (_ & P2 & _).
  unfold destroy, del. rewrite CN, C1, C2. cbn. unfold headof in *.
  destruct (y_heap s (g_act g)) as [x|] eqn:HA; [|discriminate].
  destruct (g_prev g) as [[p q]|] eqn:GP; cbn.
  - destruct P2 as [_ P2]. destruct (A2 p q eq_refl) as [A3 _].
    unfold upd at 1. destruct (Nat.eqb_spec p (g_act g)); [congruence|].
    destruct (y_heap s p) as [y|] eqn:HP; [|discriminate]. eexists. split; [reflexivity|].
    intros e. unfold upd. destruct (Nat.eqb_spec e p); auto. destruct (Nat.eqb_spec e (g_act g)); auto.
    destruct (y_heap s e) eqn:HE; auto. exfalso. assert (HN : y_heap s e <> None) by congruence.
    pose proof (held_owned _ _ _ _ I (L _ HN)) as O. cbn in O. rewrite GP in O. cbn in O. intuition.
  - eexists. split; [reflexivity|]. intros e. unfold upd. destruct (Nat.eqb_spec e (g_act g)); auto.
    destruct (y_heap s e) eqn:HE; auto. exfalso. assert (HN : y_heap s e <> None) by congruence.
    pose proof (held_owned _ _ _ _ I (L _ HN)) as O. cbn in O. rewrite GP in O. cbn in O. intuition.
Qed.

End SL.

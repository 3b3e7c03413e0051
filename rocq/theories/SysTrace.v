(** Consequences of the invariant for whole executions, epochs that can no longer be
    retired, and running concrete schedules. *)
From Coq Require Import List Arith ZArith NArith Lia Bool Permutation.
From Verif Require Import Base ListLemmas RecordModel BufferModel BufConcModel BufConcProofs BufConcView BufConcData SysModel SysSpec SysInv
  SysSteps SysRun SysMain SysCalm SysContent SysSnapshot.
Import ListNotations.

Section ST.
Context {R : Type} {RO : RecOps R}.
Variables lwm hwm cap : nat.
Notation exec := (exec hwm cap).
Notation cexec := (cexec hwm cap).
Notation sexec := (sexec lwm hwm cap).
Notation run := (run lwm hwm cap).
Notation sreach := (sreach lwm hwm cap).
Notation sys_init := (sys_init hwm cap).
Notation inv := (inv hwm cap).
Notation hd s := (hidx (cb_head (cs_buf (y_buf s)))).
Notation adv s := (cs_adv (y_buf s)).
Notation bpcs s := (cs_pcs (y_buf s)).
Notation tail s := (cb_tail (cs_buf (y_buf s))).
Notation done s := (cs_done (y_buf s)).
Implicit Types (s : sys R) (p q : spc R).

(** ** The last step before the program stopped *)

Lemma stopped_run : forall s t p s', y_stop s = None -> run s t p = Some s' -> y_stop s' <> None ->
  y_pcs s' = y_pcs s /\ y_jobs s' = y_jobs s /\ y_flag s' = y_flag s /\ y_heap s' = y_heap s.
Proof.
  intros s t p s' NS E ST.
  assert (BC : forall c z, bcall hwm cap s t c z = Some s' -> y_stop s' = y_stop s).
  { intros c z B. unfold bcall in B. destruct (cexec (y_buf s) (Call t c)); inversion B; auto. }
  assert (BS : forall k, bstep hwm cap s t k = Some s' -> y_stop s' = y_stop s).
  { intros k B. unfold bstep in B. destruct (cexec (y_buf s) (Step t)) as [c|]; [|discriminate].
    destruct (nth_error (cs_pcs c) t) as [bp|]; [|discriminate]. destruct (k bp); inversion B; auto. }
  destruct p; cbn [SysModel.run] in E; unfold deref, get_step, end_step in E; try discriminate.
  all: repeat match type of E with context[match ?x with _ => _ end] => destruct x eqn:?; try discriminate E end.
  all: try (apply BC in E; congruence); try (apply BS in E; congruence).
  all: injection E as E; subst s'; cbn in *; auto; congruence.
Qed.

Lemma stopped_same : forall s x s', sexec s x = Some s' -> y_stop s' <> None ->
  y_pcs s' = y_pcs s /\ y_jobs s' = y_jobs s /\ y_flag s' = y_flag s /\ y_heap s' = y_heap s.
Proof.
  intros s x s' E ST. unfold SysModel.sexec in E. destruct (y_stop s) eqn:NS; [discriminate|]. destruct x as [t c|t|t a|t].
  - destruct (nth_error (y_pcs s) t) as [[]|] eqn:N; try discriminate.
    destruct c; [| | |destruct (y_jobs s) eqn:J; [discriminate|]]; inversion E; subst; cbn in ST; congruence.
  - destruct (nth_error (y_pcs s) t) as [p|] eqn:N; [|discriminate]. eapply stopped_run; eauto.
  - destruct (nth_error (y_pcs s) t) as [[]|] eqn:N; try discriminate.
    destruct (y_heap s a) eqn:A; [discriminate|]. unfold deref in E. destruct (y_heap s e); inversion E; subst; cbn in *; auto; congruence.
  - destruct (nth_error (y_pcs s) t) as [[]|] eqn:N; try discriminate; inversion E; subst; cbn in ST; congruence.
Qed.

(** A fact about threads, jobs, flag and heap that follows from the invariant holds in
    every reachable state. *)
Lemma always : forall (P : sys R -> Prop),
  (forall s s', y_pcs s' = y_pcs s -> y_jobs s' = y_jobs s -> y_flag s' = y_flag s -> y_heap s' = y_heap s -> P s -> P s') ->
  (forall s st g, inv s st g -> P s) ->
  forall ok n s, sreach ok (sys_init n) s -> P s.
Proof.
  intros P K H ok n s C. inversion C as [|s0 s1 x s2 C1 _ E]; subst.
  - eapply H. apply init_inv.
  - destruct (sys_reach _ _ _ _ _ _ C) as [[[(st & g & I) _]|A] _]; [eauto|].
    destruct (sys_reach _ _ _ _ _ _ C1) as [[[(st & g & I) _]|A1] _].
    + destruct (stopped_same _ _ _ E) as (E1 & E2 & E3 & E4); [congruence|]. eapply K; eauto.
    + unfold SysModel.sexec in E. rewrite A1 in E. discriminate.
Qed.

(** C22 *)
Theorem pins_alive : forall ok n s t p e, sreach ok (sys_init n) s -> nth_error (y_pcs s) t = Some p -> pinned p = Some e ->
  y_heap s e <> None.
Proof.
  intros ok n s t p e C. revert t p e.
  apply (always (fun s => forall t p e, nth_error (y_pcs s) t = Some p -> pinned p = Some e -> y_heap s e <> None)) with (ok := ok) (n := n) (s := s); auto.
  - intros s1 s2 E1 _ _ E4 H t p e. rewrite E1, E4. eauto.
  - intros s1 st g I t p e N P. destruct (pinned_alive _ _ _ _ _ _ _ _ I N P) as [x X]. congruence.
Qed.

Theorem no_stale_access : forall ok n s, sreach ok (sys_init n) s ->
  y_stop s <> Some UseAfterFree /\ y_stop s <> Some NullPointer.
Proof.
  intros ok n s C. destruct (sys_reach _ _ _ _ _ _ C) as [[[_ N]|A] _]; split; congruence.
Qed.

(** C23 *)
Theorem one_reconstruction : forall ok n s, sreach ok (sys_init n) s ->
  countb recon (y_pcs s) + length (y_jobs s) = (if y_flag s then 1 else 0).
Proof.
  apply (always (fun s => countb recon (y_pcs s) + length (y_jobs s) = (if y_flag s then 1 else 0))).
  - intros s s' -> -> -> _. auto.
  - intros s st g I. destruct (i_own _ _ _ _ _ I) as [(A & B & C & _)|[(A & B & a & C & _)|(A & B & C & _)]]; rewrite A, ?B, ?C; auto.
Qed.

(** C49, C50: the assertions that can fail. *)
Lemma stop_run : forall s st g t p s', inv s st g -> y_stop s = None -> nth_error (y_pcs s) t = Some p -> run s t p = Some s' ->
  y_stop s' = Some AssertFailed -> (exists e f, p = SEnd ECurr e f) \/ (exists n, p = DAdvW n).
Proof.
  intros s st g t p s' I NS N E ST.
  pose proof (stage_of hwm cap s st g t p I N) as PS.
  destruct (bp_some hwm cap s st g t _ I N) as (bp & NB & PO & LK).
  assert (BC : forall c z, bcall hwm cap s t c z = Some s' -> y_stop s' = y_stop s).
  { intros c z B. unfold bcall in B. destruct (cexec (y_buf s) (Call t c)); inversion B; auto. }
  assert (BS : forall k, bstep hwm cap s t k = Some s' -> y_stop s' = y_stop s).
  { intros k B. unfold bstep in B. destruct (cexec (y_buf s) (Step t)) as [c|]; [|discriminate].
    destruct (nth_error (cs_pcs c) t) as [bp'|]; [|discriminate]. destruct (k bp'); inversion B; auto. }
  destruct p; cbn [SysModel.run] in E; unfold deref, get_step, end_step in E; try discriminate.
  all: repeat match type of E with context[match ?x with _ => _ end] => destruct x eqn:?; try discriminate E end.
  all: try (apply BC in E; congruence); try (apply BS in E; congruence).
  all: injection E as E; subst s'; cbn in ST; try congruence; eauto.
  - exfalso. cbn in PO. pose proof (i_pins _ _ _ _ _ I) as IP. destruct (pinned_active _ _ _ _ _ IP N eq_refl) as (PP & C).
    apply Nat.eqb_eq in Heqb. destruct (y_prev s) as [c r] eqn:Y. cbn in PO, Heqb. subst c r.
    destruct IP as (P1 & P2 & _).
    destruct (cells_prev _ _ _ _ _ (i_cells _ _ _ _ _ I) Y) as [(-> & Z & G & _)|(G & _)]; rewrite G in P2; lia.
  - exfalso. specialize (PS eq_refl). cbn in PS. subst st. pose proof (i_cells _ _ _ _ _ I) as [C0 _]. rewrite C0 in Heqo. discriminate.
Qed.

Theorem stop_causes : forall ok n s, sreach ok (sys_init n) s -> y_stop s = Some AssertFailed ->
  exists t p, nth_error (y_pcs s) t = Some p /\ ((exists e f, p = SEnd ECurr e f) \/ (exists n, p = DAdvW n)).
Proof.
  intros ok n s C A. inversion C as [|s0 s1 x s2 C1 _ E]; subst; [discriminate|].
  destruct (stopped_same _ _ _ E) as (E1 & _); [congruence|]. rewrite E1.
  destruct (sys_reach _ _ _ _ _ _ C1) as [[[(st & g & I) NS]|A1] _].
  - unfold SysModel.sexec in E. rewrite NS in E. destruct x as [t c|t|t a|t].
    + destruct (nth_error (y_pcs s1) t) as [[]|] eqn:N; try discriminate.
      destruct c; [| | |destruct (y_jobs s1) eqn:J; [discriminate|]]; inversion E; subst; cbn in A; congruence.
    + destruct (nth_error (y_pcs s1) t) as [p|] eqn:N; [|discriminate]. exists t, p. split; auto. eapply stop_run; eauto.
    + destruct (nth_error (y_pcs s1) t) as [[]|] eqn:N; try discriminate.
      destruct (y_heap s1 a); [discriminate|]. unfold deref in E. destruct (y_heap s1 e); inversion E; subst; cbn in A; congruence.
    + destruct (nth_error (y_pcs s1) t) as [[]|] eqn:N; try discriminate; inversion E; subst; cbn in A; congruence.
  - unfold SysModel.sexec in E. rewrite A1 in E. discriminate.
Qed.

(** ** Executions that are calm on some slots *)

Notation placed l := (map (fun x => append_rec (fst (snd x)) (snd (snd x)) (fst x mod cap)) l).

Lemma placed_on : forall (SL : nat -> Prop) (l : list (nat * (R * bool))) res, NoDup (map fst l) ->
  (forall y r ts, In (y, (r, ts)) l -> SL (y mod cap)) ->
  (forall y r ts, In (y, (r, ts)) l -> SL (y mod cap) -> nth_error res y = Some (append_rec r ts (y mod cap))) ->
  exists extra, Permutation res (placed l ++ extra).
Proof.
  intros SL l res N Q A.
  destruct (placed_contained (map (fun x => (fst x, append_rec (fst (snd x)) (snd (snd x)) (fst x mod cap))) l) res) as [e E].
  - rewrite map_map. cbn. auto.
  - intros y x J. apply in_map_iff in J as ((y' & r & ts) & J1 & J2). cbn in J1. inversion J1; subst. eauto.
  - exists e. rewrite map_map in E. cbn in E. auto.
Qed.

Lemma nodup_filter : forall (f : nat * (R * bool) -> bool) l, NoDup (map fst l) -> NoDup (map fst (filter f l)).
Proof.
  induction l as [|x l IH]; intro N; auto. inversion N; subst. cbn. destruct (f x); auto. cbn. constructor; auto.
  intro I. apply H1. apply in_map_iff in I as (z & I1 & I2). apply filter_In in I2 as [I2 _]. apply in_map_iff. exists z. auto.
Qed.

(** C69: what had been inserted in the slots [f] is in the answer. *)
Theorem snapshot_on : forall (f : nat -> bool) n s seen runs buf, 0 < hwm -> 2 * hwm <= cap ->
  sreach (calm_on cap (fun i => f i = true)) (sys_init n) s -> In (AList seen runs buf) (y_ans s) ->
  exists extra, Permutation (concat runs ++ buf) (placed (filter (fun x => f (fst x mod cap)) seen) ++ extra).
Proof.
  intros f n s seen runs buf H1 H2 C I. destruct (answers_right_on _ _ _ H1 H2 _ _ _ C) as [_ A]. specialize (A _ I). cbn in A.
  destruct A as (A & _ & N). apply (placed_on (fun i => f i = true)).
  - apply nodup_filter. auto.
  - intros y r ts J. apply filter_In in J. apply J.
  - intros y r ts J. apply filter_In in J as [J _]. auto.
Qed.

(** C21 *)
Theorem snapshot : forall n s seen runs buf, 0 < hwm -> 2 * hwm <= cap -> sreach calm (sys_init n) s ->
  In (AList seen runs buf) (y_ans s) -> exists extra, Permutation (concat runs ++ buf) (placed seen ++ extra).
Proof.
  intros n s seen runs buf H1 H2 C I. destruct (answers_right _ _ _ H1 H2 _ _ C) as [_ A]. specialize (A _ I). cbn in A.
  destruct A as (A & _ & N). apply (placed_on any); auto.
Qed.

(** Every execution is calm on no slots. *)
Lemma calm_none : forall ok s s', sreach ok s s' -> sreach (calm_on cap (fun _ => False)) s s'.
Proof.
  intros ok s s' C. induction C as [|s s1 x s2 C IH OK E]; econstructor; eauto.
  destruct x; cbn; auto. destruct (nth_error (y_pcs s1) t) as [[]|]; auto. destruct (nth_error (bpcs s1) t) as [[]|]; auto.
Qed.

Theorem sized : forall ok n s seen runs buf, 0 < hwm -> 2 * hwm <= cap -> sreach ok (sys_init n) s ->
  In (AList seen runs buf) (y_ans s) -> length seen <= length (concat runs ++ buf) <= tail s.
Proof.
  intros ok n s seen runs buf H1 H2 C I. apply calm_none in C. destruct (answers_right_on _ _ _ H1 H2 _ _ _ C) as [_ A].
  specialize (A _ I). cbn in A. tauto.
Qed.

(** C51 *)
Theorem counted : forall ok n s seen k, 0 < hwm -> 2 * hwm <= cap -> sreach ok (sys_init n) s ->
  In (ACount seen k) (y_ans s) -> length seen <= k <= tail s.
Proof.
  intros ok n s seen k H1 H2 C I. apply calm_none in C.
  destruct (answers_right_on _ _ _ H1 H2 _ _ _ C) as [_ A]. apply (A _ I).
Qed.

Lemma cur_head : forall ok n s e x, sreach ok (sys_init n) s -> y_stop s = None -> c_ep (y_cur s) = Some e ->
  y_heap s e = Some x -> e_head x = hd s.
Proof.
  intros ok n s e x C NS CE X. destruct (sys_reach _ _ _ _ _ _ C) as [[[(st & g & I) _]|A] _]; [|congruence].
  destruct I as [_ IC _ IH _ _ _]. destruct IC as [_ IC]. destruct IH as ((h & A & B) & _).
  assert (EA : e = g_act g).
  { destruct st; destruct IC as (Q & _); rewrite Q in CE; inversion CE; auto. }
  subst e. unfold headof in A. rewrite X in A. cbn in A. inversion A; subst h.
  destruct st; try (symmetry; apply B); destruct IC as (Q & _); rewrite Q in CE; discriminate.
Qed.

(** C69: the current epoch holds as many records as were flushed. *)
Theorem epoch_size : forall ok n s e, 0 < hwm -> 2 * hwm <= cap -> sreach ok (sys_init n) s -> y_stop s = None ->
  c_ep (y_cur s) = Some e -> exists x, y_heap s e = Some x /\ length (e_recs x) = hd s.
Proof.
  intros ok n s e H1 H2 C NS CE. assert (C' := calm_none _ _ _ C).
  destruct (answers_right_on _ _ _ H1 H2 _ _ _ C') as [K _]. specialize (K NS).
  destruct (k_cells _ _ _ K e (or_introl CE)) as (x & X & (F1 & F2 & F3)). exists x. split; auto.
  rewrite F2. eapply cur_head; eauto.
Qed.

(** C20: an insert that returned 1 is in the current epoch or in the buffer. *)
Theorem durable_on : forall (SL : nat -> Prop) n s e y r ts, 0 < hwm -> 2 * hwm <= cap ->
  sreach (calm_on cap SL) (sys_init n) s -> y_stop s = None ->
  c_ep (y_cur s) = Some e -> In (y, (r, ts)) (done s) -> SL (y mod cap) ->
  exists x, y_heap s e = Some x /\ e_head x = hd s /\
    if y <? hd s then nth_error (e_recs x) y = Some (append_rec r ts (y mod cap))
    else nth_error (cb_data (cs_buf (y_buf s))) (y mod cap) = Some (append_rec r ts (y mod cap)).
Proof.
  intros SL n s e y r ts H1 H2 C NS CE D IS. destruct (answers_right_on _ _ _ H1 H2 _ _ _ C) as [K _]. specialize (K NS).
  destruct (k_cells _ _ _ K e (or_introl CE)) as (x & X & (F1 & F2 & F3)). exists x. split; auto.
  destruct (calm_on_reach _ _ _ _ _ _ C) as [CR _].
  assert (HE : e_head x = hd s) by (eapply cur_head; eauto).
  split; auto. destruct (Nat.ltb_spec y (hd s)).
  - specialize (F3 y r ts D IS). rewrite Nat.sub_0_r in F3. apply F3. lia.
  - eapply (buffered_intact_on hwm cap H1); eauto. lia.
Qed.

Theorem durable : forall n s e y r ts, 0 < hwm -> 2 * hwm <= cap -> sreach calm (sys_init n) s -> y_stop s = None ->
  c_ep (y_cur s) = Some e -> In (y, (r, ts)) (done s) ->
  exists x, y_heap s e = Some x /\ e_head x = hd s /\
    if y <? hd s then nth_error (e_recs x) y = Some (append_rec r ts (y mod cap))
    else nth_error (cb_data (cs_buf (y_buf s))) (y mod cap) = Some (append_rec r ts (y mod cap)).
Proof. intros. eapply (durable_on any); eauto. apply calm_any. eauto. Qed.

(** C17 *)
Theorem view_intact_on : forall (SL : nat -> Prop) n s h tl y r ts, 0 < hwm -> 2 * hwm <= cap ->
  sreach (calm_on cap SL) (sys_init n) s ->
  In (Hold h tl) (bpcs s) -> h <= y < tl -> In (y, (r, ts)) (done s) -> SL (y mod cap) ->
  nth_error (cb_data (cs_buf (y_buf s))) (y mod cap) = Some (append_rec r ts (y mod cap)).
Proof.
  intros SL n s h tl y r ts H1 H2 C I Y D IS. destruct (calm_on_reach _ _ _ _ _ _ C) as [CR _].
  eapply (held_intact_on hwm cap H1); eauto. lia.
Qed.

Theorem view_intact : forall n s h tl y r ts, 0 < hwm -> 2 * hwm <= cap -> sreach calm (sys_init n) s ->
  In (Hold h tl) (bpcs s) -> h <= y < tl -> In (y, (r, ts)) (done s) ->
  nth_error (cb_data (cs_buf (y_buf s))) (y mod cap) = Some (append_rec r ts (y mod cap)).
Proof. intros. eapply (view_intact_on any); eauto. apply calm_any. eauto. Qed.

(** ** An epoch that is never retired *)

(** The previous epoch counts more references than there are threads using it. *)
Definition orphan s (e : nat) : Prop :=
  c_ep (y_prev s) = Some e /\ pins s e < c_ref (y_prev s).

Lemma orphan_stage : forall s st g e, inv s st g -> orphan s e ->
  g_prev g = Some (e, c_ref (y_prev s)) /\ e <> g_act g /\ adv s = VIdle /\
  match st with
  | StQuiet | StAlloc _ | StNext _ | StFlushed _ _ | StPub _ => True
  | _ => False
  end.
Proof.
  intros s st g e [_ IC IPI IH _ _ _] [O1 O2]. destruct (y_prev s) as [c k] eqn:Y. cbn in O1, O2. subst c.
  destruct IPI as (P1 & P2 & _).
  destruct (cells_prev _ _ _ _ _ IC Y) as [(-> & -> & G & _)|(G & _)].
  - rewrite G in P2. lia.
  - rewrite G in P2. split; auto. split; [tauto|]. destruct IH as ((h & _ & B) & _). destruct IC as [_ IC].
    destruct st; try (split; [apply B|auto]); rewrite Y in IC; destruct IC as (_ & IC1 & IC2); cbn in *; try congruence.
    all: destruct IC2; congruence.
Qed.

Lemma orphan_set : forall s s' t p q e, orphan s e -> nth_error (y_pcs s) t = Some p ->
  y_prev s' = y_prev s -> y_pcs s' = set_nth t q (y_pcs s) -> (pinned q = pinned p \/ pinned q <> Some e) -> orphan s' e.
Proof.
  intros s s' t p q e [O1 O2] N E1 E2 P. split; rewrite E1; auto.
  pose proof (pins_set s _ t p q e N E2) as Q. fold (pins s' e) in Q.
  assert (X : pin_eqb e q = true -> pin_eqb e p = true).
  { unfold pin_eqb. destruct P as [->|P]; auto. destruct (pinned q) as [z|]; try discriminate. intro Z.
    apply Nat.eqb_eq in Z. congruence. }
  destruct (pin_eqb e q); [rewrite X in Q by auto|destruct (pin_eqb e p)]; lia.
Qed.

Lemma orphan_run : forall s st g t p s' e, inv s st g -> y_stop s = None -> orphan s e ->
  nth_error (y_pcs s) t = Some p -> run s t p = Some s' -> y_stop s' = None -> orphan s' e.
Proof.
  intros s st g t p s' e I NS O N E NS'. destruct (orphan_stage _ _ _ _ I O) as (GP & NE & AV & ST).
  pose proof (stage_of hwm cap s st g t p I N) as PS.
  assert (SET : forall z, y_prev s' = y_prev s -> y_pcs s' = set_nth t z (y_pcs s) -> (pinned z = pinned p \/ pinned z <> Some e) -> orphan s' e)
    by (intros; eapply orphan_set; eauto).
  assert (BC : forall c z, bcall hwm cap s t c z = Some s' -> pinned z = pinned p \/ pinned z <> Some e -> orphan s' e).
  { intros c z B Z. unfold bcall in B. destruct (cexec (y_buf s) (Call t c)); inversion B; subst. apply (SET z); auto. }
  assert (BS : forall k, bstep hwm cap s t k = Some s' -> (forall bp z, k bp = Some z -> pinned z = pinned p) -> orphan s' e).
  { intros k B K. unfold bstep in B. destruct (cexec (y_buf s) (Step t)) as [c|]; [|discriminate].
    destruct (nth_error (cs_pcs c) t) as [bp|]; [|discriminate].
    destruct (k bp) as [z|] eqn:KZ; inversion B; subst s'; [apply (SET z); auto; left; eapply K; eauto|].
    destruct O; split; auto. }
  assert (CU : forall x r, y_cur s = Cell (Some x) r -> x <> e).
  { intros x r Q. destruct (cells_cur _ _ _ _ _ (i_cells _ _ _ _ _ I) Q) as (-> & _). auto. }
  destruct p; cbn [SysModel.run] in E; unfold deref, get_step, end_step in E; try discriminate.
  all: try (specialize (PS eq_refl); cbn in PS; try (destruct PS as (aa & PS)); try (destruct PS as (PS & PS')); subst st; contradiction).
  all: repeat match type of E with context[match ?x with _ => _ end] => destruct x eqn:?; try discriminate E end.
  all: try (eapply BC; eauto; cbn; auto; right; discriminate).
  all: try (eapply BS; eauto; intros bp z KZ; destruct bp; cbn in KZ; inversion KZ; subst; cbn; auto; fail).
  all: injection E as E; subst s'.
  all: try discriminate NS'.
  all: try (eapply SET; [reflexivity|reflexivity|]; cbn; auto; right; discriminate).
  all: try exact O.
  - pose proof (cell_eqb_eq _ _ Heqb) as Q. destruct O as [O1 O2]. rewrite Q in O1, O2. rewrite Heqo in O1. inversion O1; subst n.
    split; [auto|]. set (s' := go _ _ _).
    assert (PA := pins_add s s' t _ (got e w) e N eq_refl eq_refl).
    destruct (got_facts s w e st) as (_ & G2 & _). rewrite (PA G2 e), Nat.eqb_refl. cbn. lia.
  - pose proof (cell_eqb_eq _ _ Heqb) as Q. eapply SET; [reflexivity|reflexivity|].
    destruct (got_facts s w n st) as (_ & G2 & _). rewrite G2. right. intro X. inversion X; subst n.
    apply (CU e (c_ref old)); auto. rewrite Q. destruct old; cbn in *. congruence.
  - pose proof (cell_eqb_eq _ _ Heqb) as Q.
    destruct (bp_some hwm cap s st g t _ I N) as (bp & NB & PO & LK). cbn in PO. destruct PO as (PO1 & PO2 & PO3).
    destruct O as [O1 O2]. rewrite O1 in PO1. inversion PO1; subst e0. split; [auto|]. set (s' := go _ _ _).
    assert (PA := pins_drop s s' t _ (after f) e N eq_refl eq_refl).
    assert (G2 : pinned (after f) = None) by (destruct f; auto). specialize (PA G2 e). rewrite Nat.eqb_refl in PA.
    rewrite Q in O2. cbn [y_prev go w_prev c_ref s']. subst s'. lia.
  - eapply SET; [reflexivity|reflexivity|]. right. destruct f; discriminate.
  - destruct (bp_some hwm cap s st g t _ I N) as (bp & NB & PO & LK). cbn in PO. destruct PO as (PO1 & PO2).
    pose proof (cell_eqb_eq _ _ Heqb) as Q. destruct O as [O1 O2]. rewrite Q, PO2 in O2. cbn in O2. lia.
  - destruct O as [O1 O2]. split; [auto|]. unfold pins in *. cbn [y_pcs w_pcs y_prev].
    rewrite (countb_map _ (pin_eqb e) wake) by (intro q; unfold pin_eqb; destruct (wake_facts q) as (_ & ->); auto).
    pose proof (countb_set_nth (pin_eqb e) _ t _ DFlag N) as Q. cbn in Q. lia.
Qed.

Lemma orphan_step : forall s st g x s' e, inv s st g -> orphan s e -> sexec s x = Some s' ->
  hd s' = hd s /\ (y_stop s' = None -> orphan s' e).
Proof.
  intros s st g x s' e I O E. destruct (orphan_stage _ _ _ _ I O) as (GP & NE & AV & ST). split.
  - destruct (sexec_buf _ _ _ _ _ _ _ _ I E) as [->|(a & _ & X & _)]; auto.
    destruct a as [t c|t|m|]; cbn [BufConcModel.cexec] in X.
    + destruct (nth_error (bpcs s) t) as [bp|]; [|discriminate]. destruct (begin c bp); inversion X. auto.
    + destruct (nth_error (bpcs s) t) as [bp|] eqn:NB; [|discriminate].
      destruct (exec (cs_buf (y_buf s)) bp) as [[b' bp']|] eqn:B; [|discriminate]. inversion X as [X']. cbn.
      pose proof (i_j _ _ _ _ _ I) as J.
      apply (exec_J hwm cap _ _ _ _ B (j_pcs _ _ _ J _ (nth_error_In _ _ NB)) (j_le _ _ _ J) (j_cnt _ _ _ J)).
    + rewrite AV in X. inversion X. auto.
    + rewrite AV in X. discriminate.
  - intro NS'. unfold SysModel.sexec in E. destruct (y_stop s) eqn:NS; [discriminate|]. destruct x as [t c|t|t a|t].
    + destruct (nth_error (y_pcs s) t) as [[]|] eqn:N; try discriminate.
      destruct c; [| | |destruct (y_jobs s) eqn:J; [discriminate|]]; inversion E; subst;
        (eapply (orphan_set s); [exact O|exact N|reflexivity|reflexivity|right; discriminate]).
    + destruct (nth_error (y_pcs s) t) as [p|] eqn:N; [|discriminate]. eapply orphan_run; eauto.
    + destruct (nth_error (y_pcs s) t) as [[]|] eqn:N; try discriminate.
      destruct (y_heap s a) eqn:A; [discriminate|]. unfold deref in E. destruct (y_heap s e0); inversion E; subst; [|discriminate].
      eapply (orphan_set s); [exact O|exact N|reflexivity|reflexivity|left; reflexivity].
    + destruct (nth_error (y_pcs s) t) as [[]|] eqn:N; try discriminate; inversion E; subst;
      (eapply (orphan_set s); [exact O|exact N|reflexivity|reflexivity|right; discriminate]).
Qed.

(** C49: it stays, nothing is flushed any more, and the buffer fills up. *)
Theorem orphan_forever : forall ok n s e s', sreach ok (sys_init n) s -> y_stop s = None -> orphan s e ->
  sreach ok s s' -> hd s' = hd s /\ tail s' <= hd s + hwm /\ (y_stop s' = None -> orphan s' e).
Proof.
  intros ok n s e s' C NS O C'.
  assert (G : sreach ok (sys_init n) s' /\ hd s' = hd s /\ (y_stop s' = None -> orphan s' e)).
  { induction C' as [|s s1 x s2 C1 IH OK E]; [auto|]. destruct (IH C NS O) as (A & B & D).
    split; [econstructor; eauto|].
    destruct (sys_reach _ _ _ _ _ _ A) as [[[(st & g & I) NS1]|A1] _].
    - destruct (orphan_step _ _ _ _ _ _ I (D NS1) E). split; [congruence|auto].
    - unfold SysModel.sexec in E. rewrite A1 in E. discriminate. }
  destruct G as (A & B & D). split; auto. split; auto.
  destruct (sys_reach _ _ _ _ _ _ A) as [_ CR]. pose proof (j_cnt _ _ _ (j_reach _ _ _ _ _ CR)) as J. lia.
Qed.

(** ** Waiting for an epoch *)

(** Inside await_next_epoch. *)
Definition awaiting p : bool := match p with WLoad | WLock | WWait => true | _ => false end.

Lemma keep_other : forall s s' t u p q, t <> u -> nth_error (y_pcs s) u = Some p -> y_pcs s' = set_nth t q (y_pcs s) ->
  nth_error (y_pcs s') u = Some p.
Proof. intros s s' t u p q N E ->. rewrite nth_set_other; auto. Qed.

Lemma run_other : forall s t u p p' s', t <> u -> nth_error (y_pcs s) u = Some p' -> run s t p = Some s' ->
  nth_error (y_pcs s') u = Some p' \/ p = DNotify /\ nth_error (y_pcs s') u = Some (wake p').
Proof.
  intros s t u p p' s' NE NU E.
  assert (BC : forall c z, bcall hwm cap s t c z = Some s' -> nth_error (y_pcs s') u = Some p').
  { intros c z B. unfold bcall in B. destruct (cexec (y_buf s) (Call t c)); inversion B; subst; cbn. rewrite nth_set_other; auto. }
  assert (BS : forall k, bstep hwm cap s t k = Some s' -> nth_error (y_pcs s') u = Some p').
  { intros k B. unfold bstep in B. destruct (cexec (y_buf s) (Step t)) as [c|]; [|discriminate].
    destruct (nth_error (cs_pcs c) t) as [bp|]; [|discriminate]. destruct (k bp); inversion B; subst; cbn; auto. rewrite nth_set_other; auto. }
  destruct p; cbn [SysModel.run] in E; unfold deref, get_step, end_step in E; try discriminate.
  all: repeat match type of E with context[match ?x with _ => _ end] => destruct x eqn:?; try discriminate E end.
  all: try (left; eapply BC; eauto; fail); try (left; eapply BS; eauto; fail).
  all: injection E as E; subst s'.
  all: try (left; cbn; auto; rewrite nth_set_other; auto; fail).
  right. split; auto. cbn. rewrite nth_error_map, nth_set_other, NU; auto.
Qed.

(** C43: the call only returns after reading that there is no next epoch. *)
Theorem await_returns : forall s x s' t p q, sexec s x = Some s' -> nth_error (y_pcs s) t = Some p -> awaiting p = true ->
  nth_error (y_pcs s') t = Some q -> awaiting q = false -> c_ep (y_next s) = None.
Proof.
  intros s x s' t p q E N A N' A'.
  assert (OTH : forall u z, u <> t -> y_pcs s' = set_nth u z (y_pcs s) -> False).
  { intros u z U Z. rewrite (keep_other s s' u t p z) in N'; auto. inversion N'; subst. congruence. }
  unfold SysModel.sexec in E. destruct (y_stop s) eqn:NS; [discriminate|]. destruct x as [u c|u|u a|u].
  - destruct (nth_error (y_pcs s) u) as [[]|] eqn:NU; try discriminate. destruct (Nat.eq_dec u t) as [->|D].
    + rewrite N in NU. inversion NU; subst. discriminate.
    + destruct c; [| | |destruct (y_jobs s) eqn:J; [discriminate|]]; inversion E; subst; exfalso; eapply (OTH u); eauto; reflexivity.
  - destruct (nth_error (y_pcs s) u) as [z|] eqn:NU; [|discriminate]. destruct (Nat.eq_dec u t) as [->|D].
    + rewrite N in NU. inversion NU; subst z. destruct p; try discriminate; cbn [SysModel.run] in E; inversion E; subst; cbn in N';
        rewrite (nth_set_same _ _ _ _ N) in N'; inversion N'; subst; [|discriminate].
      destruct (c_ep (y_next s)); [discriminate|auto].
    + destruct (run_other _ _ _ _ _ _ D N E) as [Q|[_ Q]]; rewrite Q in N'; injection N' as <-; destruct p; discriminate.
  - destruct (nth_error (y_pcs s) u) as [[]|] eqn:NU; try discriminate. destruct (Nat.eq_dec u t) as [->|D].
    + rewrite N in NU. inversion NU; subst. discriminate.
    + destruct (y_heap s a); [discriminate|]. unfold deref in E. destruct (y_heap s e); inversion E; subst.
      * exfalso. eapply (OTH u); eauto. reflexivity.
      * cbn in N'. congruence.
  - destruct (nth_error (y_pcs s) u) as [[]|] eqn:NU; try discriminate; inversion E; subst; (destruct (Nat.eq_dec u t) as [->|D];
      [|exfalso; eapply (OTH u); eauto; reflexivity]).
    + rewrite N in NU. injection NU as ->. discriminate.
    + cbn in N'. rewrite (nth_set_same _ _ _ _ N) in N'. inversion N'; subst. discriminate.
Qed.

(** ... and a thread that waits when the notification is sent is woken up. *)
Theorem await_woken : forall s s' t u, sexec s (UStep u) = Some s' -> nth_error (y_pcs s) u = Some DNotify ->
  nth_error (y_pcs s) t = Some WWait -> nth_error (y_pcs s') t = Some WLoad.
Proof.
  intros s s' t u E NU NT. unfold SysModel.sexec in E. destruct (y_stop s); [discriminate|]. rewrite NU in E. cbn in E. inversion E; subst.
  cbn. rewrite nth_error_map, nth_set_other, NT; auto. intros ->. congruence.
Qed.

(** ** Concrete schedules *)

Definition calmb s (x : sact R) : bool :=
  match x with
  | UStep t =>
      match nth_error (y_pcs s) t, nth_error (bpcs s) t with
      | Some (RHold _), Some (GTail _) => match in_flight (y_buf s) with [] => true | _ => false end
      | _, _ => true
      end
  | _ => true
  end.

Lemma calmb_ok : forall s x, calmb s x = true -> calm s x.
Proof.
  intros s [t c|t|t a|t] H; cbn in *; auto. destruct (nth_error (y_pcs s) t) as [[]|]; auto.
  destruct (nth_error (bpcs s) t) as [[]|]; auto. destruct (in_flight (y_buf s)); [auto|discriminate].
Qed.

Definition calm_onb (f : nat -> bool) s (x : sact R) : bool :=
  match x with
  | UStep t =>
      match nth_error (y_pcs s) t, nth_error (bpcs s) t with
      | Some (RHold _), Some (GTail _) => forallb (fun y => negb (f (y mod cap))) (in_flight (y_buf s))
      | _, _ => true
      end
  | _ => true
  end.

Lemma calm_onb_ok : forall f s x, calm_onb f s x = true -> calm_on cap (fun i => f i = true) s x.
Proof.
  intros f s [t c|t|t a|t] H; cbn in *; auto. destruct (nth_error (y_pcs s) t) as [[]|]; auto.
  destruct (nth_error (bpcs s) t) as [[]|]; auto. intros y I Q. rewrite forallb_forall in H. specialize (H _ I).
  rewrite Q in H. discriminate.
Qed.

Definition stillb s (x : sact R) : bool :=
  match x with
  | UStep t =>
      match nth_error (y_pcs s) t, nth_error (bpcs s) t with
      | Some (RHold _), Some (GTail _) | Some (JHold _ _ _ _), Some (GTail _) =>
          match in_flight (y_buf s) with [] => true | _ => false end
      | _, _ => true
      end
  | _ => true
  end.

Lemma stillb_ok : forall s x, stillb s x = true -> still s x.
Proof.
  intros s [t c|t|t a|t] H; cbn in *; auto. destruct (nth_error (y_pcs s) t) as [[]|]; auto;
  destruct (nth_error (bpcs s) t) as [[]|]; auto; destruct (in_flight (y_buf s)); auto; discriminate.
Qed.

Fixpoint schecked (chk : sys R -> sact R -> bool) (s : sys R) (l : list (sact R)) : option (sys R) :=
  match l with
  | [] => Some s
  | x :: l' => if chk s x then match sexec s x with Some s' => schecked chk s' l' | None => None end else None
  end.

Lemma schecked_reach : forall chk (ok : sys R -> sact R -> Prop), (forall s x, chk s x = true -> ok s x) ->
  forall l s s', schecked chk s l = Some s' -> sreach ok s s'.
Proof.
  intros chk ok H l. assert (G : forall l s0 s s', sreach ok s0 s -> schecked chk s l = Some s' -> sreach ok s0 s').
  { clear l. induction l as [|x l IH]; intros s0 s s' C E; cbn in E; [inversion E; subst; auto|].
    destruct (chk s x) eqn:K; [|discriminate]. destruct (sexec s x) as [s1|] eqn:X; [|discriminate].
    eapply IH; [|exact E]. econstructor; eauto. }
  intros s s' E. eapply G; eauto. constructor.
Qed.

Lemma schecked_any : forall l s s', schecked (fun _ _ => true) s l = Some s' -> sreach anyact s s'.
Proof. intros l s s'. apply schecked_reach. intros. exact Logic.I. Qed.
Lemma schecked_calm : forall l s s', schecked calmb s l = Some s' -> sreach calm s s'.
Proof. intros l s s'. apply schecked_reach. apply calmb_ok. Qed.
Lemma schecked_still : forall l s s', schecked stillb s l = Some s' -> sreach still s s'.
Proof. intros l s s'. apply schecked_reach. apply stillb_ok. Qed.

Definition plainb s (x : sact R) : bool := match x with UCall _ (UInsert _ ts) => negb ts | _ => true end.

Lemma schecked_on : forall f l s s', schecked (fun s x => calm_onb f s x && plainb s x) s l = Some s' ->
  sreach (fun s x => calm_on cap (fun i => f i = true) s x /\ plain_act s x) s s'.
Proof.
  intros f l s s'. apply schecked_reach. intros s0 x H. apply andb_true_iff in H as [H1 H2]. split; [apply calm_onb_ok; auto|].
  destruct x as [t []| | |]; cbn in *; auto. destruct ts; auto; discriminate.
Qed.

End ST.

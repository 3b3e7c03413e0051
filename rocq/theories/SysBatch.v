(** The sizes of the flushes that an epoch consists of, in any execution. *)
From Coq Require Import List Arith ZArith NArith Lia Bool Permutation.
From Verif Require Import Base ListLemmas RecordModel BufferModel BufConcModel BufConcProofs BufConcView BufConcData FlushModel FlushSpec
  SysModel SysInv SysSteps SysRun SysMain SysCalm SysContent.
Import ListNotations.

Section SB.
Context {R : Type} {RO : RecOps R}.
Variables lwm hwm cap : nat.
Notation exec := (exec hwm cap).
Notation cexec := (cexec hwm cap).
Notation sexec := (sexec lwm hwm cap).
Notation run := (run lwm hwm cap).
Notation inv := (inv hwm cap).
Notation hd s := (hidx (cb_head (cs_buf (y_buf s)))).
Notation adv s := (cs_adv (y_buf s)).
Notation bpcs s := (cs_pcs (y_buf s)).
Notation sized := (Forall (run_size (R := R) hwm)).
Implicit Types (s : sys R) (p q z : spc R).

(** The last flush may be empty until the buffer head has been advanced. *)
Definition pend s (e : nat) (x : epoch R) : Prop :=
  c_ep (y_next s) = Some e /\ (forall m c, adv s <> VOld m c) /\
  exists p n bs r, In p (y_pcs s) /\ flushed p = Some n /\ e_runs x = bs ++ [r] /\ sized bs /\
    n = hd s + length r /\ length r <= hwm.

Definition pc_runs s p : Prop :=
  match p with
  | JView _ _ _ pre | JHold _ _ _ pre | JRead _ _ _ pre _ _ _ => sized pre
  | RRead a h tl acc => h + length acc <= tl <= h + hwm
  | RFlush a tl acc => headof s a = Some (tl - length acc) /\ length acc <= tl /\ length acc <= hwm
  | _ => True
  end.

Record binv s : Prop := {
  b_heap : forall e x, y_heap s e = Some x -> sized (e_runs x) \/ pend s e x;
  b_pcs : forall p, In p (y_pcs s) -> pc_runs s p;
  b_ans : forall seen runs buf, In (AList seen runs buf) (y_ans s) -> sized runs
}.

(** No job can see the epoch with the pending flush. *)
Lemma pend_hidden : forall s st g e x, inv s st g -> pend s e x -> ~ active g e.
Proof.
  intros s st g e x I (NX & _ & p & n & bs & r & P & F & _) A.
  assert (RP : recon p = true) by (destruct p; try discriminate; auto).
  apply In_nth_error in P as [t N]. pose proof (stage_of _ _ _ _ _ _ _ I N RP) as ST.
  pose proof (i_heads _ _ _ _ _ I) as (_ & _ & C & _). pose proof (i_cells _ _ _ _ _ I) as [C0 _]. rewrite C0 in NX. cbn in NX.
  assert (X : st_new st = Some e).
  { destruct p; try discriminate; cbn in ST; try (destruct ST as [a ST]); subst st; auto. }
  destruct (C e X) as (C1 & C2 & _). destruct A as [->|(q & Q)]; [auto|eapply C2; eauto].
Qed.

Lemma pinned_sized : forall s st g t p e x, inv s st g -> binv s -> nth_error (y_pcs s) t = Some p -> pinned p = Some e ->
  y_heap s e = Some x -> sized (e_runs x).
Proof.
  intros s st g t p e x I B N P X. destruct (b_heap _ B _ _ X) as [F|F]; auto. exfalso.
  eapply (pend_hidden s st g e x); eauto.
  destruct (pinned_active _ _ _ _ _ (i_pins _ _ _ _ _ I) N P) as (_ & [->|(q & Q & _)]); [left|right]; eauto.
Qed.

(** ** Steps *)

Lemma pend_keep : forall s s' t p q e x, nth_error (y_pcs s) t = Some p -> y_pcs s' = set_nth t q (y_pcs s) ->
  flushed q = flushed p -> c_ep (y_next s') = c_ep (y_next s) -> hd s' = hd s ->
  ((forall m c, adv s <> VOld m c) -> forall m c, adv s' <> VOld m c) -> pend s e x -> pend s' e x.
Proof.
  intros s s' t p q e x N E F NX HD AD (P1 & P2 & z & n & bs & r & Z & P3 & P4).
  split; [congruence|]. split; auto. rewrite HD, E. apply In_nth_error in Z as [u U]. destruct (Nat.eq_dec u t) as [->|NE].
  - exists q, n, bs, r. rewrite N in U. inversion U; subst z. rewrite F. split; auto. apply nth_error_In with t. eapply nth_set_same; eauto.
  - exists z, n, bs, r. split; auto. apply nth_error_In with u. rewrite nth_set_other; auto.
Qed.

Lemma no_pend : forall s st g t p e x, inv s st g -> nth_error (y_pcs s) t = Some p -> recon p = true -> flushed p = None ->
  ~ pend s e x.
Proof.
  intros s st g t p e x I N RP F (_ & _ & z & n & _ & _ & Z & P3 & _).
  rewrite (alone hwm cap _ _ _ _ _ _ _ I N RP Z P3) in P3. congruence.
Qed.

(** No epoch changes. *)
Lemma frame_b : forall s s' t p q, binv s -> nth_error (y_pcs s) t = Some p -> y_pcs s' = set_nth t q (y_pcs s) ->
  y_heap s' = y_heap s ->
  ((forall e x, ~ pend s e x) \/
   flushed q = flushed p /\ c_ep (y_next s') = c_ep (y_next s) /\ hd s' = hd s /\
   ((forall m c, adv s <> VOld m c) -> forall m c, adv s' <> VOld m c)) ->
  pc_runs s' q -> (forall seen runs buf, In (AList seen runs buf) (y_ans s') -> sized runs) -> binv s'.
Proof.
  intros s s' t p q B N E H C PQ A. constructor; auto.
  - intros e x X. rewrite H in X. destruct (b_heap _ B _ _ X) as [F|F]; auto.
    destruct C as [C|(C1 & C2 & C3 & C4)]; [exfalso; eapply C; eauto|]. right. eapply pend_keep; eauto.
  - intros z Z. rewrite E in Z. apply in_set_nth_other in Z as [->|(u & _ & U)]; auto.
    apply nth_error_In in U. pose proof (b_pcs _ B _ U) as P. destruct z; auto. cbn in *. unfold headof in *. rewrite H. auto.
Qed.

(** The reconstruction changes the epoch [a], or removes it. *)
Lemma wild_b : forall s s' st g t p q a y, inv s st g -> binv s -> nth_error (y_pcs s) t = Some p -> recon p = true ->
  y_pcs s' = set_nth t q (y_pcs s) -> y_heap s' = upd (y_heap s) a y -> y_ans s' = y_ans s ->
  (forall e x, e <> a -> pend s e x -> pend s' e x) ->
  (forall x, y = Some x -> sized (e_runs x) \/ pend s' a x) -> pc_runs s' q -> binv s'.
Proof.
  intros s s' st g t p q a y I B N RP E H A PE PA PQ. constructor.
  - intros e x X. rewrite H in X. unfold upd in X. destruct (Nat.eqb_spec e a) as [->|NE]; auto.
    destruct (b_heap _ B _ _ X); auto.
  - intros z Z. rewrite E in Z. apply in_set_nth_other in Z as [->|(u & NE & U)]; auto.
    pose proof (recon_other _ _ _ _ _ _ (i_own _ _ _ _ _ I) N RP U NE). pose proof (b_pcs _ B _ (nth_error_In _ _ U)) as P.
    destruct z; auto; discriminate.
  - rewrite A. apply (b_ans _ B).
Qed.

Lemma halt_b : forall s f, binv s -> binv (halt s f).
Proof. intros s f B. constructor; apply B. Qed.

Lemma step_buf : forall s st g t b, inv s st g -> cexec (y_buf s) (Step t) = Some b ->
  hidx (cb_head (cs_buf b)) = hd s /\ cs_adv b = adv s.
Proof.
  intros s st g t b I E. cbn in E. destruct (nth_error (bpcs s) t) as [bp|] eqn:NB; [|discriminate].
  destruct (exec (cs_buf (y_buf s)) bp) as [[b' bp']|] eqn:X; [|discriminate]. inversion E; subst; cbn. split; auto.
  assert (J := i_j _ _ _ _ _ I). apply (exec_J hwm cap _ _ _ _ X); try apply J. eapply nth_error_In; eauto.
Qed.

Lemma bstep_b : forall s st g t k p s', inv s st g -> binv s -> nth_error (y_pcs s) t = Some p -> bstep hwm cap s t k = Some s' ->
  (forall bp q, k bp = Some q -> nth_error (bpcs s') t = Some bp -> flushed q = flushed p /\ pc_runs s' q) -> pc_runs s' p -> binv s'.
Proof.
  intros s st g t k p s' I B N E K PP. unfold bstep in E. destruct (cexec (y_buf s) (Step t)) as [b|] eqn:X; [|discriminate].
  destruct (step_buf _ _ _ _ _ I X) as [X1 X2]. destruct (nth_error (cs_pcs b) t) as [bp|] eqn:NB; [|discriminate].
  destruct (k bp) as [q|] eqn:KQ; inversion E; subst s'; cbn [y_buf go w_buf] in K.
  - destruct (K _ _ KQ NB) as [K1 K2]. eapply (frame_b s _ t p q); eauto; [|apply B]. right. cbn. rewrite X1, X2. auto.
  - eapply (frame_b s _ t p p); eauto; [|right; cbn; rewrite X1, X2; auto|apply B].
    cbn. symmetry. apply set_nth_id. auto.
Qed.

Lemma bcall_b : forall s t c p q s', binv s -> nth_error (y_pcs s) t = Some p -> bcall hwm cap s t c q = Some s' ->
  flushed q = flushed p -> (forall s1, y_heap s1 = y_heap s -> pc_runs s1 q) -> binv s'.
Proof.
  intros s t c p q s' B N E F P. unfold bcall in E. destruct (cexec (y_buf s) (Call t c)) as [b|] eqn:X; [|discriminate].
  inversion E; subst s'. cbn in X. destruct (nth_error (bpcs s) t) as [bp|]; [|discriminate].
  destruct (begin c bp); [|discriminate]. inversion X; subst b.
  eapply (frame_b s _ t p q); eauto; try (apply P; reflexivity). apply B.
Qed.

(** advance_head: the head moves past the flushed records, of which there is one. *)
Lemma dadvw_b : forall s st g t n s', inv s st g -> binv s -> nth_error (y_pcs s) t = Some (@DAdvW R n) ->
  run s t (DAdvW n) = Some s' -> binv s'.
Proof.
  intros s st g t n s' I B N E. cbn [SysModel.run] in E. destruct (cexec (y_buf s) AdvStep) as [b|] eqn:X; [|discriminate].
  pose proof (stage_of _ _ _ _ _ _ _ I N eq_refl) as ST. cbn in ST. destruct ST as [a ->].
  pose proof (i_heads _ _ _ _ _ I) as ((h & A1 & A2) & _). pose proof (j_adv _ _ _ (i_j _ _ _ _ _ I)) as AJ.
  cbn in X. destruct (vexec (cs_buf (y_buf s)) (adv s)) as [[b' v']|] eqn:V; [|discriminate]. inversion X as [X2]. clear X.
  assert (SAME : w_buf s b = go (w_buf s b) t (DAdvW n)) by (unfold go, w_buf; cbn; rewrite set_nth_id; auto).
  assert (KEEP : forall q, flushed q = Some n -> pc_runs (go (w_buf s b) t q) q -> hidx (cb_head b') = hd s ->
    (forall m c, v' <> VOld m c) -> binv (go (w_buf s b) t q)).
  { intros q F P H W. eapply (frame_b s _ t _ q); eauto; [|apply B]. right. cbn. rewrite <- X2. cbn. auto. }
  assert (FINE : forall q, pc_runs (go (w_buf s b) t q) q -> (forall e x, y_heap s e = Some x -> sized (e_runs x)) ->
    binv (go (w_buf s b) t q)).
  { intros q P H. constructor.
    - intros e x HX. left. eapply H; eauto.
    - intros z Z. cbn in Z. apply in_set_nth_other in Z as [->|(u & NE & U)]; auto.
      pose proof (recon_other _ _ _ _ _ _ (i_own _ _ _ _ _ I) N eq_refl U NE). pose proof (b_pcs _ B _ (nth_error_In _ _ U)) as PZ.
      destruct z; auto; discriminate.
    - apply B. }
  rewrite <- X2 in E. cbn [cs_adv] in E. rewrite X2 in E. injection E as <-.
  destruct (adv s) eqn:AD; cbn [vexec] in V; try discriminate; cbn in A2, AJ.
  - destruct (hidx _ <? _); inversion V; subst b' v'; [rewrite SAME; apply KEEP; cbn; auto; discriminate|].
    apply halt_b. rewrite SAME. apply KEEP; cbn; auto; discriminate.
  - destruct (_ <=? _); inversion V; subst b' v'; [rewrite SAME; apply KEEP; cbn; auto; discriminate|].
    apply halt_b. rewrite SAME. apply KEEP; cbn; auto; discriminate.
  - destruct (0 <? _); inversion V; subst b' v'; [|rewrite SAME]; apply KEEP; cbn; auto; discriminate.
  - inversion V; subst b' v'. rewrite SAME. apply KEEP; cbn; auto; discriminate.
  - destruct (head_eqb _ _) eqn:F; inversion V; subst b' v'; rewrite SAME; [|apply KEEP; cbn; auto; discriminate].
    destruct A2 as [-> A2]. apply FINE; cbn; auto. intros e x HX. destruct (b_heap _ B _ _ HX) as [G|G]; auto.
    destruct G as (_ & _ & z & m & bs & r & Z & FZ & -> & SB & M & L).
    rewrite (alone hwm cap _ _ _ _ _ _ _ I N eq_refl Z FZ) in FZ. cbn in FZ. inversion FZ; subst m.
    apply Forall_app. split; auto. constructor; auto. split; lia.
  - inversion V; subst b' v'. apply FINE; cbn; auto. intros e x HX. destruct (b_heap _ B _ _ HX) as [G|G]; auto.
    destruct G as (_ & W & _). exfalso. eapply W; eauto.
Qed.

Lemma run_b : forall s st g t p s', inv s st g -> binv s -> nth_error (y_pcs s) t = Some p -> run s t p = Some s' -> binv s'.
Proof.
  intros s st g t p s' I B N E. pose proof (b_pcs _ B _ (nth_error_In _ _ N)) as PF.
  destruct (bp_some _ _ _ _ _ _ _ I N) as (bp & NB & PO & LK).
  pose proof (fun e x => pinned_sized s st g t p e x I B N) as PS.
  assert (ST : recon p = true -> pc_stage p st) by (eapply stage_of; eauto).
  assert (SET : forall s1 q, y_buf s1 = y_buf s -> y_heap s1 = y_heap s -> y_pcs s1 = set_nth t q (y_pcs s) ->
    y_ans s1 = y_ans s -> c_ep (y_next s1) = c_ep (y_next s) -> flushed q = flushed p -> pc_runs s1 q -> binv s1).
  { intros s1 q E1 E2 E3 E4 E5 E6 E7. eapply (frame_b s s1 t p q); eauto; [|rewrite E4; apply B].
    right. rewrite E1. auto. }
  assert (ANS : forall q seen runs buf, flushed q = flushed p -> (forall s1, pc_runs s1 q) -> sized runs ->
    binv (go (w_ans s (AList seen runs buf)) t q)).
  { intros q seen runs buf F P S. eapply (frame_b s _ t p q); eauto.
    intros s1 r1 b1 [A|A]; [inversion A; subst; auto|apply (b_ans _ B _ _ _ A)]. }
  assert (NP : recon p = true -> flushed p = None -> forall e x, ~ pend s e x) by (intros; eapply no_pend; eauto).
  assert (BI : forall q, bstep hwm cap s t (on_idle q) = Some s' -> flushed q = flushed p -> (forall s1, pc_runs s1 q) ->
    (forall s1, pc_runs s1 p) -> binv s').
  { intros q BS F P P'. eapply bstep_b; eauto. intros b1 q1 K1 _. destruct b1; inversion K1; subst; auto. }
  destruct p; cbn [SysModel.run] in E; unfold deref in E; try discriminate.
  - injection E as <-. unfold get_step. destruct g0.
    1,2,4: eapply SET; try reflexivity; cbn; auto.
    + destruct (cell_eqb _ _); [destruct (c_ep old)|]; eapply SET; try reflexivity; try (cbn; auto; fail);
        destruct w as [[]|]; cbn; auto; constructor.
    + destruct (cell_eqb _ _); [destruct (c_ep old)|]; eapply SET; try reflexivity; try (cbn; auto; fail);
        destruct w as [[]|]; cbn; auto; constructor.
  - injection E as <-. unfold end_step. destruct j.
    + eapply SET; try reflexivity; cbn; auto.
    + destruct (c_ep (y_prev s)); [destruct (_ =? _); [apply halt_b; auto|]|]; eapply SET; try reflexivity; cbn; auto.
    + destruct (cell_eqb _ _); eapply SET; try reflexivity; try (cbn; auto; fail); destruct f; cbn; auto.
    + destruct (c_ep (y_cur s)); [destruct (_ =? _); [apply halt_b; auto|]|]; eapply SET; try reflexivity; cbn; auto.
    + destruct (cell_eqb _ _); eapply SET; try reflexivity; try (cbn; auto; fail); destruct f; cbn; auto.
  - destruct (y_heap s e) as [x|] eqn:X; injection E as <-; [|apply halt_b; auto].
    eapply SET; try reflexivity. cbn. eapply PS; [reflexivity|eauto].
  - destruct (y_heap s e) as [x|] eqn:X; [|injection E as <-; apply halt_b; auto]. eapply bcall_b; eauto.
  - eapply bstep_b; eauto. intros b1 q1 K1 _. destruct b1; inversion K1; subst. split; auto.
  - destruct k.
    + destruct (_ <? _); injection E as <-; eapply SET; try reflexivity; cbn; auto.
    + injection E as <-; eapply SET; try reflexivity; cbn; auto.
    + destruct (_ <? _); injection E as <-; [eapply SET; try reflexivity; cbn; auto|]. apply ANS; cbn; auto.
    + injection E as <-; eapply SET; try reflexivity; cbn; auto.
  - destruct (y_heap s e) as [x|] eqn:X; injection E as <-; [|apply halt_b; auto]. destruct k.
    + apply ANS; cbn; auto. eapply PS; [reflexivity|eauto].
    + eapply (frame_b s _ t _ (JRel e)); eauto; try exact Logic.I.
      intros s1 r1 b1 [A|A]; [inversion A|apply (b_ans _ B _ _ _ A)].
    + apply ANS; cbn; auto. eapply PS; [reflexivity|eauto].
    + eapply SET; try reflexivity; cbn; auto.
  - eapply bcall_b; eauto; cbn; auto.
  - eapply BI; eauto; cbn; auto.
  - eapply bcall_b; eauto; cbn; auto.
  - eapply BI; eauto; cbn; auto.
  - injection E as <-; eapply SET; try reflexivity; cbn; auto.
  - injection E as <-; eapply SET; try reflexivity; destruct (_ || _); cbn; auto.
  - injection E as <-; eapply SET; try reflexivity; destruct (_ || _); cbn; auto.
  - destruct (y_flag s); injection E as <-; eapply SET; try reflexivity; cbn; auto.
  - eapply bcall_b; eauto; cbn; auto.
  - eapply BI; eauto; cbn; auto.
  - destruct (c_ep (y_next s)) eqn:NX; injection E as <-; [apply halt_b; auto|eapply SET; try reflexivity; cbn; auto].
  - injection E as <-. eapply (frame_b s _ t _ (SEnd ELoad e (ToNew r ts))); eauto; try exact Logic.I. apply B.
  - destruct (c_ep (y_next s)) eqn:NX; injection E as <-; [eapply SET; try reflexivity; cbn; auto|apply halt_b; auto].
  - destruct (y_heap s a); injection E as <-; [eapply SET; try reflexivity; cbn; auto|apply halt_b; auto].
  - destruct (y_heap s a); [|injection E as <-; apply halt_b; auto]. eapply bcall_b; eauto; cbn; auto.
  - (* the view *)
    eapply bstep_b; eauto. intros b1 q1 K1 NB1. destruct b1; inversion K1; subst. split; auto. cbn.
    specialize (ST eq_refl). cbn in ST. subst st. pose proof (i_heads _ _ _ _ _ I) as (_ & _ & C & _).
    destruct (C a eq_refl) as (_ & _ & C3). cbn in LK. destruct LK as (u & LK & HU). rewrite C3 in HU. inversion HU; subst u.
    unfold bstep in E. destruct (BufConcModel.cexec hwm cap (y_buf s) (Step t)) as [b|] eqn:X; [|discriminate].
    assert (EB : y_buf s' = b).
    { destruct (nth_error (cs_pcs b) t) as [b2|]; [|discriminate]. destruct (on_hold _ b2); inversion E; auto. }
    rewrite EB in NB1. pose proof X as X'. cbn in X'. rewrite NB in X'.
    destruct (exec (cs_buf (y_buf s)) bp) as [[c' bp']|] eqn:EX; [|discriminate]. inversion X' as [X2].
    rewrite <- X2 in NB1. cbn in NB1. rewrite (nth_set_same _ _ _ _ NB) in NB1. inversion NB1; subst bp'.
    destruct (exec_hold _ _ _ _ _ _ _ EX) as (EX1 & -> & ->). destruct LK as [LK|LK]; [rewrite EX1 in LK; discriminate|].
    assert (h = hd s) by congruence. subst h.
    pose proof (j_le _ _ _ (i_j _ _ _ _ _ I)). pose proof (j_cnt _ _ _ (i_j _ _ _ _ _ I)). cbn. lia.
  - cbn in PF, LK. destruct LK as [-> LK]. destruct (Nat.ltb_spec (h + length acc) tl) as [L|L]; injection E as <-; eapply SET; try reflexivity; cbn.
    + rewrite app_length. cbn. lia.
    + change (headof s a = Some (tl - length acc) /\ length acc <= tl /\ length acc <= hwm).
      replace (tl - length acc) with h by lia. split; auto. lia.
  - (* the flush *)
    destruct (y_heap s a) as [x|] eqn:X; injection E as <-; [|apply halt_b; auto]. cbn in PF. destruct PF as (P1 & P2 & P3).
    specialize (ST eq_refl). cbn in ST. subst st. pose proof (i_heads _ _ _ _ _ I) as ((h & A1 & A2) & _ & C & _).
    destruct (C a eq_refl) as (_ & _ & C3). pose proof (i_cells _ _ _ _ _ I) as [C0 _].
    eapply (wild_b s _ _ g t _ (RRel a tl) a); eauto; try reflexivity.
    + intros e y NE P. exfalso. eapply NP; eauto.
    + intros y Y. inversion Y; subst y. right. split; [cbn; rewrite C0; auto|]. split; [cbn; destruct A2 as [A2 _]; rewrite A2; discriminate|].
      exists (RRel a tl), tl, (e_runs x), acc. split; [|repeat split; auto].
      * cbn. apply nth_error_In with t. eapply nth_set_same; eauto.
      * destruct (b_heap _ B _ _ X) as [F|F]; auto. exfalso. eapply NP; eauto.
      * cbn. rewrite C3 in P1. inversion P1. lia.
  - eapply bcall_b; eauto; cbn; auto.
  - eapply BI; eauto; cbn; auto.
  - injection E as <-; eapply SET; try reflexivity; destruct (c_ep (y_prev s)); cbn; auto.
  - injection E as <-. destruct (_ && _); [eapply SET; try reflexivity; cbn; auto|auto].
  - injection E as <-. destruct (cell_eqb _ _); eapply SET; try reflexivity; cbn; auto.
  - destruct (y_heap s p) as [x|] eqn:X; injection E as <-; [|apply halt_b; auto].
    eapply (wild_b s _ _ g t _ (DCur n) p None); eauto; try reflexivity; [|discriminate].
    intros e y NE P. eapply (pend_keep s _ t _ (DCur n)); eauto.
  - injection E as <-; eapply SET; try reflexivity; cbn; auto.
  - injection E as <-. destruct (cell_eqb _ _); eapply SET; try reflexivity; cbn; auto.
  - injection E as <-; eapply SET; try reflexivity; cbn; auto.
  - destruct (c_ep (y_next s)) as [a|] eqn:NX; [|injection E as <-; apply halt_b; auto].
    destruct (y_heap s a) as [x|] eqn:X; [|injection E as <-; apply halt_b; auto].
    destruct (BufConcModel.cexec hwm cap (y_buf s) (Advance n)) as [b|] eqn:Y; [|discriminate E]. injection E as <-.
    cbn in PO. cbn in Y. rewrite PO in Y. inversion Y as [Y2].
    assert (PK : forall e y, pend s e y -> pend (go (w_heap (w_buf s b) (upd (y_heap s) a (Some (Ep (e_runs x) n)))) t (DAdvW n)) e y).
    { intros e y P. eapply (pend_keep s _ t _ (DAdvW n)); eauto; try reflexivity; [cbn; rewrite <- Y2; auto|].
      cbn. rewrite <- Y2. cbn. intros _. discriminate. }
    rewrite Y2 in *.
    eapply (wild_b s _ _ g t _ (DAdvW n) a); eauto; try reflexivity; try exact Logic.I.
    intros y YY. inversion YY; subst y. destruct (b_heap _ B _ _ X) as [F|F]; auto.
  - eapply dadvw_b; eauto.
  - injection E as <-; eapply SET; try reflexivity; cbn; auto.
  - injection E as <-; eapply SET; try reflexivity; cbn; auto.
  - injection E as <-. eapply (frame_b s _ t _ DNotify); eauto; try exact Logic.I. apply B.
  - injection E as <-. constructor.
    + intros e x X. destruct (b_heap _ B _ _ X) as [F|F]; auto. exfalso. eapply NP; eauto.
    + intros z Z. cbn in Z. apply in_map_iff in Z as (y & <- & Y). apply in_set_nth_other in Y as [->|(u & _ & W)]; [exact Logic.I|].
      pose proof (b_pcs _ B y (nth_error_In _ _ W)) as P. destruct y; exact P.
    + apply B.
  - injection E as <-; eapply SET; try reflexivity; cbn; auto.
  - injection E as <-; eapply SET; try reflexivity; destruct (c_ep (y_next s)); cbn; auto.
  - injection E as <-; eapply SET; try reflexivity; cbn; auto.
Qed.

Lemma exec_b : forall s st g x s', inv s st g -> binv s -> sexec s x = Some s' -> binv s'.
Proof.
  intros s st g x s' I B E. unfold SysModel.sexec in E. destruct (y_stop s) eqn:NS; [discriminate|].
  assert (SET : forall t p s1 q, nth_error (y_pcs s) t = Some p -> y_buf s1 = y_buf s -> y_heap s1 = y_heap s -> y_pcs s1 = set_nth t q (y_pcs s) ->
    y_ans s1 = y_ans s -> c_ep (y_next s1) = c_ep (y_next s) -> flushed q = flushed p -> pc_runs s1 q -> binv s1).
  { intros t p s1 q N E1 E2 E3 E4 E5 E6 E7. eapply (frame_b s s1 t p q); eauto; [|rewrite E4; apply B].
    right. rewrite E1. auto. }
  destruct x as [t c|t|t a|t].
  - destruct (nth_error (y_pcs s) t) as [[]|] eqn:N; try discriminate.
    destruct c; [| | |destruct (y_jobs s) as [|a js] eqn:J; [discriminate|]]; injection E as <-; (eapply SET; [exact N|reflexivity..|exact Logic.I]).
  - destruct (nth_error (y_pcs s) t) as [p|] eqn:N; [|discriminate]. eapply run_b; eauto.
  - destruct (nth_error (y_pcs s) t) as [[]|] eqn:N; try discriminate.
    destruct (y_heap s a) eqn:A; [discriminate|]. unfold deref in E.
    destruct (y_heap s e) as [x|] eqn:X; injection E as <-; [|apply halt_b; auto].
    eapply (wild_b s _ _ g t _ (NStore e a r ts) a); eauto; try reflexivity.
    + intros c y NE P. exfalso. eapply (no_pend s st g t); eauto; reflexivity.
    + intros y Y. inversion Y; subst y. left. cbn. eapply (pinned_sized s st g t); eauto. reflexivity.
  - destruct (nth_error (y_pcs s) t) as [[]|] eqn:N; try discriminate; injection E as <-; (eapply SET; [exact N|reflexivity..|exact Logic.I]).
Qed.

Lemma init_b : forall n, binv (sys_init hwm cap n).
Proof.
  intro n. constructor.
  - intros e x X. cbn in X. destruct (e =? 0); inversion X; subst. left. constructor.
  - intros p P. apply repeat_spec in P. subst. exact Logic.I.
  - contradiction.
Qed.

Lemma binv_reach : forall ok n s, sreach lwm hwm cap ok (sys_init hwm cap n) s -> binv s.
Proof.
  intros ok n s C. remember (sys_init hwm cap n) as s0. induction C; subst; [apply init_b|].
  destruct (sys_reach _ _ _ _ _ _ C) as [[[(st & g & I) NS]|AF] _].
  - eapply exec_b; eauto.
  - unfold SysModel.sexec in H0. rewrite AF in H0. discriminate.
Qed.

(** The epochs that jobs use consist of flushes of one to [hwm] records. *)
Theorem pinned_runs : forall ok n s t p e x, sreach lwm hwm cap ok (sys_init hwm cap n) s -> y_stop s = None ->
  nth_error (y_pcs s) t = Some p -> pinned p = Some e -> y_heap s e = Some x -> sized (e_runs x).
Proof.
  intros ok n s t p e x C NS N P X. destruct (sys_reach _ _ _ _ _ _ C) as [[[(st & g & I) _]|AF] _]; [|congruence].
  eapply pinned_sized; eauto. eapply binv_reach; eauto.
Qed.

(** ... and so do the answers. *)
Theorem answer_runs : forall ok n s seen runs buf, sreach lwm hwm cap ok (sys_init hwm cap n) s ->
  In (AList seen runs buf) (y_ans s) -> sized runs.
Proof. intros ok n s seen runs buf C. apply (b_ans _ (binv_reach _ _ _ C)). Qed.

End SB.

(** Calm executions: every answer contains what was acknowledged before the call. *)
From Coq Require Import List Arith ZArith NArith Lia Bool Permutation.
From Verif Require Import Base ListLemmas RecordModel BufferModel BufConcModel BufConcProofs BufConcView BufConcData SysModel SysInv
  SysSteps SysRun SysMain SysCalm SysContent.
Import ListNotations.

Section SS.
Context {R : Type} {RO : RecOps R}.
Variables lwm hwm cap : nat.
Hypothesis HW : 0 < hwm.
Hypothesis C2 : 2 * hwm <= cap.
Variable SL : nat -> Prop.
Notation exec := (exec hwm cap).
Notation cexec := (cexec hwm cap).
Notation sexec := (sexec lwm hwm cap).
Notation run := (run lwm hwm cap).
Notation inv := (inv hwm cap).
Notation jinv := (jinv hwm cap).
Notation cinv := (cinv cap SL).
Notation outc := (outc cap SL).
Notation pc_full := (pc_full cap SL).
Notation ans_ok := (ans_ok cap SL).
Notation floors := (floors cap SL).
Notation right := (right cap SL).
Notation bpcs s := (cs_pcs (y_buf s)).
Notation tail s := (cb_tail (cs_buf (y_buf s))).
Notation done s := (cs_done (y_buf s)).
Notation sound n s := (creach hwm cap (disciplined_on cap SL) (cs_init hwm cap n) (y_buf s)).
Implicit Types (s : sys R) (p q : spc R) (b : cstate R).

Lemma hold_tail : forall n s h tl, sound n s -> In (Hold h tl) (bpcs s) -> h <= tl /\ tl <= tail s.
Proof.
  intros n s h tl CR I. destruct (held_close hwm cap _ _ _ h tl (k_reach _ _ _ _ _ HW CR) I eq_refl) as (A & B & _). auto.
Qed.

(** One more record is read. *)
Lemma read_more : forall n s seen h tl acc, sound n s -> In (Hold h tl) (bpcs s) -> (forall x, In x seen -> In x (done s)) ->
  right seen acc h -> h + length acc < tl -> right seen (acc ++ [peek cap s (h + length acc)]) h.
Proof.
  intros n s seen h tl acc CR I IN RI L. apply right_snoc; auto. intros r ts Y ZS. eapply peek_right; eauto. lia.
Qed.

Lemma ans_c : forall s t p q x, cinv s -> floors s -> nth_error (y_pcs s) t = Some p -> flushed q = flushed p -> pc_full s q ->
  ans_ok s x -> outc s (go (w_ans s x) t q).
Proof.
  intros s t p q x K F N FL PF A. split.
  - intros _. eapply (frame_c hwm cap SL s _ t p q); eauto; try reflexivity; [left; auto|cbn; apply K].
  - intros a [<-|I]; auto.
Qed.

Lemma job_c : forall n s st g t p s', inv s st g -> cinv s -> floors s -> sound n s -> sound n s' ->
  nth_error (y_pcs s) t = Some p -> run s t p = Some s' ->
  match p with JFirst _ _ | JView _ _ _ _ | JHold _ _ _ _ | JRead _ _ _ _ _ _ _ | JShards _ _ _ _ _ _ => True | _ => False end ->
  outc s s'.
Proof.
  intros n s st g t p s' I K F CR CR' N E P. assert (J := i_j _ _ _ _ _ I).
  pose proof (k_pcs _ _ _ K _ (nth_error_In _ _ N)) as PF.
  destruct (bp_some _ _ _ _ _ _ _ I N) as (bp & NB & PO & LK).
  pose proof (fun e => pinned_full hwm cap SL s st g t p e I K N) as EP.
  destruct p; try contradiction; clear P; cbn [SysModel.run] in E.
  - destruct (EP e eq_refl) as (x & X & FX). unfold deref in E. rewrite X in E. inversion E; subst.
    eapply go_c; eauto. cbn in PF. split; auto. intros _. exists (e_head x). split; auto. unfold headof. rewrite X. auto.
  - destruct (EP e eq_refl) as (x & X & FX). rewrite X in E. eapply bcall_c; eauto.
  - eapply bstep_c; eauto. intros bp0 bp' c' z B1 B2 KZ B3. rewrite NB in B1. inversion B1; subst bp0.
    destruct bp'; cbn in KZ; try discriminate. inversion KZ; subst z. split; auto. cbn. intros [K1 K2].
    destruct (exec_hold _ _ _ _ _ _ _ B2) as (-> & -> & ->). cbn in LK. destruct LK as (u & [LK|LK] & HE); [discriminate|].
    inversion LK; subst u. destruct (hold_tail _ _ _ _ CR' (nth_error_In _ _ B3)) as [T1 T2].
    assert (HS : y_heap s' = y_heap s).
    { unfold bstep in E. destruct (BufConcModel.cexec hwm cap (y_buf s) (Step t)) as [c|] eqn:X; [|discriminate].
      destruct (nth_error (cs_pcs c) t); [|discriminate]. destruct (on_hold _ _); inversion E; subst; auto. }
    split; [exact K1|]. split; [|split; [|split; [|split]]].
    + intro KS. destruct (K2 KS) as (m & M1 & M2). unfold headof in *. rewrite HS, HE in M2. inversion M2. subst. auto.
    + cbn in PF. destruct PF as [[l' L'] _]. intros y x Y. eapply done_lt; eauto. rewrite L'. apply in_app_iff. eauto.
    + apply right_nil.
    + cbn. lia.
    + lia.
  - destruct PF as (K1 & K2 & K3 & K4 & K5 & K6). cbn in LK, PO.
    destruct (known_nodup hwm cap _ _ J K1) as [_ IN].
    destruct k.
    + destruct LK as [-> LK]. assert (IB := nth_error_In _ _ NB). destruct (Nat.ltb_spec (h + length acc) tl); inversion E; subst.
      * eapply go_c; eauto. cbn. split; auto. split; [discriminate|]. split; auto. split; [eapply read_more; eauto|].
        rewrite app_length. cbn. split; [lia|auto].
      * eapply go_c; eauto. cbn. intros _. repeat split; auto. lia.
    + inversion E; subst. eapply go_c; eauto. cbn. intros _. repeat split; auto. intros [|]; discriminate.
    + destruct LK as [-> LK]. assert (IB := nth_error_In _ _ NB). destruct (Nat.ltb_spec (h + length acc) tl); inversion E; subst.
      * eapply go_c; eauto. cbn. split; auto. split; [auto|]. split; auto. split; [eapply read_more; eauto|].
        rewrite app_length. cbn. split; [lia|auto].
      * eapply ans_c; eauto. eapply (ans_list hwm cap SL s seen pre h tl acc); eauto. lia.
    + contradiction.
  - destruct (EP e eq_refl) as (x & X & FX). unfold deref in E. rewrite X in E. inversion E; subst; clear E. cbn in LK, PF.
    assert (HX : headof s e = Some (e_head x)) by (unfold headof; rewrite X; auto).
    destruct k.
    + destruct LK as [-> LK]. rewrite HX in LK. inversion LK; subst h. destruct PF as (K1 & K3 & K4 & K5 & K6 & K7); [discriminate|].
      eapply ans_c; eauto. eapply (ans_list hwm cap SL s seen _ (e_head x) tl acc); eauto.
    + destruct LK as [-> LK]. rewrite HX in LK. inversion LK; subst h. destruct PF as (K1 & K3 & K4 & K5 & K6 & K7); [discriminate|].
      eapply ans_c; eauto. destruct FX as (_ & L & _). cbn. rewrite L.
      destruct (known_nodup hwm cap _ _ J K1) as [ND _]. pose proof (nodup_bound _ _ ND K3). lia.
    + destruct LK as [-> LK]. rewrite HX in LK. inversion LK; subst h. destruct PF as (K1 & K3 & K4 & K5 & K6 & K7); [discriminate|].
      eapply ans_c; eauto. eapply (ans_list hwm cap SL s seen _ (e_head x) tl acc); eauto.
    + eapply go_c; eauto.
Qed.

Lemma notify_c : forall s t, cinv s -> floors s -> nth_error (y_pcs s) t = Some (@DNotify R) ->
  outc s (w_pcs s (map wake (set_nth t DFlag (y_pcs s)))).
Proof.
  intros s t K F N. split; [intros _|auto]. constructor.
  - apply (k_cells _ _ _ K).
  - intros a A. destruct (k_next _ _ _ K a A) as (x & m & X & U & FU). exists x, m. split; auto. split; auto.
    assert (WF : forall z : spc R, flushed (wake z) = flushed z) by (intros []; auto).
    destruct U as [(z & Z & ZF)|[U ->]].
    + left. apply In_nth_error in Z as [u U]. assert (u <> t) by (intros ->; rewrite N in U; inversion U; subst; discriminate).
      exists (wake z). rewrite WF. split; auto. cbn. apply in_map. apply nth_error_In with u. rewrite nth_set_other; auto.
    + right. split; auto. intros z Z. cbn in Z. apply in_map_iff in Z as (y & <- & Y). rewrite WF.
      apply in_set_nth_other in Y as [->|(u & _ & W)]; auto. apply U. eapply nth_error_In; eauto.
  - intros z Z. cbn in Z. apply in_map_iff in Z as (y & <- & Y). apply in_set_nth_other in Y as [->|(u & _ & W)]; [exact Logic.I|].
    pose proof (k_pcs _ _ _ K y (nth_error_In _ _ W)) as PF. destruct y; exact PF.
Qed.

Lemma run_c : forall n s st g t p s', inv s st g -> cinv s -> floors s -> sound n s -> sound n s' ->
  nth_error (y_pcs s) t = Some p -> run s t p = Some s' -> outc s s'.
Proof.
  intros n s st g t p s' I K F CR CR' N E. assert (J := i_j _ _ _ _ _ I).
  pose proof (k_pcs _ _ _ K _ (nth_error_In _ _ N)) as PF.
  destruct (bp_some _ _ _ _ _ _ _ I N) as (bp & NB & PO & LK).
  assert (ST : recon p = true -> pc_stage p st) by (eapply stage_of; eauto).
  assert (NXT : forall a, recon p = true -> c_ep (y_next s) = Some a -> exists x, y_heap s a = Some x /\
     full cap SL (y_buf s) (e_recs x) (match flushed p with Some n => n | None => e_head x end)).
  { intros a RP A. eapply (next_full hwm cap SL); eauto. }
  assert (GO : forall q, flushed q = flushed p -> pc_full s q -> outc s (go s t q)) by (intros; eapply go_c; eauto).
  assert (CELL : forall s1 q, y_buf s1 = y_buf s -> y_heap s1 = y_heap s -> y_pcs s1 = set_nth t q (y_pcs s) -> y_ans s1 = y_ans s ->
    (forall e, c_ep (y_cur s1) = Some e \/ c_ep (y_prev s1) = Some e -> ep_full cap SL s e) ->
    (forall a, c_ep (y_next s1) = Some a -> c_ep (y_next s) = Some a /\ flushed q = flushed p) -> pc_full s q -> outc s s1)
    by (intros; eapply (cell_c hwm cap SL s s1 t p q); eauto).
  assert (BI : forall q, bstep hwm cap s t (on_idle q) = Some s' -> flushed q = flushed p -> (forall z, pc_full z q) -> outc s s').
  { intros q B FL PQ. eapply bstep_c; eauto. intros bp0 bp' c' z _ _ KZ _. destruct bp'; cbn in KZ; inversion KZ; subst. auto. }
  assert (BC : forall c q, bcall hwm cap s t c q = Some s' -> flushed q = flushed p -> (forall z, pc_full z q) -> outc s s').
  { intros c q B FL PQ. eapply bcall_c; eauto. }
  destruct p; try (eapply job_c; eauto; exact Logic.I); cbn [SysModel.run] in E; try discriminate.
  - inversion E; subst. eapply get_c; eauto.
  - inversion E; subst. eapply end_c; eauto.
  - eapply BC; eauto; cbn; auto.
  - eapply BI; eauto; cbn; auto.
  - eapply BC; eauto; cbn; auto.
  - eapply BI; eauto; cbn; auto.
  - inversion E; subst; apply GO; cbn; auto.
  - inversion E; subst; apply GO; destruct (_ || _); cbn; auto.
  - inversion E; subst; apply GO; destruct (_ || _); cbn; auto.
  - destruct (y_flag s) eqn:FL; inversion E; subst; [apply GO; cbn; auto|]. eapply (CELL _ (NNull r ts)); cbn; auto. apply K.
  - eapply BC; eauto; cbn; auto.
  - eapply BI; eauto; cbn; auto.
  - destruct (c_ep (y_next s)); inversion E; subst; [apply halt_c|apply GO; cbn; auto].
  - inversion E; subst. specialize (ST eq_refl). cbn in ST. subst st. split; [intros _|auto].
    cbn in PF. eapply (wild_c hwm cap SL s _ (StAlloc a) g t _ (SEnd ELoad e (ToNew r ts))); eauto; try reflexivity; try (left; auto; fail).
    + cbn. intros c C. apply (k_cells _ _ _ K). auto.
    + cbn. intros c C. inversion C; subst c. destruct PF as (x & X & FX). exists x, (e_head x). split; auto. split; auto.
      right. split; auto. intros z Z. cbn in Z. eapply (none_flushed hwm cap s _ g t _ (SEnd ELoad e (ToNew r ts))); eauto; reflexivity.
  - destruct (c_ep (y_next s)); inversion E; subst; [apply GO; cbn; auto|apply halt_c].
  - unfold deref in E. destruct (y_heap s a) eqn:HA; inversion E; subst; [|apply halt_c].
    eapply (CELL _ (IApp r ts)); cbn; auto. apply K.
  - destruct (y_heap s a) eqn:HA; [|inversion E; subst; apply halt_c]. eapply BC; eauto; cbn; auto.
  - eapply bstep_c; eauto. intros bp0 bp' c' z B1 B2 KZ B3. rewrite NB in B1. inversion B1; subst bp0.
    destruct bp'; cbn in KZ; try discriminate. inversion KZ; subst z. split; auto. cbn. intros _.
    destruct (hold_tail _ _ _ _ CR' (nth_error_In _ _ B3)) as [T1 T2]. split; [apply right_nil|cbn; lia].
  - cbn in PF, LK. destruct PF as [P1 P2]. destruct LK as [-> LK]. assert (IB := nth_error_In _ _ NB).
    destruct (Nat.ltb_spec (h + length acc) tl); inversion E; subst; apply GO; auto.
    + cbn. split; [eapply read_more; eauto|]. rewrite app_length. cbn. lia.
    + cbn. replace (tl - length acc) with h by lia. repeat split; auto. lia.
  - unfold deref in E. destruct (y_heap s a) as [x|] eqn:HA; inversion E; subst; [|apply halt_c].
    split; [intros _|auto]. eapply (flush_c lwm hwm cap SL); eauto.
  - eapply BC; eauto; cbn; auto.
  - eapply BI; eauto; cbn; auto.
  - inversion E; subst. apply GO; destruct (c_ep (y_prev s)); cbn; auto.
  - inversion E; subst. destruct (_ && _); [apply GO; cbn; auto|]. split; [intros _|auto]. auto.
  - inversion E; subst. destruct (cell_eqb (y_prev s) old) eqn:Q; [|apply GO; cbn; auto].
    eapply (CELL _ (DDel n0 p)); cbn; auto. intros e [C|C]; [|discriminate]. apply (k_cells _ _ _ K). auto.
  - unfold deref in E. destruct (y_heap s p) as [x|] eqn:HA; inversion E; subst; [|apply halt_c].
    split; [intros _|auto]. eapply (delete_c lwm hwm cap SL); eauto.
  - inversion E; subst; apply GO; cbn; auto.
  - inversion E; subst. destruct (cell_eqb (y_cur s) c) eqn:Q; [|apply GO; cbn; auto]. apply cell_eqb_eq in Q. subst c.
    eapply (CELL _ (DPrev n0 (y_cur s))); cbn; auto.
    + intros e [C|C]; [discriminate|]. apply (k_cells _ _ _ K). auto.
    + intros e C. apply (k_cells _ _ _ K). auto.
  - inversion E; subst. eapply (CELL _ (DAdv n0)); cbn; auto. intros e [C|C]; [apply (k_cells _ _ _ K); auto|]. apply PF. auto.
  - destruct (c_ep (y_next s)) as [a|] eqn:NX; [|inversion E; subst; apply halt_c].
    destruct (y_heap s a) as [x|] eqn:HA; [|inversion E; subst; apply halt_c].
    destruct (BufConcModel.cexec hwm cap (y_buf s) (Advance n0)) as [b|] eqn:B; [|discriminate E]. inversion E; subst.
    split; [intros _|auto]. eapply (dadv_c lwm hwm cap SL); eauto.
  - destruct (BufConcModel.cexec hwm cap (y_buf s) AdvStep) as [b|] eqn:B; [|discriminate E]. injection E as E. subst s'.
    assert (BS : bufstep hwm cap (y_buf s) b) by (right; eauto).
    assert (FR : forall q, flushed q = Some n0 -> (forall z, pc_full z q) -> outc s (go (w_buf s b) t q)).
    { intros q FQ PQ. split; [intros _|auto]. eapply (frame_c hwm cap SL s _ t _ q); eauto; try reflexivity. cbn. apply K. }
    destruct (cs_adv b) eqn:AB.
    2-7: replace (w_buf s b) with (go (w_buf s b) t (DAdvW n0))
      by (unfold go, w_buf; cbn; rewrite set_nth_id; auto); apply FR; cbn; auto.
    2: split; [discriminate|auto].
    destruct (cs_adv (y_buf s)) eqn:AS; try (apply FR; cbn; auto; fail).
    specialize (ST eq_refl). cbn in ST. destruct ST as [a ->].
    pose proof (i_heads _ _ _ _ _ I) as ((h & A1 & A2) & _). rewrite AS in A2. destruct A2 as (_ & _ & _ & _ & A5).
    pose proof (i_cells _ _ _ _ _ I) as IC. pose proof IC as [C0 _].
    split; [intros _|auto]. eapply (wild_c hwm cap SL s _ _ g t _ DPub); eauto; try reflexivity.
    + cbn. intros e C. eapply (ep_full_step hwm cap SL s); eauto. apply (k_cells _ _ _ K). auto.
    + cbn. intros c C. destruct (NXT c eq_refl C) as (x & X & FX). cbn in FX. exists x, n0. split; auto.
      split; [|eapply full_step; eauto]. right. split.
      * intros z Z. cbn in Z. eapply (none_flushed hwm cap s _ g t _ DPub); eauto; reflexivity.
      * rewrite C0 in C. cbn in C. inversion C; subst c. unfold headof in A5. rewrite X in A5. cbn in A5. congruence.
  - inversion E; subst. specialize (ST eq_refl). cbn in ST. destruct ST as [a ->]. apply GO; auto. cbn. intros e C.
    destruct (NXT e eq_refl C) as (x & X & FX). exists x. auto.
  - inversion E; subst. eapply (CELL _ DNext); cbn; auto. intros e [C|C]; [apply PF; auto|]. apply (k_cells _ _ _ K). auto.
  - inversion E; subst. eapply (CELL _ DNotify); cbn; auto; [apply K|discriminate].
  - inversion E; subst. apply notify_c; auto.
  - inversion E; subst. eapply (CELL _ SIdle); cbn; auto. apply K.
  - inversion E; subst; apply GO; destruct (c_ep (y_next s)); cbn; auto.
  - inversion E; subst; apply GO; cbn; auto.
Qed.

Lemma exec_c : forall n s st g x s', inv s st g -> cinv s -> floors s -> sound n s -> sound n s' ->
  sexec s x = Some s' -> outc s s'.
Proof.
  intros n s st g x s' I K F CR CR' E. unfold SysModel.sexec in E. destruct (y_stop s) eqn:NS; [discriminate|].
  destruct x as [t c|t|t a|t].
  - destruct (nth_error (y_pcs s) t) as [[]|] eqn:N; try discriminate.
    destruct c; [| | |destruct (y_jobs s) as [|a js] eqn:J; [discriminate|]]; inversion E; subst; try (eapply go_c; eauto; cbn; auto; fail).
    + eapply go_c; eauto. exists []. auto.
    + eapply (cell_c hwm cap SL s _ t _ (RView a)); eauto; cbn; auto. apply K.
  - destruct (nth_error (y_pcs s) t) as [p|] eqn:N; [|discriminate]. eapply run_c; eauto.
  - destruct (nth_error (y_pcs s) t) as [[]|] eqn:N; try discriminate.
    destruct (y_heap s a) eqn:A; [discriminate|]. unfold deref in E.
    destruct (y_heap s e) as [x|] eqn:X; inversion E; subst; [|apply halt_c].
    split; [intros _|auto]. eapply (clone_c hwm cap SL); eauto.
  - destruct (nth_error (y_pcs s) t) as [[]|] eqn:N; try discriminate; inversion E; subst; eapply go_c; eauto; exact Logic.I.
Qed.

Lemma init_c : forall n, cinv (sys_init hwm cap n).
Proof.
  intro n. constructor.
  - intros e [E|E]; [|discriminate]. cbn in E. inversion E; subst e. exists (Ep [] 0). split; auto. split; [|split; [auto|apply right_nil]].
    split; cbn; intros; apply Nat.le_0_l.
  - discriminate.
  - intros p P. apply repeat_spec in P. subst. exact Logic.I.
Qed.

(** C21: every answer of an execution that is calm on [SL]. *)
Theorem answers_right_on : forall n s, sreach lwm hwm cap (calm_on cap SL) (sys_init hwm cap n) s ->
  (y_stop s = None -> cinv s) /\ forall a, In a (y_ans s) -> ans_ok s a.
Proof.
  intros n s C. remember (sys_init hwm cap n) as s0. induction C; subst.
  - split; [intros _; apply init_c|contradiction].
  - destruct (IHC eq_refl) as [K A].
    destruct (calm_on_reach _ _ _ _ _ _ C) as [CR F].
    destruct (calm_on_reach _ _ _ _ _ _ (sr_step _ _ _ _ _ _ _ _ C H H0)) as [CR' _].
    destruct (sys_reach _ _ _ _ _ _ C) as [[[(st & g & I) NS]|AF] _].
    + destruct (exec_c _ _ _ _ _ _ I (K NS) F CR CR' H0) as [O1 O2]. split; auto. intros a IA.
      destruct (O2 a IA) as [IA'|]; auto. apply (ans_step lwm cap SL s1); auto.
      destruct (sexec_buf _ _ _ _ _ _ _ _ I H0) as [->|(y & _ & X & _)]; auto. apply (cexec_floor _ _ _ _ _ X).
    + unfold SysModel.sexec in H0. rewrite AF in H0. discriminate.
Qed.

End SS.

(** All slots. *)
Notation any := (fun _ : nat => True).

Lemma calm_reach : forall {R : Type} {RO : RecOps R} lwm hwm cap n (s : sys R), sreach lwm hwm cap calm (sys_init hwm cap n) s ->
  creach hwm cap (disciplined_on cap any) (cs_init hwm cap n) (y_buf s) /\ floors cap any s.
Proof. intros. eapply calm_on_reach. apply calm_any. eauto. Qed.

Theorem answers_right : forall {R : Type} {RO : RecOps R} lwm hwm cap, 0 < hwm -> 2 * hwm <= cap ->
  forall n (s : sys R), sreach lwm hwm cap calm (sys_init hwm cap n) s ->
  (y_stop s = None -> cinv cap any s) /\ forall a, In a (y_ans s) -> ans_ok cap any s a.
Proof. intros. eapply answers_right_on; eauto. apply calm_any. eauto. Qed.

(** A list that agrees with [l] at the positions of [l] contains it. *)
Lemma incl_extra : forall {A} (l m : list A), NoDup l -> (forall x, In x l -> In x m) -> exists e, Permutation m (l ++ e).
Proof.
  induction l as [|a l IH]; intros m N I; [exists m; auto|]. inversion N; subst.
  destruct (in_split a m) as (m1 & m2 & ->); [apply I; cbn; auto|].
  destruct (IH (m1 ++ m2)) as [e E]; auto.
  - intros x X. assert (Y := I x (or_intror X)). apply in_app_iff in Y as [Y|[->|Y]]; apply in_app_iff; auto. contradiction.
  - exists e. cbn. rewrite <- E. symmetry. apply Permutation_middle.
Qed.

Lemma placed_contained : forall {A} (l : list (nat * A)) (m : list A), NoDup (map fst l) ->
  (forall y x, In (y, x) l -> nth_error m y = Some x) -> exists e, Permutation m (map snd l ++ e).
Proof.
  intros A l m N H. destruct (incl_extra l (combine (seq 0 (length m)) m)) as [e E].
  - eapply NoDup_map_inv; eauto.
  - intros [y x] I. specialize (H y x I).
    assert (G : forall (m : list A) k y x, nth_error m y = Some x -> In (k + y, x) (combine (seq k (length m)) m)).
    { clear. induction m as [|a m IH]; intros k [|y] x E; cbn in E; try discriminate; cbn.
      - inversion E; subst. left. f_equal. lia.
      - right. replace (k + S y) with (S k + y) by lia. auto. }
    apply (G m 0 y x H).
  - exists (map snd e). rewrite <- map_app, <- E. clear. assert (G : forall k, map snd (combine (seq k (length m)) m) = m).
    { induction m; intro k; cbn; auto. f_equal. auto. }
    rewrite G. auto.
Qed.

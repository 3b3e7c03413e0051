(** Calls end when their thread runs alone. *)
From Coq Require Import List Arith ZArith NArith Lia Bool.
From Verif Require Import Base ListLemmas RecordModel BufferModel BufConcModel BufConcProofs BufConcView BufConcData SysModel SysInv
  SysSteps SysRun SysMain SysLive SysCalm SysTrace SoloSpec.
Import ListNotations.

Section SO.
Context {R : Type} {RO : RecOps R}.
Variables lwm hwm cap : nat.
Notation exec := (exec hwm cap).
Notation cexec := (cexec hwm cap).
Notation sexec := (sexec lwm hwm cap).
Notation run := (run lwm hwm cap).
Notation inv := (inv hwm cap).
Notation kinv := (kinv hwm cap (fun _ => False)).
Notation bpcs s := (cs_pcs (y_buf s)).
Notation bbuf s := (cs_buf (y_buf s)).
Notation adv s := (cs_adv (y_buf s)).
Notation hd b := (hidx (cb_head b)).
Notation od b := (hidx (cb_old b)).
Implicit Types (s : sys R) (p q : spc R) (b : cbuf R) (bp : pc R).

(** ** The buffer *)

Definition bmu b bp : nat :=
  match bp with
  | Idle | Hold _ _ => 0
  | ALoad _ _ => 9
  | AHead _ _ _ => 8
  | ACas _ _ old => if cb_tail b =? old then 4 else 6
  | ARetry _ _ old => if cb_tail b =? old then 5 else 7
  | ARefused => 1
  | AWrite _ _ _ => 3
  | AStamp _ _ _ => 2
  | AVis _ _ _ => 1
  | GNow => 9
  | GOld _ => 5
  | GOldLd t => if od b =? t then 3 else 7
  | GOldCas t cur => if head_eqb (cb_old b) cur then 2 else 6
  | GCur t => if hd b =? t then 4 else 6
  | GCurLd t => if hd b =? t then 3 else 7
  | GCurCas t cur => if head_eqb (cb_head b) cur then 2 else 6
  | GTail _ => 1
  | ROld _ => 4
  | ROldLd _ => 3
  | ROldCas _ cur => if head_eqb (cb_old b) cur then 2 else 5
  | RCurLd _ => if href (cb_head b) =? 0 then 5 else 3
  | RCurCas _ cur => if head_eqb (cb_head b) cur then 2 else 5
  end.

Lemma head_refl : forall h, head_eqb h h = true.
Proof. intro h. unfold head_eqb. rewrite !Nat.eqb_refl. auto. Qed.

Ltac split_if E := repeat match type of E with context[if ?c then _ else _] => let F := fresh "F" in destruct c eqn:F end.

Lemma append_mu : forall b bp b' bp', exec b bp = Some (b', bp') -> appending bp = true ->
  bmu b' bp' < bmu b bp /\ (bp' = Idle \/ appending bp' = true).
Proof.
  intros b bp b' bp' E A. destruct bp; try discriminate A; cbn [BufConcModel.exec] in E; split_if E; inversion E; subst; clear E;
    cbn [bmu appending]; rewrite ?F, ?Nat.eqb_refl; split; auto; try lia; repeat match goal with |- context[if ?c then _ else _] => destruct c end; lia.
Qed.

Lemma view_mu : forall b bp b' bp' t, exec b bp = Some (b', bp') -> seeks bp = Some t -> od b = t \/ hd b = t ->
  bmu b' bp' < bmu b bp /\ (seeks bp' = Some t \/ bp' = GTail t).
Proof.
  intros b bp b' bp' t E S H. destruct bp; try discriminate S; cbn in S; inversion S; subst; cbn [BufConcModel.exec] in E.
  all: split_if E; inversion E; subst; clear E; cbn [bmu seeks]; split; auto.
  all: rewrite ?F; try lia.
  - destruct (Nat.eqb_spec (hd b') t) as [X|X]; [lia|]. apply Nat.eqb_neq in F. lia.
  - destruct (Nat.eqb_spec (od b') t) as [X|X].
    + replace (BH t (href (cb_old b'))) with (cb_old b') by (destruct (cb_old b'); cbn in *; subst; auto). rewrite head_refl. lia.
    + destruct (head_eqb _ _); lia.
  - destruct (Nat.eqb_spec (hd b') t) as [X|X].
    + replace (BH t (href (cb_head b'))) with (cb_head b') by (destruct (cb_head b'); cbn in *; subst; auto). rewrite head_refl. lia.
    + destruct (head_eqb _ _); lia.
Qed.

Lemma release_mu : forall b bp b' bp' h, exec b bp = Some (b', bp') -> releasing bp = true -> (forall i, BufConcModel.holds i bp = (h =? i)) ->
  pcK b bp -> (od b = h -> 0 < href (cb_old b)) -> (od b <> h -> 0 < href (cb_head b)) ->
  bmu b' bp' < bmu b bp /\ (bp' = Idle \/ releasing bp' = true).
Proof.
  intros b bp b' bp' h E A H K P1 P2.
  assert (HH : BufConcModel.holds h bp = true) by (rewrite H; apply Nat.eqb_refl).
  destruct bp; try discriminate A; cbn [BufConcModel.exec] in E; cbn in HH; apply Nat.eqb_eq in HH; subst; cbn in K;
    split_if E; inversion E; subst; clear E; cbn [bmu releasing]; split; auto; rewrite ?F, ?head_refl; try lia.
  - apply Nat.eqb_neq in F. specialize (P2 F). destruct (Nat.eqb_spec (href (cb_head b')) 0); lia.
  - apply Nat.eqb_eq in F. specialize (P1 eq_refl). lia.
Qed.

(** ** Epochs *)

Definition gmu s (g : gpc) : nat :=
  match g with
  | GLoad => 4
  | GPrev => match c_ep (y_prev s) with None => 5 | Some _ => 3 end
  | GPrevCas old => if cell_eqb (y_prev s) old then 2 else 5
  | GCurr => match c_ep (y_cur s) with None => 5 | Some _ => 3 end
  | GCurrCas old => if cell_eqb (y_cur s) old then 2 else 5
  end.
Definition emu s (j : epc) : nat :=
  match j with
  | ELoad => 4
  | EPrev => 3
  | EPrevCas old => if cell_eqb (y_prev s) old then 2 else 5
  | ECurr => match c_ep (y_cur s) with None => 5 | Some _ => 3 end
  | ECurrCas old => if cell_eqb (y_cur s) old then 2 else 5
  end.
Definition amu (f : fin R) : nat := match f with ToIdle => 0 | ToRelease => 6 | ToNew _ _ => 12 end.
Definition vmu b (v : vpc) : nat :=
  match v with
  | VIdle | VCrash => 0
  | VHead _ => 6
  | VTail _ => 5
  | VRef _ => 4
  | VLoad _ => 3
  | VCas _ cur => if head_eqb (cb_head b) cur then 2 else 4
  | VOld _ _ => 1
  end.

Definition mu s p bp : nat :=
  match p with
  | SIdle => 0
  | WWait => 100 + 2 * hwm
  | WLock => 101 + 2 * hwm
  | WLoad => 102 + 2 * hwm
  | SGet g (ForJob _ _) => gmu s g + 19 + 2 * hwm
  | SGet g (ForNew _ _) => gmu s g + 18
  | SEnd j _ f => emu s j + amu f
  | JFirst _ _ => 19 + 2 * hwm
  | JView _ _ _ _ => 18 + 2 * hwm
  | JHold _ _ _ _ => bmu (bbuf s) bp + 12 + 2 * hwm
  | JRead _ _ _ _ h tl acc => 12 + (tl - (h + length acc))
  | JShards _ _ _ _ _ _ => 11
  | JRel _ => 10
  | JRelW _ => bmu (bbuf s) bp + 5
  | QRel => 6
  | QRelW => bmu (bbuf s) bp
  | ILow _ _ => 26
  | ILowH _ _ _ | ILowT _ _ _ => 25
  | IFlag _ _ => 24
  | NNull _ _ => 23
  | NClone _ _ _ => 18
  | NStore _ _ _ _ => 17
  | NLoad _ _ => 12
  | NTask _ _ _ => 11
  | IApp _ _ => 10
  | IAppW => bmu (bbuf s) bp
  | RView _ => 33 + 2 * hwm
  | RHold _ => bmu (bbuf s) bp + 27 + 2 * hwm
  | RRead _ h tl acc => 27 + (tl - (h + length acc))
  | RFlush _ _ _ => 26
  | RRel _ _ => 25
  | RRelW _ _ => bmu (bbuf s) bp + 20
  | DLoad _ => 19
  | DRet _ _ => 18
  | DRetCas _ _ old => if cell_eqb (y_prev s) old then 17 else 19
  | DDel _ _ => 16
  | DCur _ => 15
  | DCurCas _ c => if cell_eqb (y_cur s) c then 14 else 16
  | DPrev _ _ => 13
  | DAdv _ => 12
  | DAdvW _ => vmu (bbuf s) (adv s) + 5
  | DPub => 5
  | DPubSt _ => 4
  | DNext => 3
  | DNotify => 2
  | DFlag => 1
  end.

Definition okp s p : Prop :=
  match p with
  | SEnd _ _ ToIdle => epoch_there s
  | WLoad | WLock | WWait => False
  | _ => (reading p = true -> can_read s) /\ can_rebuild s p
  end.

(** ** One step *)

Lemma cell_refl : forall c, cell_eqb c c = true.
Proof. intros [[e|] k]; unfold cell_eqb; cbn; rewrite ?Nat.eqb_refl; auto. Qed.

(** A pinned epoch is in one of the cells. *)
Lemma pin_cell : forall s st g t p e, inv s st g -> nth_error (y_pcs s) t = Some p -> pinned p = Some e ->
  epoch_there s -> c_ep (y_prev s) <> Some e -> c_ep (y_cur s) <> None.
Proof.
  intros s st g t p e I N P TH NP. destruct I as [_ IC IPI _ _ _ _].
  destruct (pinned_active _ _ _ _ _ IPI N P) as [_ C]. destruct IC as [_ IC]. unfold epoch_there in TH.
  destruct st; repeat match goal with H : _ /\ _ |- _ => destruct H end;
    try (match goal with H : y_cur s = Cell (Some _) _ |- _ => rewrite H; discriminate end).
  - rewrite H, H0 in TH. cbn in TH. destruct TH; congruence.
  - rewrite H0 in NP. cbn in NP. destruct C as [->|(q & G & _)]; congruence.
  - rewrite H0 in NP. cbn in NP. destruct C as [->|(q & G & _)]; congruence.
Qed.

(** When the thread is scheduling a reconstruction, there is a current epoch. *)
Lemma sched_cur : forall s st g t p, inv s st g -> nth_error (y_pcs s) t = Some p -> recon p = true -> inserting p = true ->
  c_ep (y_cur s) <> None.
Proof.
  intros s st g t p I N RC IN. destruct I as [IO IC _ _ _ _ _].
  destruct (recon_one _ _ _ _ IO N RC) as (_ & _ & _ & ST). destruct IC as [_ IC].
  assert (Q : match st with StQuiet | StAlloc _ | StNext _ => True | _ => False end).
  { destruct p; cbn in RC, IN; try discriminate; try destruct w; try destruct f; try discriminate; cbn in ST;
      (subst; auto) || (destruct ST as [? ->]; auto). }
  destruct st; try contradiction; destruct IC as [-> _]; discriminate.
Qed.

(** Where the references of a thread are. *)
Lemma ref_where : forall s t bp h, kinv (y_buf s) -> head_there s -> nth_error (bpcs s) t = Some bp ->
  BufConcModel.holds h bp = true ->
  (h = od (bbuf s) /\ 0 < href (cb_old (bbuf s)) /\ h < hd (bbuf s) /\ hd (bbuf s) <= h + hwm \/
   h = hd (bbuf s) /\ od (bbuf s) <> hd (bbuf s) /\ (refs_there s -> 0 < href (cb_head (bbuf s)))).
Proof.
  intros s t bp h K HT N H. pose proof (k_refs _ _ _ _ K) as F. unfold head_there in HT.
  apply refs_out in F; [|intros n cur E; rewrite E in HT; contradiction].
  destruct F as (F1 & F2 & F3 & F4 & F5 & F6 & _).
  assert (P : 0 < cnt (bpcs s) h) by (eapply countb_in; [eapply nth_error_In; eauto|auto]).
  destruct (Nat.eq_dec h (od (bbuf s))) as [->|N1].
  - left. specialize (F5 P). repeat split; auto; lia.
  - destruct (Nat.eq_dec h (hd (bbuf s))) as [->|N2].
    + right. repeat split; auto. unfold refs_there. unfold cnt in P. lia.
    + rewrite F3 in P by auto. lia.
Qed.

Definition next_ok s s' t p bp : Prop :=
  exists p' bp', nth_error (y_pcs s') t = Some p' /\ nth_error (bpcs s') t = Some bp' /\ okp s' p' /\ mu s' p' bp' < mu s p bp.

Lemma next_go : forall s s' t p p' bp, nth_error (y_pcs s) t = Some p -> nth_error (bpcs s) t = Some bp ->
  y_pcs s' = set_nth t p' (y_pcs s) -> y_buf s' = y_buf s -> okp s' p' -> mu s' p' bp < mu s p bp -> next_ok s s' t p bp.
Proof.
  intros s s' t p p' bp N NB E EB O M. exists p', bp. rewrite E, EB. split; [eapply nth_set_same; eauto|]. auto.
Qed.

Lemma bcall_eq : forall s t c p s' bp, nth_error (bpcs s) t = Some bp -> bcall hwm cap s t c p = Some s' ->
  exists bp', begin c bp = Some bp' /\
  s' = go (w_buf s (CS (bbuf s) (set_nth t bp' (bpcs s)) (adv s) (cs_done (y_buf s)))) t p.
Proof.
  intros s t c p s' bp NB E. unfold bcall, BufConcModel.cexec in E. rewrite NB in E.
  destruct (begin c bp) as [bp'|]; [|discriminate]. inversion E. eauto.
Qed.

Lemma bstep_eq : forall s t k s' bp, nth_error (bpcs s) t = Some bp -> bstep hwm cap s t k = Some s' ->
  exists b' bp' d, exec (bbuf s) bp = Some (b', bp') /\
  s' = (let s1 := w_buf s (CS b' (set_nth t bp' (bpcs s)) (adv s) d) in match k bp' with Some q => go s1 t q | None => s1 end).
Proof.
  intros s t k s' bp NB E. unfold bstep, BufConcModel.cexec in E. rewrite NB in E.
  destruct (exec (bbuf s) bp) as [[b' bp']|] eqn:X; [|discriminate]. cbn [cs_pcs] in E.
  rewrite (nth_set_same _ _ _ _ NB) in E. exists b', bp'. destruct (k bp'); inversion E; eauto.
Qed.

(** The references after a step of the buffer that does not give one back. *)
Lemma refs_kept : forall s t bp b' bp' s', kinv (y_buf s) -> nth_error (bpcs s) t = Some bp ->
  exec (bbuf s) bp = Some (b', bp') -> bbuf s' = b' -> bpcs s' = set_nth t bp' (bpcs s) -> adv s' = adv s ->
  (releasing bp = true -> bp' <> Idle) -> head_there s -> refs_there s -> refs_there s'.
Proof.
  intros s t bp b' bp' s' K NB X E1 E2 E3 NI HT RT. unfold refs_there in *. rewrite E1, E2.
  pose proof (nth_error_In _ _ NB) as IN. pose proof (k_j _ _ _ _ K) as J.
  destruct (exec_K hwm cap _ _ _ _ X (j_pcs _ _ _ J _ IN) (k_pc _ _ _ _ K _ IN)) as (A1 & A2 & A3 & A4 & A5 & A6).
  { intros u U. eapply target_le; [apply (k_refs _ _ _ _ K)|apply (j_le _ _ _ J)|eapply k_seek; eauto]. }
  pose proof (cnt_set (bpcs s) t bp bp' (hd b') NB) as C. unfold cnt in C. rewrite A2 in *.
  destruct A6 as [(B1 & B2 & B3)|[(B1 & B2 & B3 & B4)|[(B1 & B2 & B3 & B4)|[(B1 & B2 & B3 & B4)|(B1 & B2 & B3 & h & B4)]]]].
  - rewrite B3 in C. rewrite B1. lia.
  - rewrite B1. destruct (B4 (hd (bbuf s))) as [P1 P2]. rewrite P1, P2 in C. 
    assert (X1 : od (bbuf s) <> hd (bbuf s)).
    { pose proof (k_refs _ _ _ _ K) as F. unfold head_there in HT. destruct (v_cases (adv s)) as [(n & cur & V)|V].
      - rewrite V in HT. contradiction.
      - apply refs_out in F; auto. tauto. }
    apply Nat.eqb_neq in X1. rewrite X1 in C. lia.
  - rewrite B2. cbn [href hidx]. destruct (B4 (hd (bbuf s))) as [P1 P2]. rewrite P1, P2, Nat.eqb_refl in C. lia.
  - exfalso. clear -X B4 NI. specialize (B4 (od (bbuf s))). rewrite Nat.eqb_refl in B4. destruct B4 as [B4 B5].
    destruct bp; cbn in B5; try discriminate B5; cbn [BufConcModel.exec] in X; split_if X; inversion X; subst;
     try (cbn in B4; congruence); apply NI; auto.
  - exfalso. clear -X B4 NI. specialize (B4 h). rewrite Nat.eqb_refl in B4. destruct B4 as [B4 B5].
    destruct bp; cbn in B5; try discriminate B5; cbn [BufConcModel.exec] in X; split_if X; inversion X; subst;
     try (cbn in B4; congruence); apply NI; auto.
Qed.

(** The old head after a step of a thread that has no reference to it and wants none. *)
Lemma old_kept : forall s t bp b' bp', kinv (y_buf s) -> nth_error (bpcs s) t = Some bp ->
  exec (bbuf s) bp = Some (b', bp') -> href (cb_old (bbuf s)) = 0 -> seeks bp <> Some (od (bbuf s)) -> href (cb_old b') = 0.
Proof.
  intros s t bp b' bp' K NB X Z NS. pose proof (nth_error_In _ _ NB) as IN. pose proof (k_j _ _ _ _ K) as J.
  destruct (exec_K hwm cap _ _ _ _ X (j_pcs _ _ _ J _ IN) (k_pc _ _ _ _ K _ IN)) as (A1 & A2 & A3 & A4 & A5 & A6).
  { intros u U. eapply target_le; [apply (k_refs _ _ _ _ K)|apply (j_le _ _ _ J)|eapply k_seek; eauto]. }
  destruct A6 as [(B1 & B2 & B3)|[(B1 & B2 & B3 & B4)|[(B1 & B2 & B3 & B4)|[(B1 & B2 & B3 & B4)|(B1 & B2 & B3 & h & B4)]]]];
    congruence || lia.
Qed.

(** The length of a view about to be taken. *)
Lemma view_len : forall s t h, kinv (y_buf s) -> head_there s -> nth_error (bpcs s) t = Some (GTail h) ->
  cb_tail (bbuf s) - h <= 2 * hwm.
Proof.
  intros s t h K HT NB. pose proof (j_cnt _ _ _ (k_j _ _ _ _ K)) as J.
  destruct (ref_where _ _ _ h K HT NB) as [(-> & _ & A & B)|(-> & _)]; [apply Nat.eqb_refl|lia|lia].
Qed.

(** A step towards a view. *)
Lemma view_next : forall s s' t p bp e k (mk : nat -> nat -> spc R), kinv (y_buf s) ->
  nth_error (y_pcs s) t = Some p -> nth_error (bpcs s) t = Some bp -> head_there s ->
  (exists h, (seeks bp = Some h \/ bp = GTail h) /\ headof s e = Some h) ->
  bstep hwm cap s t (on_hold mk) = Some s' ->
  (forall s' bp, mu s' p bp = bmu (bbuf s') bp + k + 2 * hwm) ->
  (forall s' h tl, mu s' (mk h tl) (Hold h tl) = k + (tl - h)) ->
  (forall b' bp' d, exec (bbuf s) bp = Some (b', bp') -> okp (w_buf s (CS b' (set_nth t bp' (bpcs s)) (adv s) d)) p) ->
  (forall b' bp' d h tl, exec (bbuf s) bp = Some (b', bp') -> okp (go (w_buf s (CS b' (set_nth t bp' (bpcs s)) (adv s) d)) t (mk h tl)) (mk h tl)) ->
  next_ok s s' t p bp.
Proof.
  intros s s' t p bp e k mk K N NB HT (h & W & _) E M1 M2 O1 O2. destruct (bstep_eq _ _ _ _ _ NB E) as (b' & bp' & d & X & ->). clear E.
  cbv zeta. destruct W as [W| ->].
  - assert (T : od (bbuf s) = h \/ hd (bbuf s) = h).
    { destruct (k_seek _ _ _ _ K bp h (nth_error_In _ _ NB) W) as [T|(_ & T & _)]; auto. right.
      unfold vbase, head_there in *. destruct (adv s); auto. contradiction. }
    destruct (view_mu _ _ _ _ _ X W T) as [L1 L2].
    assert (H : on_hold mk bp' = None) by (destruct L2 as [L2| ->]; [destruct bp'; try discriminate L2|]; auto).
    rewrite H. exists p, bp'. cbn [w_buf y_pcs y_buf cs_pcs]. split; auto. split; [eapply nth_set_same; eauto|]. split; [apply O1; auto|].
    rewrite !M1. cbn [w_buf y_buf cs_buf]. lia.
  - cbn in X. inversion X; subst. cbn [on_hold]. exists (mk h (cb_tail (bbuf s))), (Hold h (cb_tail (bbuf s))). cbn [go w_buf y_pcs y_buf cs_pcs].
    split; [eapply nth_set_same; eauto|]. split; [eapply nth_set_same; eauto|]. split; [apply O2; auto|].
    rewrite M1, M2. cbn [bmu]. pose proof (view_len _ _ _ K HT NB). lia.
Qed.

(** A step towards the end of a view. *)
Lemma release_next : forall s s' t p q bp k, kinv (y_buf s) ->
  nth_error (y_pcs s) t = Some p -> nth_error (bpcs s) t = Some bp -> head_there s -> refs_there s -> releasing bp = true ->
  bstep hwm cap s t (on_idle q) = Some s' ->
  (forall s' bp, mu s' p bp = bmu (bbuf s') bp + k) -> (forall s', mu s' q Idle <= k) ->
  (forall b' bp' d, exec (bbuf s) bp = Some (b', bp') -> bp' <> Idle -> okp (w_buf s (CS b' (set_nth t bp' (bpcs s)) (adv s) d)) p) ->
  (forall b' bp' d, exec (bbuf s) bp = Some (b', bp') -> okp (go (w_buf s (CS b' (set_nth t bp' (bpcs s)) (adv s) d)) t q) q) ->
  next_ok s s' t p bp.
Proof.
  intros s s' t p q bp k K N NB HT RT RL E M1 M2 O1 O2. destruct (bstep_eq _ _ _ _ _ NB E) as (b' & bp' & d & X & ->). clear E.
  cbv zeta. assert (HH : exists h, forall i, BufConcModel.holds i bp = (h =? i)) by (destruct bp; try discriminate RL; cbn; eauto).
  destruct HH as [h HH]. pose proof (nth_error_In _ _ NB) as IN.
  destruct (release_mu _ _ _ _ h X RL HH (k_pc _ _ _ _ K _ IN)) as [L1 L2].
  { intros O. destruct (ref_where _ _ _ h K HT NB) as [(Z & Q & _)|(Z & NO & _)]; [rewrite HH; apply Nat.eqb_refl|auto|congruence]. }
  { intros O. destruct (ref_where _ _ _ h K HT NB) as [(Z & Q & _)|(Z & NO & Q)]; [rewrite HH; apply Nat.eqb_refl|congruence|auto]. }
  destruct L2 as [-> |L2].
  - cbn [on_idle]. exists q, Idle. cbn [go w_buf y_pcs y_buf cs_pcs].
    split; [eapply nth_set_same; eauto|]. split; [eapply nth_set_same; eauto|]. split; [eapply O2; eauto|]. rewrite M1.
    specialize (M2 (go (w_buf s (CS b' (set_nth t Idle (bpcs s)) (adv s) d)) t q)). cbn in L1. unfold go, w_buf in *. cbn in *. lia.
  - assert (H : on_idle q bp' = None) by (destruct bp'; try discriminate L2; auto). rewrite H.
    exists p, bp'. cbn [w_buf y_pcs y_buf cs_pcs]. split; auto. split; [eapply nth_set_same; eauto|]. split.
    + apply O1; auto. intros ->. discriminate L2.
    + rewrite !M1. cbn [w_buf y_buf cs_buf]. lia.
Qed.

Lemma stage_idle : forall s st g t p, inv s st g -> nth_error (y_pcs s) t = Some p ->
  match p with RView _ | RHold _ | RRead _ _ _ _ | RFlush _ _ _ | RRel _ _ | RRelW _ _ => True | _ => False end -> head_there s.
Proof.
  intros s st g t p I N P. destruct I as [IO _ _ IH _ _ _].
  destruct (recon_one _ _ _ p IO N) as (_ & _ & _ & ST); [destruct p; auto; contradiction|].
  destruct IH as ((h & _ & A) & _). unfold head_there.
  destruct p; try contradiction; cbn in ST; subst; destruct A as [-> _]; auto.
Qed.

Lemma zero_refs : forall s, kinv (y_buf s) -> head_there s -> href (cb_old (bbuf s)) = 0 -> refs_there s.
Proof.
  intros s K HT Z. pose proof (k_refs _ _ _ _ K) as F. unfold head_there in HT.
  apply refs_out in F; [|intros n cur E; rewrite E in HT; contradiction]. unfold refs_there. unfold cnt in F. lia.
Qed.

Lemma get_next : forall s t g w bp st gh, inv s st gh -> nth_error (y_pcs s) t = Some (SGet g w) -> nth_error (bpcs s) t = Some bp ->
  okp s (SGet g w) -> pc_ok s (SGet g w) -> next_ok s (get_step s t g w) t (SGet g w) bp.
Proof.
  intros s t g w bp st gh I N NB O PO.
  assert (TH : epoch_there s).
  { destruct w; [apply (proj1 O); auto|]. left. eapply sched_cur; eauto. }
  assert (G : forall s' g', y_pcs s' = set_nth t (SGet g' w) (y_pcs s) -> y_buf s' = y_buf s -> y_cur s' = y_cur s -> y_prev s' = y_prev s ->
            gmu s g' < gmu s g -> next_ok s s' t (SGet g w) bp).
  { intros s' g' E1 E2 E3 E4 L. eapply next_go; eauto.
    - destruct w; cbn in *; unfold can_read, epoch_there, head_there, refs_there in *; rewrite ?E2, ?E3, ?E4; auto.
    - destruct w; cbn; unfold gmu in *; rewrite E3, E4; lia. }
  assert (D : forall s' e, y_pcs s' = set_nth t (got e w) (y_pcs s) -> y_buf s' = y_buf s -> epoch_there s' ->
            gmu s g = 2 -> next_ok s s' t (SGet g w) bp).
  { intros s' e E1 E2 E3 L. eapply next_go; eauto.
    - destruct w as [k seen|r ts]; [destruct O as [O _]; specialize (O eq_refl)|]; [destruct k|]; cbn in *;
        unfold can_read, head_there, refs_there in *; rewrite ?E2; (split; auto); try discriminate; tauto.
    - destruct w as [k seen|r ts]; [destruct k|]; cbn; lia. }
  unfold get_step. destruct g; cbn [gmu] in *.
  - eapply G; try reflexivity. cbn. destruct (c_ep (y_cur s)) eqn:C; cbn; rewrite ?C; [lia|].
    destruct (c_ep (y_prev s)) eqn:C'; [lia|]. unfold epoch_there in TH. rewrite C, C' in TH. destruct TH; congruence.
  - eapply G; try reflexivity. cbn. destruct (c_ep (y_prev s)) eqn:C; cbn; rewrite ?cell_refl; lia.
  - destruct (cell_eqb (y_prev s) old) eqn:C; [|eapply G; try reflexivity; cbn; lia].
    destruct (c_ep old) as [e|] eqn:C'; [|cbn in PO; destruct w; [congruence|contradiction]].
    eapply (D _ e); try reflexivity. right. cbn. discriminate.
  - eapply G; try reflexivity. cbn. destruct (c_ep (y_cur s)) eqn:C; cbn; rewrite ?cell_refl; lia.
  - destruct (cell_eqb (y_cur s) old) eqn:C; [|eapply G; try reflexivity; cbn; lia].
    destruct (c_ep old) as [e|] eqn:C'; [|cbn in PO; congruence].
    eapply (D _ e); try reflexivity. left. cbn. discriminate.
Qed.

Lemma end_next : forall s t j e f bp st gh, inv s st gh -> nth_error (y_pcs s) t = Some (SEnd j e f) -> nth_error (bpcs s) t = Some bp ->
  okp s (SEnd j e f) -> pc_ok s (SEnd j e f) -> y_stop (end_step s t j e f) = None ->
  next_ok s (end_step s t j e f) t (SEnd j e f) bp.
Proof.
  intros s t j e f bp st gh I N NB O PO NS.
  assert (TH : epoch_there s).
  { destruct f; [apply (proj1 O); auto|apply O|]. left. eapply sched_cur; eauto. }
  assert (G : forall s' j', y_pcs s' = set_nth t (SEnd j' e f) (y_pcs s) -> y_buf s' = y_buf s -> y_cur s' = y_cur s -> y_prev s' = y_prev s ->
            emu s j' < emu s j -> next_ok s s' t (SEnd j e f) bp).
  { intros s' j' E1 E2 E3 E4 L. eapply next_go; eauto.
    - destruct f; cbn in *; unfold can_read, epoch_there, head_there, refs_there in *; rewrite ?E2, ?E3, ?E4; auto.
    - cbn. unfold emu in *; rewrite E3, E4; lia. }
  assert (D : forall s', y_pcs s' = set_nth t (after f) (y_pcs s) -> y_buf s' = y_buf s -> epoch_there s' ->
            emu s j = 2 -> next_ok s s' t (SEnd j e f) bp).
  { intros s' E1 E2 E3 L. eapply next_go; eauto.
    - destruct f; cbn in *; [destruct O as [O _]; specialize (O eq_refl)| |];
        unfold can_read, head_there, refs_there in *; rewrite ?E2; (split; auto); try discriminate; tauto.
    - destruct f; cbn; lia. }
  unfold end_step in *. destruct j; cbn [emu] in *.
  - eapply G; try reflexivity. cbn. destruct (ep_eqb (c_ep (y_prev s)) (Some e)) eqn:C; cbn; [lia|].
    destruct (c_ep (y_cur s)) eqn:C'; [lia|]. exfalso. refine (pin_cell s st gh t _ e I N eq_refl TH _ C').
    intro Q. apply ep_eqb_eq in Q. congruence.
  - cbn in PO. destruct (c_ep (y_prev s)) eqn:C; [|discriminate]. destruct (c_ref (y_prev s) =? 0); [discriminate NS|].
    eapply G; try reflexivity. cbn. rewrite cell_refl. lia.
  - destruct (cell_eqb (y_prev s) old) eqn:C; [|eapply G; try reflexivity; cbn; lia].
    eapply D; try reflexivity. right. cbn in *. destruct PO as (_ & -> & _). discriminate.
  - destruct (c_ep (y_cur s)) eqn:C; [|eapply G; try reflexivity; cbn; rewrite ?C; lia]. destruct (c_ref (y_cur s) =? 0); [discriminate NS|].
    eapply G; try reflexivity. cbn. rewrite cell_refl. lia.
  - destruct (cell_eqb (y_cur s) old) eqn:C; [|eapply G; try reflexivity; cbn; lia].
    eapply D; try reflexivity. left. cbn in *. apply PO.
Qed.

Lemma call_next : forall s s' t p p' c bp, nth_error (y_pcs s) t = Some p -> nth_error (bpcs s) t = Some bp ->
  bcall hwm cap s t c p' = Some s' -> (reading p' = true -> can_read s) -> can_rebuild s p' -> match p' with SEnd _ _ ToIdle | WLoad | WLock | WWait => False | _ => True end ->
  (forall bp', begin c bp = Some bp' -> mu s p' bp' < mu s p bp) -> (forall n, p' <> DAdvW n) -> next_ok s s' t p bp.
Proof.
  intros s s' t p p' c bp N NB E CR CB NE M ND. destruct (bcall_eq _ _ _ _ _ _ NB E) as (bp' & B & ->).
  exists p', bp'. cbn [go w_buf y_pcs y_buf cs_pcs]. split; [eapply nth_set_same; eauto|]. split; [eapply nth_set_same; eauto|]. split.
  - assert (Q : (reading p' = true -> can_read (go (w_buf s (CS (bbuf s) (set_nth t bp' (bpcs s)) (adv s) (cs_done (y_buf s)))) t p')) /\
                can_rebuild (go (w_buf s (CS (bbuf s) (set_nth t bp' (bpcs s)) (adv s) (cs_done (y_buf s)))) t p') p').
    { split; [|exact CB]. intro RD. destruct (CR RD) as (C1 & C2 & C3). split; [exact C1|]. split; [exact C2|].
      unfold refs_there in *. cbn. fold (cnt (set_nth t bp' (bpcs s)) (hd (bbuf s))).
      rewrite (cnt_same _ _ bp); auto. intro i. destruct c, bp; cbn in B; inversion B; auto. }
    unfold okp. destruct p'; auto; try (destruct NE; fail). destruct f; auto. destruct NE.
  - specialize (M bp' B). destruct p'; auto.
Qed.

Lemma view_call : forall s (h : nat) bp, bp = Idle -> forall bp' : pc R, begin (View_ h) bp = Some bp' -> bp' = GOld h.
Proof. intros s h bp -> bp' E. cbn in E. congruence. Qed.

Lemma adv_next : forall s st g t n bp s', inv s st g -> nth_error (y_pcs s) t = Some (DAdvW n) -> nth_error (bpcs s) t = Some bp ->
  okp s (DAdvW n) -> run s t (DAdvW n) = Some s' -> y_stop s' = None -> next_ok s s' t (DAdvW n) bp.
Proof.
  intros s st g t n bp s' I N NB O E NS. cbn [SysModel.run] in E. unfold BufConcModel.cexec in E. destruct O as [_ O]. cbn in O.
  assert (G : forall b v,
    match v with VOld _ _ => True | _ => href (cb_old b) = 0 end -> vmu b v < vmu (bbuf s) (adv s) ->
    next_ok s (w_buf s (CS b (bpcs s) v (cs_done (y_buf s)))) t (DAdvW n) bp).
  { intros b v H L. exists (DAdvW n), bp. cbn [w_buf y_pcs y_buf cs_pcs]. split; auto. split; auto. split; [split; [discriminate|exact H]|].
    cbn in *. lia. }
  destruct (adv s) as [|m|m|m|m|m cur|m cur|] eqn:V; cbn [vexec] in E; try discriminate E; cbn [cs_adv] in E; split_if E; cbn [cs_adv] in E;
    inversion E; subst; clear E; try discriminate NS;
    try (apply G; cbn; rewrite ?head_refl, ?F; auto; try lia; fail).
  - apply Nat.ltb_lt in F. lia.
  - exists DPub, bp. cbn [go w_buf y_pcs y_buf cs_pcs]. split; [eapply nth_set_same; eauto|]. split; auto.
    split; [split; [discriminate|exact Logic.I]|]. cbn. rewrite V. cbn. lia.
Qed.

Lemma run_next : forall s st g t p bp s', inv s st g -> kinv (y_buf s) -> y_stop s = None -> nth_error (y_pcs s) t = Some p -> nth_error (bpcs s) t = Some bp ->
  okp s p -> run s t p = Some s' -> y_stop s' = None -> next_ok s s' t p bp.
Proof.
  intros s st g t p bp s' I K NS0 N NB O E NS. destruct (i_pcs _ _ _ _ _ I _ _ _ N NB) as [PO LK].
  assert (G : forall p', okp (go s t p') p' -> mu s p' bp < mu s p bp -> next_ok s (go s t p') t p bp).
  { intros p' OP L. eapply next_go; eauto. destruct p'; auto. }
  destruct p; try (eapply adv_next; eauto; fail); cbn [SysModel.run] in E; try discriminate E.
  - inversion E; subst. eapply get_next; eauto.
  - inversion E; subst. eapply end_next; eauto.
  - unfold deref in E. destruct (y_heap s e); inversion E; subst; [|discriminate NS]. apply G; [exact O|cbn; lia].
  - destruct (y_heap s e) eqn:H; [|inversion E; subst; discriminate NS]. cbn in LK. subst bp.
    eapply call_next; [eauto|eauto|eauto|apply O|exact Logic.I|exact Logic.I| |discriminate]. intros bp' B. cbn in B. inversion B; subst. cbn. lia.
  - destruct O as [O _]. specialize (O eq_refl). pose proof O as (O1 & O2 & O3).
    eapply (view_next s s' t _ bp e 12 (fun h tl => JRead k e seen pre h tl [])); eauto.
    + intros. cbn. lia.
    + intros b' bp' d X. split; [|exact Logic.I]. intros _. split; [exact O1|]. split; [exact O2|].
      eapply refs_kept; eauto. intros RL. exfalso. destruct LK as (h0 & [W| ->] & _); [destruct bp|]; discriminate.
    + intros b' bp' d h tl X. split; [|exact Logic.I]. intros _. split; [exact O1|]. split; [exact O2|].
      eapply (refs_kept s t bp b' bp'); eauto. intros RL. exfalso. destruct LK as (h0 & [W| ->] & _); [destruct bp|]; discriminate.
  - assert (G' : forall a, okp (go (w_ans s a) t (JRel e)) (JRel e)).
    { intro a. exact O. }
    destruct k; try (inversion E; subst; apply G; [exact O|cbn; lia]).
    + destruct (Nat.ltb_spec (h + length acc) tl); inversion E; subst; apply G; try exact O; cbn; rewrite ?app_length; cbn; lia.
    + destruct (Nat.ltb_spec (h + length acc) tl); inversion E; subst; [apply G; try exact O; cbn; rewrite ?app_length; cbn; lia|].
      eapply next_go; [eauto|eauto|reflexivity|reflexivity|apply G'|]. cbn. lia.
  - unfold deref in E. destruct (y_heap s e); inversion E; subst; [|discriminate NS]. destruct O as [O _]. specialize (O eq_refl).
    destruct k; (eapply next_go; [eauto|eauto|reflexivity|reflexivity| |cbn; lia]); try (split; [|exact Logic.I]; intros _; exact O). apply O.
  - eapply call_next; [eauto|eauto|eauto|apply O|exact Logic.I|exact Logic.I| |discriminate]. intros bp' B. destruct LK as (h & tl & ->). cbn in B. inversion B; subst. cbn. lia.
  - destruct O as [O _]. specialize (O eq_refl). pose proof O as (O1 & O2 & O3).
    eapply (release_next s s' t _ _ bp 5); [exact K|exact N|exact NB|exact O2|exact O3|exact LK|exact E|intros; cbn; lia|intros; cbn; lia| |].
    + intros b' bp' d X NI. split; [|exact Logic.I]. intros _. split; [exact O1|]. split; [exact O2|].
      eapply refs_kept; eauto.
    + intros b' bp' d X. exact O1.
  - eapply call_next; [eauto|eauto|eauto|apply O|exact Logic.I|exact Logic.I| |discriminate]. intros bp' B. destruct LK as (h & tl & ->). cbn in B. inversion B; subst. cbn. lia.
  - destruct O as [O _]. specialize (O eq_refl). pose proof O as (O1 & O2 & O3).
    eapply (release_next s s' t _ _ bp 0); [exact K|exact N|exact NB|exact O2|exact O3|exact LK|exact E|intros; cbn; lia|intros; cbn; lia| |].
    + intros b' bp' d X NI. split; [|exact Logic.I]. intros _. split; [exact O1|]. split; [exact O2|].
      eapply refs_kept; eauto.
    + intros b' bp' d X. split; [discriminate|exact Logic.I].
  - inversion E; subst. apply G; [split; [discriminate|exact Logic.I]|cbn; lia].
  - inversion E; subst. apply G; destruct (_ || _); try (split; [discriminate|exact Logic.I]); cbn; lia.
  - inversion E; subst. apply G; destruct (_ || _); try (split; [discriminate|exact Logic.I]); cbn; lia.
  - destruct (y_flag s); inversion E; subst; [apply G; [split; [discriminate|exact Logic.I]|cbn; lia]|].
    eapply next_go; [eauto|eauto|reflexivity|reflexivity|split; [discriminate|exact Logic.I]|cbn; lia].
  - cbn in LK. subst bp. eapply call_next; [eauto|eauto|eauto|discriminate|exact Logic.I|exact Logic.I| |discriminate]. intros bp' B. inversion B; subst. cbn. lia.
  - destruct (bstep_eq _ _ _ _ _ NB E) as (b' & bp' & d & X & ->). cbv zeta. destruct (append_mu _ _ _ _ X LK) as [L [-> |L2]].
    + exists SIdle, Idle. cbn [on_idle go w_buf y_pcs y_buf cs_pcs]. split; [eapply nth_set_same; eauto|]. split; [eapply nth_set_same; eauto|].
      split; [split; [discriminate|exact Logic.I]|]. cbn in *. lia.
    + assert (H : on_idle SIdle bp' = None) by (destruct bp'; try discriminate L2; auto). rewrite H.
      exists IAppW, bp'. cbn [w_buf y_pcs y_buf cs_pcs]. split; auto. split; [eapply nth_set_same; eauto|].
      split; [split; [discriminate|exact Logic.I]|]. cbn in *. lia.
  - destruct (c_ep (y_next s)); inversion E; subst; [discriminate NS|]. apply G; [split; [discriminate|exact Logic.I]|cbn; lia].
  - inversion E; subst. eapply next_go; [eauto|eauto|reflexivity|reflexivity|split; [discriminate|exact Logic.I]|cbn; lia].
  - destruct (c_ep (y_next s)); inversion E; subst; [|discriminate NS]. apply G; [split; [discriminate|exact Logic.I]|cbn; lia].
  - unfold deref in E. destruct (y_heap s a); inversion E; subst; [|discriminate NS].
    eapply next_go; [eauto|eauto|reflexivity|reflexivity|split; [discriminate|exact Logic.I]|cbn; lia].
  - destruct (y_heap s a) eqn:H; [|inversion E; subst; discriminate NS]. cbn in LK. subst bp.
    eapply call_next; [eauto|eauto|eauto|discriminate|apply O|exact Logic.I| |discriminate]. intros bp' B. cbn in B. inversion B; subst. cbn. lia.
  - assert (HT : head_there s) by (eapply stage_idle; eauto; exact Logic.I). destruct O as [_ [O1 O2]].
    assert (SK : seeks bp <> Some (od (bbuf s))).
    { destruct LK as (h & W & HH). destruct I as [IO _ _ IH _ _ _]. destruct (recon_one _ _ _ _ IO N eq_refl) as (_ & _ & _ & ST).
      cbn in ST. subst st. destruct IH as (_ & _ & IH & _). destruct (IH _ eq_refl) as (_ & _ & Q). rewrite Q in HH. inversion HH; subst.
      pose proof (k_refs _ _ _ _ K) as F. apply refs_out in F; [|intros n cur V; unfold head_there in HT; rewrite V in HT; contradiction].
      destruct W as [->| ->]; [|discriminate]. intro Z. inversion Z. destruct F as (_ & _ & _ & F & _). congruence. }
    eapply (view_next s s' t _ bp a 27 (fun h tl => RRead a h tl [])); eauto.
    + intros. cbn. lia.
    + intros b' bp' d X. split; [discriminate|]. split; [exact O1|]. eapply (old_kept s); eauto.
    + intros b' bp' d h tl X. split; [discriminate|]. split; [exact O1|]. eapply (old_kept s); eauto.
  - destruct (Nat.ltb_spec (h + length acc) tl); inversion E; subst; apply G; try exact O; cbn; rewrite ?app_length; cbn; lia.
  - unfold deref in E. destruct (y_heap s a); inversion E; subst; [|discriminate NS]. eapply next_go; [eauto|eauto|reflexivity|reflexivity|split; [discriminate|exact (proj2 O)]|cbn; lia].
  - eapply call_next; [eauto|eauto|eauto|discriminate|apply O|exact Logic.I| |discriminate]. intros bp' B. destruct LK as (h0 & tl0 & ->). cbn in B. inversion B; subst. cbn. lia.
  - assert (HT : head_there s) by (eapply stage_idle; eauto; exact Logic.I). destruct O as [_ [O1 O2]].
    assert (SK : seeks bp <> Some (od (bbuf s))) by (cbn in LK; destruct bp; try discriminate LK; discriminate).
    eapply (release_next s s' t _ _ bp 20);
      [exact K|exact N|exact NB|exact HT|apply zero_refs; auto|exact LK|exact E|intros; cbn; lia|intros; cbn; lia| |].
    + intros b' bp' d X NI. split; [discriminate|]. split; [exact O1|]. eapply (old_kept s); eauto.
    + intros b' bp' d X. split; [discriminate|]. split; [exact O1|]. eapply (old_kept s); eauto.
  - inversion E; subst. destruct O as [_ O]. destruct (c_ep (y_prev s)); apply G; try (split; [discriminate|]; cbn in *; tauto); cbn; lia.
  - destruct O as [_ [O1 O2]]. cbn in PO. rewrite PO, O1 in E. rewrite (proj2 (ep_eqb_eq (Some p) (Some p)) eq_refl) in E. cbn in E. inversion E; subst.
    apply G; [split; [discriminate|]; cbn in *; tauto|]. cbn. rewrite cell_refl. lia.
  - destruct O as [_ [O1 O2]]. destruct (cell_eqb (y_prev s) old) eqn:C; inversion E; subst.
    + eapply next_go; [eauto|eauto|reflexivity|reflexivity|split; [discriminate|exact O2]|cbn; rewrite C; lia].
    + apply G; [split; [discriminate|]; cbn in *; tauto|]. cbn. rewrite C. lia.
  - unfold deref in E. destruct (y_heap s p); inversion E; subst; [|discriminate NS]. eapply next_go; [eauto|eauto|reflexivity|reflexivity|split; [discriminate|exact (proj2 O)]|cbn; lia].
  - inversion E; subst. apply G; [exact O|cbn; rewrite cell_refl; lia].
  - destruct (cell_eqb (y_cur s) c) eqn:C; inversion E; subst.
    + eapply next_go; [eauto|eauto|reflexivity|reflexivity|split; [discriminate|exact (proj2 O)]|cbn; rewrite C; lia].
    + apply G; [exact O|cbn; rewrite C; lia].
  - inversion E; subst. eapply next_go; [eauto|eauto|reflexivity|reflexivity|split; [discriminate|exact (proj2 O)]|cbn; lia].
  - destruct (c_ep (y_next s)) as [a|]; [|inversion E; subst; discriminate NS].
    destruct (y_heap s a) as [x|]; [|inversion E; subst; discriminate NS]. cbn in PO. unfold BufConcModel.cexec in E. rewrite PO in E.
    inversion E; subst. exists (DAdvW n), bp. cbn [go w_heap w_buf y_pcs y_buf cs_pcs]. split; [eapply nth_set_same; eauto|]. split; auto.
    split; [split; [discriminate|exact (proj2 O)]|]. cbn. lia.
  - inversion E; subst. apply G; [split; [discriminate|exact Logic.I]|cbn; lia].
  - inversion E; subst. eapply next_go; [eauto|eauto|reflexivity|reflexivity|split; [discriminate|exact Logic.I]|cbn; lia].
  - inversion E; subst. eapply next_go; [eauto|eauto|reflexivity|reflexivity|split; [discriminate|exact Logic.I]|cbn; lia].
  - inversion E; subst. exists DFlag, bp. cbn [w_pcs y_pcs y_buf]. split; [|split; [auto|split; [split; [discriminate|exact Logic.I]|cbn; lia]]].
    rewrite nth_error_map, (nth_set_same _ _ _ _ N). auto.
  - inversion E; subst. eapply next_go; [eauto|eauto|reflexivity|reflexivity|split; [discriminate|exact Logic.I]|cbn; lia].
  - destruct O.
  - destruct O.
Qed.

Lemma clone_next : forall s t a bp s', nth_error (bpcs s) t = Some bp -> sexec s (Alloc t a) = Some s' -> y_stop s' = None ->
  forall p, nth_error (y_pcs s) t = Some p -> next_ok s s' t p bp.
Proof.
  intros s t a bp s' NB E NS p N. unfold SysModel.sexec in E. destruct (y_stop s); [discriminate|]. rewrite N in E.
  destruct p; try discriminate. destruct (y_heap s a); [discriminate|]. unfold deref in E.
  destruct (y_heap s e); inversion E; subst; [|discriminate NS].
  eapply next_go; [eauto|eauto|reflexivity|reflexivity|split; [discriminate|exact Logic.I]|cbn; lia].
Qed.

Lemma own_next : forall s st g t x p bp s', inv s st g -> kinv (y_buf s) -> nth_error (y_pcs s) t = Some p -> nth_error (bpcs s) t = Some bp ->
  okp s p -> own t x -> sexec s x = Some s' -> y_stop s' = None -> next_ok s s' t p bp.
Proof.
  intros s st g t x p bp s' I K N NB O [-> |[-> |[a ->]]] E NS.
  - unfold SysModel.sexec in E. destruct (y_stop s) eqn:S; [discriminate|]. rewrite N in E. eapply run_next; eauto.
  - unfold SysModel.sexec in E. destruct (y_stop s) eqn:S; [discriminate|]. rewrite N in E. destruct p; try discriminate; [|destruct O].
    inversion E; subst. eapply next_go; [eauto|eauto|reflexivity|reflexivity|split; [discriminate|exact Logic.I]|cbn; lia].
  - eapply clone_next; eauto.
Qed.

(** ** Bounds *)

Notation reach n s := (sreach lwm hwm cap (fun _ _ => True) (sys_init hwm cap n) s).

Lemma reach_inv : forall n s, 0 < hwm -> reach n s -> y_stop s = None -> (exists st g, inv s st g) /\ kinv (y_buf s).
Proof.
  intros n s HW C NS. split.
  - destruct (sys_reach _ _ _ _ _ _ C) as [[[X _]|A] _]; [auto|congruence].
  - apply (k_reach hwm cap _ n); auto. eapply calm_on_reach. eapply calm_none. exact C.
Qed.

Lemma stopped : forall s x, y_stop s <> None -> sexec s x = None.
Proof. intros s x H. unfold SysModel.sexec. destruct (y_stop s); congruence. Qed.

Lemma mu_pos : forall s t x p bp s', nth_error (y_pcs s) t = Some p -> nth_error (bpcs s) t = Some bp -> own t x -> sexec s x = Some s' ->
  0 < mu s p bp.
Proof.
  intros s t x p bp s' N NB [-> |[-> |[a ->]]] E; unfold SysModel.sexec in E; destruct (y_stop s); try discriminate; rewrite N in E.
  - assert (Z : forall k, bstep hwm cap s t k = Some s' -> 0 < bmu (bbuf s) bp).
    { intros k Q. destruct (bstep_eq _ _ _ _ _ NB Q) as (b' & bp' & d & X & _).
      destruct bp; cbn in X; try discriminate X; cbn; try lia; repeat match goal with |- context[if ?c then _ else _] => destruct c end; lia. }
    destruct p; cbn [SysModel.run] in E; try discriminate; cbn; try lia;
      try (repeat match goal with |- context[if ?c then _ else _] => destruct c end; lia); eauto.
    destruct j; cbn; try lia; try (destruct (c_ep (y_cur s)); lia); destruct (cell_eqb _ _); lia.
  - destruct p; try discriminate; cbn; lia.
  - destruct p; try discriminate. cbn. lia.
Qed.

Lemma solo_bound : forall t k s s', solo lwm hwm cap t k s s' -> forall n p bp, 0 < hwm -> reach n s -> nth_error (y_pcs s) t = Some p ->
  nth_error (bpcs s) t = Some bp -> okp s p -> k <= mu s p bp.
Proof.
  intros t k s s' S. induction S as [|k s s1 x s2 OW E S IH]; intros n p bp HW C N NB O; [lia|].
  pose proof (mu_pos _ _ _ _ _ _ N NB OW E) as MP.
  destruct (y_stop s) eqn:NS; [rewrite stopped in E by congruence; discriminate|].
  destruct (reach_inv _ _ HW C NS) as [(st & g & I) K].
  destruct (y_stop s1) eqn:NS1.
  - inversion S; subst; [lia|]. rewrite stopped in H0 by congruence. discriminate.
  - destruct (own_next _ _ _ _ _ _ _ _ I K N NB O OW E NS1) as (p' & bp' & N' & NB' & O' & L).
    specialize (IH n p' bp' HW ltac:(econstructor; eauto) N' NB' O'). lia.
Qed.

Lemma bmu_le : forall b bp, bmu b bp <= 9 /\ ((exists h, seeks bp = Some h \/ bp = GTail h) -> bmu b bp <= 7) /\ (releasing bp = true -> bmu b bp <= 5).
Proof.
  intros b bp. destruct bp; cbn; repeat match goal with |- context[if ?c then _ else _] => destruct c end;
    (split; [lia|]); (split; [|intros; try discriminate; lia]); intros (x & [H|H]); try discriminate; lia.
Qed.

Lemma gmu_le : forall s g, gmu s g <= 5.
Proof. intros s []; cbn; try lia; try (destruct (c_ep _); lia); destruct (cell_eqb _ _); lia. Qed.
Lemma emu_le : forall s j, emu s j <= 5.
Proof. intros s []; cbn; try lia; try (destruct (c_ep _); lia); destruct (cell_eqb _ _); lia. Qed.
Lemma vmu_le : forall b v, vmu b v <= 6.
Proof. intros b []; cbn; try lia. destruct (head_eqb _ _); lia. Qed.

Lemma mu_le : forall s st g t p bp, inv s st g -> kinv (y_buf s) -> nth_error (y_pcs s) t = Some p -> nth_error (bpcs s) t = Some bp ->
  (inserting p = true -> mu s p bp <= 26) /\ (reading p = true -> mu s p bp <= 24 + 2 * hwm) /\
  (rebuilding p = true -> mu s p bp <= 34 + 2 * hwm).
Proof.
  intros s st g t p bp I K N NB. destruct (i_pcs _ _ _ _ _ I _ _ _ N NB) as [PO LK].
  assert (V : forall h tl, bp = Hold h tl -> tl - h <= 2 * hwm).
  { intros h tl ->. destruct (held_close _ _ _ _ _ h tl K (nth_error_In _ _ NB) eq_refl) as (A1 & A2 & A3 & A4).
    pose proof (j_cnt _ _ _ (k_j _ _ _ _ K)). lia. }
  pose proof (bmu_le (bbuf s) bp) as (B1 & B2 & B3). pose proof (vmu_le (bbuf s) (adv s)) as VM.
  destruct p; cbn [inserting reading rebuilding mu]; try (split; [|split]; intros; discriminate || lia).
  - pose proof (gmu_le s g0). destruct w; split; [|split| |split]; intros; discriminate || lia.
  - pose proof (emu_le s j). destruct f; cbn [amu]; (split; [|split]); intros; discriminate || lia.
  - cbn in LK. destruct LK as (W & _). specialize (V _ _ W). split; [|split]; intros; discriminate || lia.
  - cbn in LK. destruct LK as (h & W & _). specialize (B2 (ex_intro _ h W)). split; [|split]; intros; discriminate || lia.
  - cbn in LK. destruct LK as (W & _). specialize (V _ _ W). split; [|split]; intros; discriminate || lia.
  - destruct (cell_eqb _ _); split; [|split| |split]; intros; discriminate || lia.
  - destruct (cell_eqb _ _); split; [|split| |split]; intros; discriminate || lia.
Qed.

(** ** Progress *)

Lemma fresh_addr : forall n s, reach n s -> y_stop s = None -> exists a, y_heap s a = None.
Proof.
  intros n s C NS.
  destruct (y_heap s 0) eqn:H0; [|eauto]. destruct (y_heap s 1) eqn:H1; [|eauto].
  destruct (y_heap s 2) eqn:H2; [|eauto]. destruct (y_heap s 3) eqn:H3; [|eauto]. exfalso.
  assert (Q : length [0; 1; 2; 3] <= 3).
  { eapply live_few; eauto.
    - repeat constructor; cbn; intuition lia.
    - intros x I. repeat (destruct I as [<-|I]; [congruence|]). destruct I. }
  cbn in Q. lia.
Qed.

Theorem progress : forall n s t p, 0 < hwm -> reach n s -> y_stop s = None -> nth_error (y_pcs s) t = Some p ->
  p <> SIdle -> p <> WWait -> exists x s', own t x /\ sexec s x = Some s'.
Proof.
  intros n s t p HW C NS N N1 N2. destruct (reach_inv _ _ HW C NS) as [(st & g & I) K].
  assert (IB : exists bp, nth_error (bpcs s) t = Some bp).
  { pose proof (i_len _ _ _ _ _ I) as L. destruct (nth_error (bpcs s) t) eqn:Q; [eauto|]. apply nth_error_None in Q.
    assert (nth_error (y_pcs s) t = None) by (apply nth_error_None; lia). congruence. }
  destruct IB as [bp NB]. destruct (i_pcs _ _ _ _ _ I _ _ _ N NB) as [PO LK].
  assert (RUN : (exists s', run s t p = Some s') -> exists x s', own t x /\ sexec s x = Some s').
  { intros [s' E]. exists (UStep t), s'. split; [left; auto|]. unfold SysModel.sexec. rewrite NS, N. auto. }
  assert (CL : forall c q, (exists bp', begin c bp = Some bp') -> exists s', bcall hwm cap s t c q = Some s').
  { intros c q [bp' B]. unfold bcall, BufConcModel.cexec. rewrite NB, B. eauto. }
  assert (ST : forall k, (bp <> Idle /\ forall h tl, bp <> Hold h tl) -> exists s', bstep hwm cap s t k = Some s').
  { intros k [B1 B2]. unfold bstep, BufConcModel.cexec. rewrite NB.
    assert (X : exists b' bp', exec (bbuf s) bp = Some (b', bp')).
    { destruct bp; try congruence; try (exfalso; eapply B2; reflexivity); cbn;
        repeat match goal with |- context[if ?c then _ else _] => destruct c end; eauto. }
    destruct X as (b' & bp' & ->). cbn [cs_pcs]. rewrite (nth_set_same _ _ _ _ NB). destruct (k bp'); eauto. }
  assert (VW : (exists h, (seeks bp = Some h \/ bp = GTail h) /\ True) -> bp <> Idle /\ forall h tl, bp <> Hold h tl).
  { intros (h & [W| ->] & _); [destruct bp; try discriminate W|]; split; intros; discriminate. }
  assert (RL : releasing bp = true -> bp <> Idle /\ forall h tl, bp <> Hold h tl).
  { intro W; destruct bp; try discriminate W; split; intros; discriminate. }
  destruct p; try contradiction; try (apply RUN; cbn; eauto; fail).
  - apply RUN. cbn. destruct (y_heap s e); eauto. cbn in LK. apply CL. rewrite LK. cbn. eauto.
  - apply RUN. cbn [SysModel.run]. apply ST. apply VW. destruct LK as (h & W & _). eauto.
  - apply RUN. cbn [SysModel.run]. destruct k; eauto; destruct (_ <? _); eauto.
  - apply RUN. cbn. apply CL. destruct LK as (h & tl & ->). cbn. eauto.
  - apply RUN. cbn. apply CL. destruct LK as (h & tl & ->). cbn. eauto.
  - apply RUN. cbn. destruct (y_flag s); eauto.
  - apply RUN. cbn. apply CL. cbn in LK. rewrite LK. cbn. eauto.
  - apply RUN. cbn [SysModel.run]. apply ST. cbn in LK. destruct bp; try discriminate LK; split; intros; discriminate.
  - apply RUN. cbn. destruct (c_ep (y_next s)); eauto.
  - destruct (fresh_addr _ _ C NS) as [a A]. exists (Alloc t a). eexists. split; [right; eauto|].
    unfold SysModel.sexec. rewrite NS, N, A. reflexivity.
  - apply RUN. cbn. destruct (c_ep (y_next s)); eauto.
  - apply RUN. cbn. destruct (y_heap s a); eauto. cbn in LK. apply CL. rewrite LK. cbn. eauto.
  - apply RUN. cbn [SysModel.run]. apply ST. apply VW. destruct LK as (h & W & _). eauto.
  - apply RUN. cbn [SysModel.run]. destruct (_ <? _); eauto.
  - apply RUN. cbn. apply CL. destruct LK as (h0 & tl0 & ->). cbn. eauto.
  - apply RUN. cbn in PO |- *. destruct (c_ep (y_next s)) as [a|]; eauto. destruct (y_heap s a); eauto. rewrite PO. eauto.
  - apply RUN. cbn [SysModel.run]. unfold BufConcModel.cexec.
    assert (X : exists b v, vexec (bbuf s) (adv s) = Some (b, v)).
    { cbn in PO. destruct (adv s) eqn:V; cbn; try congruence; repeat match goal with |- context[if ?c then _ else _] => destruct c end; eauto.
      exfalso. destruct I as [IO _ _ IH _ _ _]. destruct (recon_one _ _ _ _ IO N eq_refl) as (_ & _ & _ & SG).
      cbn in SG. destruct SG as [a ->]. destruct IH as ((h & _ & A) & _). rewrite V in A. auto. }
    destruct X as (b & v & ->). eauto.
Qed.

(** ** Calls end *)

Lemma ends : forall m n s t p bp, 0 < hwm -> reach n s -> y_stop s = None -> nth_error (y_pcs s) t = Some p ->
  nth_error (bpcs s) t = Some bp -> okp s p -> mu s p bp <= m -> mu s p bp <= 34 + 2 * hwm ->
  exists k s', k <= m /\ solo lwm hwm cap t k s s' /\ over t s'.
Proof.
  induction m as [m IH] using lt_wf_ind. intros n s t p bp HW C NS N NB O M B.
  assert (D : p = SIdle \/ (p <> SIdle /\ p <> WWait)).
  { destruct p; auto; right; split; try discriminate; cbn in B; lia. }
  destruct D as [-> |[D1 D2]].
  - exists 0, s. split; [lia|]. split; [constructor|]. right. auto.
  - destruct (progress _ _ _ _ HW C NS N D1 D2) as (x & s1 & OW & E).
    assert (MP := mu_pos _ _ _ _ _ _ N NB OW E). assert (C1 : reach n s1) by (econstructor; eauto).
    destruct (y_stop s1) eqn:NS1.
    + exists 1, s1. split; [lia|]. split; [econstructor; eauto; constructor|]. left.
      destruct (sys_reach _ _ _ _ _ _ C1) as [[[_ A]|A] _]; congruence.
    + destruct (reach_inv _ _ HW C NS) as [(st & g & I) K].
      destruct (own_next _ _ _ _ _ _ _ _ I K N NB O OW E NS1) as (p' & bp' & N' & NB' & O' & L).
      destruct (IH (mu s1 p' bp') ltac:(lia) n s1 t p' bp' HW C1 NS1 N' NB' O') as (k & s' & A1 & A2 & A3); [lia|lia|].
      exists (S k), s'. split; [lia|]. split; [econstructor; eauto|auto].
Qed.

(** What holds of the threads that are free to run to the end. *)
Definition free s p : Prop :=
  inserting p = true \/ (reading p = true /\ can_read s) \/ (rebuilding p = true /\ can_rebuild s p).
Definition steps p : nat := if inserting p then 26 else if reading p then 24 + 2 * hwm else 34 + 2 * hwm.

Lemma free_okp : forall s p, free s p -> okp s p.
Proof.
  intros s p [H|[[H1 H2]|[H1 H2]]]; unfold okp.
  - destruct p; cbn in *; try discriminate; try (split; [discriminate|auto]); auto.
    + destruct w; [discriminate|]. split; [discriminate|auto].
    + destruct f; try discriminate. split; [discriminate|auto].
  - destruct p; cbn in *; try discriminate; auto. destruct f; auto. apply H2.
  - destruct p; cbn in *; try discriminate; (split; [discriminate|auto]).
Qed.

Lemma free_mu : forall s st g t p bp, inv s st g -> kinv (y_buf s) -> nth_error (y_pcs s) t = Some p -> nth_error (bpcs s) t = Some bp ->
  free s p -> mu s p bp <= steps p /\ steps p <= 34 + 2 * hwm.
Proof.
  intros s st g t p bp I K N NB F. destruct (mu_le _ _ _ _ _ _ I K N NB) as (M1 & M2 & M3). unfold steps. split.
  - unfold free in F. destruct (inserting p); auto. destruct (reading p); auto.
    destruct F as [F|[[F _]|[F _]]]; [discriminate|discriminate|auto].
  - destruct (inserting p); [lia|]. destruct (reading p); lia.
Qed.

Lemma bp_at : forall n s t p, 0 < hwm -> reach n s -> y_stop s = None -> nth_error (y_pcs s) t = Some p ->
  exists st g bp, inv s st g /\ kinv (y_buf s) /\ nth_error (bpcs s) t = Some bp.
Proof.
  intros n s t p HW C NS N. destruct (reach_inv _ _ HW C NS) as [(st & g & I) K]. exists st, g.
  pose proof (i_len _ _ _ _ _ I) as L. destruct (nth_error (bpcs s) t) eqn:Q; [eauto|]. apply nth_error_None in Q.
  assert (nth_error (y_pcs s) t = None) by (apply nth_error_None; lia). congruence.
Qed.

(** C74 *)
Theorem solo_steps : forall ok n s t p k s', 0 < hwm -> sreach lwm hwm cap ok (sys_init hwm cap n) s -> nth_error (y_pcs s) t = Some p ->
  free s p -> solo lwm hwm cap t k s s' -> k <= steps p.
Proof.
  intros ok n s t p k s' HW C N F S. apply (sreach_mono _ _ _ ok (fun _ _ => True)) in C; [|auto].
  destruct (y_stop s) eqn:NS.
  - inversion S; subst; [lia|]. rewrite stopped in H0 by congruence. discriminate.
  - destruct (bp_at _ _ _ _ HW C NS N) as (st & g & bp & I & K & NB).
    pose proof (solo_bound _ _ _ _ S n p bp HW C N NB (free_okp _ _ F)).
    pose proof (free_mu _ _ _ _ _ _ I K N NB F). lia.
Qed.

Theorem solo_ends : forall ok n s t p, 0 < hwm -> sreach lwm hwm cap ok (sys_init hwm cap n) s -> y_stop s = None ->
  nth_error (y_pcs s) t = Some p -> free s p ->
  exists k s', k <= steps p /\ solo lwm hwm cap t k s s' /\ over t s'.
Proof.
  intros ok n s t p HW C NS N F. apply (sreach_mono _ _ _ ok (fun _ _ => True)) in C; [|auto].
  destruct (bp_at _ _ _ _ HW C NS N) as (st & g & bp & I & K & NB).
  destruct (free_mu _ _ _ _ _ _ I K N NB F) as [M1 M2].
  destruct (ends (mu s p bp) n s t p bp HW C NS N NB (free_okp _ _ F)) as (k & s' & A1 & A2 & A3); [lia|lia|].
  exists k, s'. split; [lia|]. auto.
Qed.

Theorem solo_runs : forall ok n s t p, 0 < hwm -> sreach lwm hwm cap ok (sys_init hwm cap n) s -> y_stop s = None ->
  nth_error (y_pcs s) t = Some p -> p <> SIdle -> p <> WWait -> exists x s', own t x /\ sexec s x = Some s'.
Proof.
  intros ok n s t p HW C NS N. apply (sreach_mono _ _ _ ok (fun _ _ => True)) in C; [|auto]. eapply progress; eauto.
Qed.

Theorem insert_steps : forall ok n s t p k s', 0 < hwm -> sreach lwm hwm cap ok (sys_init hwm cap n) s ->
  nth_error (y_pcs s) t = Some p -> inserting p = true -> solo lwm hwm cap t k s s' -> k <= 26.
Proof.
  intros ok n s t p k s' HW C N F S. pose proof (solo_steps _ _ _ _ _ _ _ HW C N (or_introl F) S) as L.
  unfold steps in L. rewrite F in L. auto.
Qed.

Theorem insert_ends : forall ok n s t p, 0 < hwm -> sreach lwm hwm cap ok (sys_init hwm cap n) s -> y_stop s = None ->
  nth_error (y_pcs s) t = Some p -> inserting p = true ->
  exists k s', k <= 26 /\ solo lwm hwm cap t k s s' /\ over t s'.
Proof.
  intros ok n s t p HW C NS N F. destruct (solo_ends _ _ _ _ _ HW C NS N (or_introl F)) as (k & s' & L & X).
  unfold steps in L. rewrite F in L. eauto.
Qed.

Lemma read_insert : forall p, reading p = true -> inserting p = false.
Proof. destruct p; cbn; auto; try discriminate; [destruct w|destruct f]; auto; discriminate. Qed.
Lemma rebuild_other : forall p, rebuilding p = true -> inserting p = false /\ reading p = false.
Proof. destruct p; cbn; auto; discriminate. Qed.

Theorem read_steps : forall ok n s t p k s', 0 < hwm -> sreach lwm hwm cap ok (sys_init hwm cap n) s ->
  nth_error (y_pcs s) t = Some p -> reading p = true -> can_read s -> solo lwm hwm cap t k s s' -> k <= 24 + 2 * hwm.
Proof.
  intros ok n s t p k s' HW C N F G S. pose proof (solo_steps _ _ _ _ _ _ _ HW C N (or_intror (or_introl (conj F G))) S) as L.
  unfold steps in L. rewrite F, read_insert in L by auto. auto.
Qed.

Theorem read_ends : forall ok n s t p, 0 < hwm -> sreach lwm hwm cap ok (sys_init hwm cap n) s -> y_stop s = None ->
  nth_error (y_pcs s) t = Some p -> reading p = true -> can_read s ->
  exists k s', k <= 24 + 2 * hwm /\ solo lwm hwm cap t k s s' /\ over t s'.
Proof.
  intros ok n s t p HW C NS N F G. destruct (solo_ends _ _ _ _ _ HW C NS N (or_intror (or_introl (conj F G)))) as (k & s' & L & X).
  unfold steps in L. rewrite F, read_insert in L by auto. eauto.
Qed.

Theorem rebuild_steps : forall ok n s t p k s', 0 < hwm -> sreach lwm hwm cap ok (sys_init hwm cap n) s ->
  nth_error (y_pcs s) t = Some p -> rebuilding p = true -> can_rebuild s p -> solo lwm hwm cap t k s s' -> k <= 34 + 2 * hwm.
Proof.
  intros ok n s t p k s' HW C N F G S. pose proof (solo_steps _ _ _ _ _ _ _ HW C N (or_intror (or_intror (conj F G))) S) as L.
  unfold steps in L. destruct (rebuild_other _ F) as [E1 E2]. rewrite E1, E2 in L. auto.
Qed.

Theorem rebuild_ends : forall ok n s t p, 0 < hwm -> sreach lwm hwm cap ok (sys_init hwm cap n) s -> y_stop s = None ->
  nth_error (y_pcs s) t = Some p -> rebuilding p = true -> can_rebuild s p ->
  exists k s', k <= 34 + 2 * hwm /\ solo lwm hwm cap t k s s' /\ over t s'.
Proof.
  intros ok n s t p HW C NS N F G. destruct (solo_ends _ _ _ _ _ HW C NS N (or_intror (or_intror (conj F G)))) as (k & s' & L & X).
  unfold steps in L. destruct (rebuild_other _ F) as [E1 E2]. rewrite E1, E2 in L. eauto.
Qed.

(** ** Calls that do not end *)

(** [k] steps of thread [t]. *)
Fixpoint walk (t k : nat) s : option (sys R) :=
  match k with
  | 0 => Some s
  | S k' => match sexec s (UStep t) with Some s' => walk t k' s' | None => None end
  end.

Lemma walk_alive : forall t k s s', walk t (S k) s = Some s' -> ~ over t s.
Proof.
  intros t k s s' W [H|H]; cbn [walk] in W; unfold SysModel.sexec in W.
  - rewrite H in W. discriminate.
  - destruct (y_stop s); [discriminate|]. rewrite H in W. discriminate.
Qed.

Lemma solo_snoc : forall t k s s1 x s2, solo lwm hwm cap t k s s1 -> own t x -> sexec s1 x = Some s2 -> solo lwm hwm cap t (S k) s s2.
Proof. intros t k s s1 x s2 S. induction S; intros O E; [eapply so_step; eauto; apply so_refl|].
  eapply so_step; [exact H|exact H0|auto].
Qed.

Theorem spins : forall t m s, walk t (S m) s = Some s -> forall k, exists s', solo lwm hwm cap t k s s' /\ ~ over t s'.
Proof.
  intros t m s W k.
  enough (Q : exists s', solo lwm hwm cap t k s s' /\ exists j, walk t (S j) s' = Some s).
  { destruct Q as (s' & S & j & J). exists s'. split; auto. eapply walk_alive; eauto. }
  induction k as [|k (s1 & S & j & J)].
  - exists s. split; [constructor|eauto].
  - cbn [walk] in J. destruct (sexec s1 (UStep t)) as [s2|] eqn:E; [|discriminate]. exists s2.
    split; [eapply solo_snoc; eauto; left; auto|]. destruct j as [|j]; [|eauto]. cbn [walk] in J. inversion J; subst. eauto.
Qed.

End SO.

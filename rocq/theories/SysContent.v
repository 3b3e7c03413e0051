(** What jobs read in calm executions. *)
From Coq Require Import List Arith ZArith NArith Lia Bool Permutation.
From Verif Require Import Base ListLemmas RecordModel BufferModel BufConcModel BufConcProofs BufConcView BufConcData SysModel SysInv
  SysSteps SysRun SysMain SysCalm.
Import ListNotations.

Lemma NoDup_app_l : forall {A} (l l' : list A), NoDup (l ++ l') -> NoDup l.
Proof.
  induction l; intros l' N; [constructor|]. inversion N; subst. constructor; eauto. intro I. apply H1. apply in_app_iff. auto.
Qed.

Lemma NoDup_app_r : forall {A} (l l' : list A), NoDup (l ++ l') -> NoDup l'.
Proof. induction l; intros l' N; auto. inversion N; subst. auto. Qed.

Section SX.
Context {R : Type} {RO : RecOps R}.
Variables lwm hwm cap : nat.
Variable SL : nat -> Prop.
Notation floor := (floor cap SL).
Notation floors := (floors cap SL).
Notation exec := (exec hwm cap).
Notation cexec := (cexec hwm cap).
Notation sexec := (sexec lwm hwm cap).
Notation run := (run lwm hwm cap).
Notation inv := (inv hwm cap).
Notation jinv := (jinv hwm cap).
Notation bpcs s := (cs_pcs (y_buf s)).
Notation tail s := (cb_tail (cs_buf (y_buf s))).
Notation done s := (cs_done (y_buf s)).
Notation acked := (list (nat * (R * bool))).
Implicit Types (s : sys R) (p q : spc R) (b : cstate R).

(** ** Records in place *)

(** [l] holds the positions from [h] on; those that [d] lists are right, in the slots [SL]. *)
Definition right (d : acked) (l : list (wrapped R)) (h : nat) : Prop :=
  forall y r ts, In (y, (r, ts)) d -> SL (y mod cap) -> h <= y < h + length l -> nth_error l (y - h) = Some (append_rec r ts (y mod cap)).

(** [l] is complete below [n]. *)
Definition full b (l : list (wrapped R)) (n : nat) : Prop :=
  floor b n /\ length l = n /\ right (cs_done b) l 0.

Definition ep_full s (e : nat) : Prop :=
  exists x, y_heap s e = Some x /\ full (y_buf s) (e_recs x) (e_head x).

Definition known s (seen : acked) : Prop := exists l, done s = l ++ seen.
Definition before (seen : acked) (tl : nat) : Prop := forall y x, In (y, x) seen -> y < tl.

Definition pc_full s p : Prop :=
  match p with
  | SGet _ (ForJob _ seen) | JFirst _ seen => known s seen
  | JView k e seen pre | JHold k e seen pre =>
      known s seen /\ (k = KStatic -> exists m, full (y_buf s) (concat pre) m /\ headof s e = Some m)
  | JRead k e seen pre h tl acc =>
      known s seen /\ (k = KStatic -> full (y_buf s) (concat pre) h) /\ before seen tl /\ right seen acc h /\
      h + length acc <= tl /\ tl <= tail s
  | JShards k e seen h tl acc =>
      k <> KTouch -> known s seen /\ before seen tl /\ right seen acc h /\
      h + length acc <= tl /\ tl <= tail s /\ (k = KQuery \/ k = KStatic -> h + length acc = tl)
  | RRead a h tl acc => right (done s) acc h /\ h + length acc <= tl
  | RFlush a tl acc => right (done s) acc (tl - length acc) /\ length acc <= tl /\ headof s a = Some (tl - length acc)
  | NStore _ a _ _ => ep_full s a
  | DPrev _ c | DPubSt c => forall e, c_ep c = Some e -> ep_full s e
  | _ => True
  end.

Definition flushed p : option nat :=
  match p with
  | RRel _ n | RRelW _ n | DLoad n | DRet n _ | DRetCas n _ _ | DDel n _
  | DCur n | DCurCas n _ | DPrev n _ | DAdv n | DAdvW n => Some n
  | _ => None
  end.

(** How far the next epoch goes. *)
Definition upto s (x : epoch R) (n : nat) : Prop :=
  (exists p, In p (y_pcs s) /\ flushed p = Some n) \/
  ((forall p, In p (y_pcs s) -> flushed p = None) /\ n = e_head x).

Definition ans_ok s (a : answer R) : Prop :=
  match a with
  | AList seen runs buf =>
      let res := concat runs ++ buf in
      (forall y r ts, In (y, (r, ts)) seen -> SL (y mod cap) -> nth_error res y = Some (append_rec r ts (y mod cap))) /\
      length seen <= length res <= tail s /\ NoDup (map fst seen)
  | ACount seen n => length seen <= n <= tail s
  end.

Record cinv s : Prop := {
  k_cells : forall e, c_ep (y_cur s) = Some e \/ c_ep (y_prev s) = Some e -> ep_full s e;
  k_next : forall a, c_ep (y_next s) = Some a ->
    exists x n, y_heap s a = Some x /\ upto s x n /\ full (y_buf s) (e_recs x) n;
  k_pcs : forall p, In p (y_pcs s) -> pc_full s p
}.

(** ** Stability *)

Definition bufstep b b' : Prop := b' = b \/ exists a, cexec b a = Some b'.

Lemma bufstep_tail : forall b b', bufstep b b' -> cb_tail (cs_buf b) <= cb_tail (cs_buf b').
Proof. intros b b' [->|(a & E)]; auto. apply (cexec_floor _ _ _ _ _ E). Qed.

Lemma bufstep_floor : forall b b' n, bufstep b b' -> floor b n -> floor b' n.
Proof. intros b b' n [->|(a & E)]; auto. intro. eapply floor_step; eauto. Qed.

Lemma bufstep_done : forall b b', bufstep b b' ->
  exists l, cs_done b' = l ++ cs_done b /\ forall y x, In (y, x) l -> In y (in_flight b).
Proof.
  intros b b' [->|(a & E)]; [exists []; split; [auto|contradiction]|]. apply (cexec_floor _ _ _ _ _ E).
Qed.

Lemma right_step : forall b b' l h, bufstep b b' -> floor b (h + length l) -> right (cs_done b) l h -> right (cs_done b') l h.
Proof.
  intros b b' l h S [_ F] H y r ts I ZS Y. destruct (bufstep_done _ _ S) as (d & E & D). rewrite E in I.
  apply in_app_iff in I as [I|I]; auto. specialize (F y (D _ _ I) ZS). lia.
Qed.

Lemma full_step : forall b b' l n, bufstep b b' -> full b l n -> full b' l n.
Proof.
  intros b b' l n S (F & L & H). split; [eapply bufstep_floor; eauto|]. split; auto.
  eapply right_step; eauto. cbn. rewrite L. auto.
Qed.

Lemma known_step : forall s s' seen, bufstep (y_buf s) (y_buf s') -> known s seen -> known s' seen.
Proof.
  intros s s' seen S [l E]. destruct (bufstep_done _ _ S) as (d & D & _). exists (d ++ l). rewrite D, E, app_assoc. auto.
Qed.

Lemma ep_full_step : forall s s' e, bufstep (y_buf s) (y_buf s') -> y_heap s' e = y_heap s e -> ep_full s e -> ep_full s' e.
Proof. intros s s' e S H (x & X & F). exists x. rewrite H. split; auto. eapply full_step; eauto. Qed.

Lemma ans_step : forall s s' a, tail s <= tail s' -> ans_ok s a -> ans_ok s' a.
Proof. intros s s' [] T H; cbn in *; intuition lia. Qed.

(** Threads outside reconstructions. *)
Lemma pc_full_other : forall s s' p, bufstep (y_buf s) (y_buf s') -> recon p = false ->
  (forall e, pinned p = Some e -> headof s' e = headof s e) -> pc_full s p -> pc_full s' p.
Proof.
  intros s s' p S RP H PF. pose proof (bufstep_tail _ _ S) as T.
  destruct p; cbn in RP; try discriminate; cbn in *; auto.
  - destruct w; [eapply known_step; eauto|discriminate].
  - eapply known_step; eauto.
  - destruct PF as [K P]. split; [eapply known_step; eauto|]. intro E. destruct (P E) as (m & P1 & P2).
    exists m. split; [eapply full_step; eauto|]. rewrite H; auto.
  - destruct PF as [K P]. split; [eapply known_step; eauto|]. intro E. destruct (P E) as (m & P1 & P2).
    exists m. split; [eapply full_step; eauto|]. rewrite H; auto.
  - destruct PF as (K & P & Q). split; [eapply known_step; eauto|]. split; [intro E; eapply full_step; eauto|].
    intuition lia.
  - intro NK. destruct (PF NK) as (K & Q). split; [eapply known_step; eauto|]. intuition lia.
Qed.

(** All threads, when no epoch changes. *)
Lemma pc_full_same : forall s s' p, bufstep (y_buf s) (y_buf s') -> y_heap s' = y_heap s -> floors s -> In p (y_pcs s) ->
  pc_full s p -> pc_full s' p.
Proof.
  intros s s' p S H F I PF. assert (HO : forall e, headof s' e = headof s e) by (intro; unfold headof; rewrite H; auto).
  destruct (recon p) eqn:RP; [|eapply pc_full_other; eauto].
  destruct p; cbn in RP; try discriminate; cbn in *; auto.
  - destruct w; [discriminate|auto].
  - eapply ep_full_step; eauto. rewrite H. auto.
  - destruct PF as [P1 P2]. split; auto. eapply right_step; eauto. pose proof (F _ tl I eq_refl) as [F1 F2].
    split; [lia|]. intros y Y ZS. specialize (F2 y Y ZS). lia.
  - destruct PF as (P1 & P2 & P3). rewrite HO. split; auto. eapply right_step; eauto. pose proof (F _ tl I eq_refl) as [F1 F2].
    split; [lia|]. intros y Y ZS. specialize (F2 y Y ZS). lia.
  - intros e E. eapply ep_full_step; eauto. rewrite H. auto.
  - intros e E. eapply ep_full_step; eauto. rewrite H. auto.
Qed.

(** A step that changes no epoch. *)
Lemma frame_c : forall s s' t p q, cinv s -> floors s -> bufstep (y_buf s) (y_buf s') -> y_heap s' = y_heap s ->
  nth_error (y_pcs s) t = Some p -> y_pcs s' = set_nth t q (y_pcs s) ->
  (forall e, c_ep (y_cur s') = Some e \/ c_ep (y_prev s') = Some e -> ep_full s e) ->
  (forall a, c_ep (y_next s') = Some a -> c_ep (y_next s) = Some a /\ flushed q = flushed p) ->
  pc_full s' q -> cinv s'.
Proof.
  intros s s' t p q K F S H N E CE NX PF. constructor.
  - intros e C. eapply ep_full_step; eauto. rewrite H. auto.
  - intros a A. destruct (NX a A) as [NA FL]. destruct (k_next _ K a NA) as (x & n & X & U & FU). exists x, n. rewrite H.
    split; auto. split; [|eapply full_step; eauto]. unfold upto in *. rewrite E. destruct U as [(z & Z & ZF)|[U ->]].
    + left. apply In_nth_error in Z as [u U]. destruct (Nat.eq_dec u t) as [->|NE].
      * exists q. split; [|congruence]. apply nth_error_In with t. eapply nth_set_same; eauto.
      * exists z. split; auto. apply nth_error_In with u. rewrite nth_set_other; auto.
    + right. split; auto. intros z Z. apply in_set_nth_other in Z as [->|(u & _ & W)].
      * rewrite FL. apply U. eapply nth_error_In; eauto.
      * apply U. eapply nth_error_In; eauto.
  - intros z Z. rewrite E in Z. apply in_set_nth_other in Z as [->|(u & _ & W)]; auto.
    apply nth_error_In in W. eapply (pc_full_same s s'); eauto. apply (k_pcs _ K). auto.
Qed.

(** ... of the reconstruction, that does. *)
Lemma wild_c : forall s s' st g t p q, inv s st g -> cinv s -> bufstep (y_buf s) (y_buf s') ->
  nth_error (y_pcs s) t = Some p -> recon p = true -> y_pcs s' = set_nth t q (y_pcs s) ->
  (forall e, active g e -> y_heap s' e = y_heap s e) ->
  (forall e, c_ep (y_cur s') = Some e \/ c_ep (y_prev s') = Some e -> ep_full s' e) ->
  (forall a, c_ep (y_next s') = Some a ->
    exists x n, y_heap s' a = Some x /\ upto s' x n /\ full (y_buf s') (e_recs x) n) ->
  pc_full s' q -> cinv s'.
Proof.
  intros s s' st g t p q I K S N RP E H CE NX PF. constructor; auto.
  intros z Z. rewrite E in Z. apply in_set_nth_other in Z as [->|(u & NE & U)]; auto.
  eapply (pc_full_other s s'); eauto.
  - eapply (recon_other _ _ _ _ _ _ (i_own _ _ _ _ _ I) N RP U NE).
  - intros e P. unfold headof. rewrite H; auto.
    destruct (pinned_active _ _ _ _ _ (i_pins _ _ _ _ _ I) U P) as (_ & [->|(x & X & _)]); [left|right]; eauto.
  - apply (k_pcs _ K). eapply nth_error_In; eauto.
Qed.

(** ** The epochs in use *)

Lemma cells_active : forall s st g e, cells s st g -> c_ep (y_cur s) = Some e \/ c_ep (y_prev s) = Some e -> active g e.
Proof.
  intros s st g e [_ C] H. unfold active.
  assert (X : y_cur s = Cell (Some (g_act g)) (g_k g) \/ y_cur s = null) by (destruct st; tauto).
  assert (Y : y_prev s = pcell (g_prev g) \/ y_prev s = null \/ y_prev s = Cell (Some (g_act g)) (g_k g)) by (destruct st; tauto).
  destruct H as [H|H].
  - destruct X as [X|X]; rewrite X in H; inversion H; auto.
  - destruct Y as [Y|[Y|Y]]; rewrite Y in H; [|discriminate|inversion H; auto].
    destruct (g_prev g) as [[a b]|]; inversion H; subst. right. eauto.
Qed.

Lemma active_full : forall s st g e, inv s st g -> cinv s -> active g e -> ep_full s e.
Proof.
  intros s st g e I K A. pose proof (i_cells _ _ _ _ _ I) as [_ C].
  destruct A as [->|(q & Q)].
  - assert (X : c_ep (y_cur s) = Some (g_act g) \/ c_ep (y_prev s) = Some (g_act g) \/
              exists a n c, st = StHand a n c /\ c_ep c = Some (g_act g)).
    { destruct st; destruct C as (C1 & C3); try (left; rewrite C1; reflexivity).
      - right. right. destruct C3 as (_ & C4 & _). exists a, n, c. split; auto. rewrite C4. auto.
      - right. left. destruct C3 as (C4 & _). rewrite C4. auto.
      - right. left. destruct C3 as (C4 & _). rewrite C4. auto. }
    destruct X as [X|[X|(a & n & c & -> & X)]]; try (apply (k_cells _ K); auto; fail).
    destruct (i_own _ _ _ _ _ I) as [(_ & _ & _ & H)|[(_ & _ & b & _ & H)|(H1 & _ & _ & H2)]]; try discriminate.
    assert (E : exists p, In p (y_pcs s) /\ recon p = true).
    { clear - H1. induction (y_pcs s) as [|z l IH]; cbn in H1; [lia|]. destruct (recon z) eqn:Z; [exists z; cbn; auto|].
      destruct IH as (p & P & RP); auto. exists p. cbn. auto. }
    destruct E as (p & P & RP). specialize (H2 p P RP). pose proof (k_pcs _ K p P) as PF.
    destruct p; cbn in RP; try discriminate; cbn in H2; try discriminate; try (destruct H2; discriminate);
      try (destruct w; discriminate); try (destruct f; try discriminate; destruct H2; discriminate).
    + destruct H2 as (b & H2). inversion H2; subst. apply PF. auto.
    + destruct H2 as (b & H2 & _). discriminate.
  - assert (X : c_ep (y_prev s) = Some e).
    { destruct st; destruct C as (C1 & C3); try (rewrite C3, Q; reflexivity).
      - destruct C3 as (_ & C3). congruence.
      - destruct C3 as (_ & C3). congruence.
      - destruct C3 as (_ & _ & C3). congruence.
      - destruct C3 as (_ & C3). congruence.
      - destruct C3 as (_ & C3). congruence.
      - destruct C3 as (C3 & _). rewrite C3, Q. auto. }
    apply (k_cells _ K). auto.
Qed.

Lemma pinned_full : forall s st g t p e, inv s st g -> cinv s -> nth_error (y_pcs s) t = Some p -> pinned p = Some e -> ep_full s e.
Proof.
  intros s st g t p e I K N P. eapply active_full; eauto.
  destruct (pinned_active _ _ _ _ _ (i_pins _ _ _ _ _ I) N P) as (_ & [->|(q & Q & _)]); [left|right]; eauto.
Qed.

(** ** Reading *)

Lemma right_nil : forall d h, right d [] h.
Proof. intros d h y r ts _ _ Y. cbn in Y. lia. Qed.

Lemma right_snoc : forall d l h w, right d l h ->
  (forall r ts, In (h + length l, (r, ts)) d -> SL ((h + length l) mod cap) -> w = append_rec r ts ((h + length l) mod cap)) -> right d (l ++ [w]) h.
Proof.
  intros d l h w H W y r ts I ZS Y. rewrite app_length in Y. cbn in Y.
  destruct (Nat.eq_dec y (h + length l)) as [->|NE].
  - replace (h + length l - h) with (length l) by lia. rewrite nth_error_app2, Nat.sub_diag by lia. cbn. f_equal. apply W; auto.
  - rewrite nth_error_app1 by lia. apply H; auto. lia.
Qed.

Lemma right_app : forall d l l' n, right d l 0 -> length l = n -> right d l' n -> right d (l ++ l') 0.
Proof.
  intros d l l' n H L H' y r ts I ZS Y. rewrite app_length in Y. rewrite Nat.sub_0_r.
  destruct (Nat.lt_ge_cases y n).
  - rewrite nth_error_app1 by lia. replace y with (y - 0) at 1 by lia. apply H; auto. lia.
  - rewrite nth_error_app2 by lia. rewrite L. apply H'; auto. lia.
Qed.

Lemma right_incl : forall d d' l h, (forall x, In x d' -> In x d) -> right d l h -> right d' l h.
Proof. intros d d' l h S H y r ts I. apply H. auto. Qed.

Lemma peek_right : forall n s h tl y r ts, 0 < hwm -> 2 * hwm <= cap -> creach hwm cap (disciplined_on cap SL) (cs_init hwm cap n) (y_buf s) ->
  In (Hold h tl) (bpcs s) -> h <= y < tl -> In (y, (r, ts)) (done s) -> SL (y mod cap) -> peek cap s y = append_rec r ts (y mod cap).
Proof.
  intros n s h tl y r ts HW C2 CR I Y D ZS. unfold peek. apply nth_error_nth. eapply (held_intact_on hwm cap HW); eauto. lia.
Qed.

Lemma done_lt : forall s y x, jinv (y_buf s) -> In (y, x) (done s) -> y < tail s.
Proof.
  intros s y x J I. pose proof (j_pos _ _ _ J) as P.
  assert (Q : In y (seq 0 (tail s))) by (rewrite <- P; apply in_app_iff; left; apply in_map_iff; exists (y, x); auto).
  apply in_seq in Q. lia.
Qed.

Lemma done_nodup : forall s, jinv (y_buf s) -> NoDup (map fst (done s)).
Proof.
  intros s J. pose proof (j_pos _ _ _ J) as P. assert (N : NoDup (map fst (done s) ++ in_flight (y_buf s))).
  { eapply Permutation_NoDup; [apply Permutation_sym; eauto|apply seq_NoDup]. }
  eapply NoDup_app_l; eauto.
Qed.

Lemma known_nodup : forall s seen, jinv (y_buf s) -> known s seen -> NoDup (map fst seen) /\ (forall x, In x seen -> In x (done s)).
Proof.
  intros s seen J [l E]. pose proof (done_nodup _ J) as N. rewrite E in *. rewrite map_app in N. split.
  - eapply NoDup_app_r; eauto.
  - intros x X. apply in_app_iff. auto.
Qed.

Lemma nodup_bound : forall (seen : acked) n, NoDup (map fst seen) -> before seen n -> length seen <= n.
Proof.
  intros seen n N B. rewrite <- (map_length fst). rewrite <- (seq_length n 0). apply NoDup_incl_length; auto.
  intros y Y. apply in_map_iff in Y as ([z x] & <- & Z). apply in_seq. specialize (B _ _ Z). cbn. lia.
Qed.

(** The answer of a query, of a static structure and of a record count. *)
Lemma ans_list : forall s seen pre h tl acc, jinv (y_buf s) -> known s seen -> full (y_buf s) (concat pre) h -> before seen tl ->
  right seen acc h -> h + length acc = tl -> tl <= tail s -> ans_ok s (AList seen pre acc).
Proof.
  intros s seen pre h tl acc J K (F1 & F2 & F3) B RI L T. destruct (known_nodup _ _ J K) as [ND IN]. cbn. split; [|split; auto].
  - intros y r ts Y ZS. specialize (B _ _ Y). pose proof (right_app seen (concat pre) acc h (right_incl _ _ _ _ IN F3) F2 RI) as Q.
    specialize (Q y r ts Y ZS). rewrite Nat.sub_0_r in Q. apply Q. rewrite app_length. lia.
  - pose proof (nodup_bound _ _ ND B). rewrite app_length. lia.
Qed.

(** ** Steps *)

Lemma set_same : forall (l : list (spc R)) t p, nth_error l t = Some p -> l = set_nth t p l.
Proof. intros. symmetry. apply set_nth_id. auto. Qed.

(** A reconstruction is alone. *)
Lemma alone : forall s st g t p q n, inv s st g -> nth_error (y_pcs s) t = Some p -> recon p = true ->
  In q (y_pcs s) -> flushed q = Some n -> q = p.
Proof.
  intros s st g t p q n I N RP Q F. apply In_nth_error in Q as [u U]. destruct (Nat.eq_dec u t) as [->|NE]; [congruence|].
  pose proof (recon_other _ _ _ _ _ _ (i_own _ _ _ _ _ I) N RP U NE). destruct q; discriminate.
Qed.

Lemma none_flushed : forall s st g t p q z, inv s st g -> nth_error (y_pcs s) t = Some p -> recon p = true ->
  flushed q = None -> In z (set_nth t q (y_pcs s)) -> flushed z = None.
Proof.
  intros s st g t p q z I N RP F Z. apply in_set_nth_other in Z as [->|(u & NE & U)]; auto.
  pose proof (recon_other _ _ _ _ _ _ (i_own _ _ _ _ _ I) N RP U NE). destruct z; auto; discriminate.
Qed.

(** What is known of the next epoch at a given point of the reconstruction. *)
Lemma next_full : forall s st g t p a, inv s st g -> cinv s -> nth_error (y_pcs s) t = Some p -> recon p = true ->
  c_ep (y_next s) = Some a ->
  exists x, y_heap s a = Some x /\ full (y_buf s) (e_recs x) (match flushed p with Some n => n | None => e_head x end).
Proof.
  intros s st g t p a I K N RP A. destruct (k_next _ K a A) as (x & n & X & U & F). exists x. split; auto.
  destruct U as [(q & Q & QF)|[U ->]].
  - rewrite (alone _ _ _ _ _ _ _ I N RP Q QF) in QF. rewrite QF. auto.
  - rewrite (U p (nth_error_In _ _ N)). auto.
Qed.

Lemma upto_here : forall s t p q x n, nth_error (y_pcs s) t = Some p -> flushed q = Some n ->
  forall s', y_pcs s' = set_nth t q (y_pcs s) -> upto s' x n.
Proof.
  intros s t p q x n N F s' E. left. exists q. split; auto. rewrite E. apply nth_error_In with t. eapply nth_set_same; eauto.
Qed.

Lemma clone_c : forall s st g t e r ts a x, inv s st g -> cinv s ->
  nth_error (y_pcs s) t = Some (NClone e r ts) -> y_heap s a = None -> y_heap s e = Some x ->
  cinv (go (w_heap s (upd (y_heap s) a (Some (Ep (e_runs x) (e_head x))))) t (NStore e a r ts)).
Proof.
  intros s st g t e r ts a x I K N HA HX. pose proof (stage_of _ _ _ _ _ _ _ I N eq_refl) as ST. cbn in ST. subst st.
  assert (OLD : forall c, ep_full s c -> y_heap (go (w_heap s (upd (y_heap s) a (Some (Ep (e_runs x) (e_head x))))) t (NStore e a r ts)) c = y_heap s c).
  { intros c (z & Z & _). cbn. unfold upd. destruct (Nat.eqb_spec c a); auto. congruence. }
  eapply (wild_c s _ StQuiet g t _ (NStore e a r ts)); eauto; try reflexivity.
  - left. auto.
  - intros c A. apply OLD. eapply active_full; eauto.
  - intros c C. cbn in C. eapply (ep_full_step s); [left; auto| |apply (k_cells _ K); auto]. apply OLD. apply (k_cells _ K). auto.
  - intros c C. cbn in C. pose proof (i_cells _ _ _ _ _ I) as [C0 _]. rewrite C0 in C. discriminate.
  - cbn. exists (Ep (e_runs x) (e_head x)). cbn. unfold upd. rewrite Nat.eqb_refl. split; auto.
    destruct (pinned_full _ _ _ _ _ _ I K N eq_refl) as (z & Z & F). rewrite HX in Z. inversion Z; subst. auto.
Qed.

Lemma flush_c : forall s st g t a tl acc x, inv s st g -> cinv s -> floors s ->
  nth_error (y_pcs s) t = Some (RFlush a tl acc) -> y_heap s a = Some x ->
  cinv (go (w_heap s (upd (y_heap s) a (Some (Ep (e_runs x ++ [acc]) (e_head x))))) t (RRel a tl)).
Proof.
  intros s st g t a tl acc x I K F N HX. pose proof (stage_of _ _ _ _ _ _ _ I N eq_refl) as ST. cbn in ST. subst st.
  pose proof (i_heads _ _ _ _ _ I) as (_ & _ & C & _). destruct (C a eq_refl) as (D1 & D2 & _).
  pose proof (i_cells _ _ _ _ _ I) as IC. pose proof IC as [C0 _].
  assert (NA : ~ active g a) by (intros [A|(q & Q)]; [auto|eapply D2; eauto]).
  assert (OLD : forall c, c <> a -> y_heap (go (w_heap s (upd (y_heap s) a (Some (Ep (e_runs x ++ [acc]) (e_head x))))) t (RRel a tl)) c = y_heap s c).
  { intros c NE. cbn. unfold upd. destruct (Nat.eqb_spec c a); congruence. }
  eapply (wild_c s _ (StNext a) g t _ (RRel a tl)); eauto; try reflexivity; cbn; auto.
  - left. auto.
  - intros c A. apply OLD. intros ->. auto.
  - intros c A. eapply (ep_full_step s); [left; auto| |apply (k_cells _ K); auto]. apply OLD. intros ->. apply NA.
    eapply cells_active; eauto.
  - intros c A. rewrite C0 in A. cbn in A. inversion A; subst c. unfold upd. rewrite Nat.eqb_refl.
    exists (Ep (e_runs x ++ [acc]) (e_head x)), tl. split; auto. split; [apply (upto_here s t _ (RRel a tl) _ tl N eq_refl); reflexivity|].
    destruct (next_full _ _ _ _ _ a I K N eq_refl ltac:(rewrite C0; auto)) as (z & Z & FZ). rewrite HX in Z. inversion Z; subst z.
    cbn in FZ. destruct FZ as (F1 & F2 & F3). pose proof (k_pcs _ K _ (nth_error_In _ _ N)) as (P1 & P2 & P3).
    unfold headof in P3. rewrite HX in P3. cbn in P3. inversion P3 as [P4]. cbn.
    split; [apply (F _ tl (nth_error_In _ _ N)); auto|].
    rewrite concat_app. cbn [concat]. rewrite app_nil_r. fold (e_recs x). split; [rewrite app_length; lia|].
    eapply right_app; eauto. rewrite P4. auto.
Qed.

Lemma delete_c : forall s st g t n x, inv s st g -> cinv s ->
  nth_error (y_pcs s) t = Some (@DDel R n x) -> cinv (go (w_heap s (upd (y_heap s) x None)) t (DCur n)).
Proof.
  intros s st g t n x I K N. pose proof (stage_of _ _ _ _ _ _ _ I N eq_refl) as ST. cbn in ST. destruct ST as [a ->].
  pose proof (i_heads _ _ _ _ _ I) as (_ & _ & _ & D). destruct (D _ _ _ eq_refl) as (D1 & D2 & _).
  pose proof (i_cells _ _ _ _ _ I) as IC. pose proof IC as (C0 & _ & _ & C3).
  assert (NA : ~ active g x) by (intros [A|(q & Q)]; [auto|congruence]).
  assert (OLD : forall c, c <> x -> y_heap (go (w_heap s (upd (y_heap s) x None)) t (DCur n)) c = y_heap s c).
  { intros c NE. cbn. unfold upd. destruct (Nat.eqb_spec c x); congruence. }
  eapply (wild_c s _ _ g t _ (DCur n)); eauto; try reflexivity; try (cbn; auto; fail).
  - left. auto.
  - intros c A. apply OLD. intros ->. auto.
  - intros c A. eapply (ep_full_step s); [left; auto| |apply (k_cells _ K); auto]. apply OLD. intros ->. apply NA.
    eapply cells_active; eauto.
  - intros c A. cbn in A. destruct (next_full _ _ _ _ _ c I K N eq_refl A) as (z & Z & FZ). cbn in FZ.
    exists z, n. rewrite OLD; [|rewrite C0 in A; cbn in A; congruence]. split; auto. split; auto. apply (upto_here s t _ (DCur n) _ n N eq_refl); reflexivity.
Qed.

Lemma dadv_c : forall s st g t n a x b, inv s st g -> cinv s ->
  nth_error (y_pcs s) t = Some (@DAdv R n) -> c_ep (y_next s) = Some a -> y_heap s a = Some x ->
  cexec (y_buf s) (Advance n) = Some b ->
  cinv (go (w_heap (w_buf s b) (upd (y_heap s) a (Some (Ep (e_runs x) n)))) t (DAdvW n)).
Proof.
  intros s st g t n a x b I K N EA HX E. pose proof (stage_of _ _ _ _ _ _ _ I N eq_refl) as ST. cbn in ST. destruct ST as [a' ->].
  pose proof (i_heads _ _ _ _ _ I) as (_ & _ & C & _). destruct (C a' eq_refl) as (D1 & D2 & _).
  pose proof (i_cells _ _ _ _ _ I) as IC. pose proof IC as (C0 & _). rewrite C0 in EA. cbn in EA. inversion EA; subst a'. clear EA.
  assert (NA : ~ active g a) by (intros [A|(q & Q)]; [auto|eapply D2; eauto]).
  assert (BS : bufstep (y_buf s) b) by (right; eauto).
  assert (OLD : forall c, c <> a -> y_heap (go (w_heap (w_buf s b) (upd (y_heap s) a (Some (Ep (e_runs x) n)))) t (DAdvW n)) c = y_heap s c).
  { intros c NE. cbn. unfold upd. destruct (Nat.eqb_spec c a); congruence. }
  eapply (wild_c s _ _ g t _ (DAdvW n)); eauto; try reflexivity; try (cbn; auto; fail).
  - intros c A. apply OLD. intros ->. auto.
  - intros c A. eapply (ep_full_step s); [auto| |apply (k_cells _ K); auto]. apply OLD. intros ->. apply NA.
    eapply cells_active; eauto.
  - intros c A. cbn in A. destruct (next_full _ _ _ _ _ c I K N eq_refl A) as (z & Z & FZ). cbn in FZ.
    assert (c = a) by (rewrite C0 in A; cbn in A; congruence). subst c.
    rewrite HX in Z. inversion Z; subst z.
    exists (Ep (e_runs x) n), n. cbn. unfold upd. rewrite Nat.eqb_refl. split; auto. split; [apply (upto_here s t _ (DAdvW n) _ n N eq_refl); reflexivity|].
    eapply full_step; eauto.
Qed.

(** The invariant is kept, and new answers are right. *)
Definition outc s s' : Prop :=
  (y_stop s' = None -> cinv s') /\ forall a, In a (y_ans s') -> In a (y_ans s) \/ ans_ok s' a.

Lemma go_c : forall s t p q, cinv s -> floors s -> nth_error (y_pcs s) t = Some p -> flushed q = flushed p -> pc_full s q ->
  outc s (go s t q).
Proof.
  intros s t p q K F N FL PF. split; [intros _|auto]. eapply (frame_c s _ t p q); eauto; try reflexivity.
  - left. auto.
  - cbn. apply K.
Qed.

Lemma bcall_c : forall s t c p q s', cinv s -> floors s -> nth_error (y_pcs s) t = Some p -> bcall hwm cap s t c q = Some s' ->
  flushed q = flushed p -> (pc_full s' p -> pc_full s' q) -> outc s s'.
Proof.
  intros s t c p q s' K F N B FL PF. unfold bcall in B.
  destruct (cexec (y_buf s) (Call t c)) as [b|] eqn:E; [|discriminate]. inversion B; subst s'. clear B. split; [intros _|auto].
  eapply (frame_c s _ t p q); eauto; try reflexivity.
  - right. eauto.
  - cbn. apply K.
  - apply PF. eapply (pc_full_same s); eauto; try reflexivity; [right; eauto|eapply nth_error_In; eauto|].
    apply (k_pcs _ K). eapply nth_error_In; eauto.
Qed.

Lemma bstep_c : forall s t k p s', cinv s -> floors s -> nth_error (y_pcs s) t = Some p -> bstep hwm cap s t k = Some s' ->
  (forall bp bp' c' z, nth_error (bpcs s) t = Some bp -> exec (cs_buf (y_buf s)) bp = Some (c', bp') -> k bp' = Some z ->
     nth_error (bpcs s') t = Some bp' ->
     flushed z = flushed p /\ (pc_full s' p -> pc_full s' z)) -> outc s s'.
Proof.
  intros s t k p s' K F N B H. unfold bstep in B.
  destruct (BufConcModel.cexec hwm cap (y_buf s) (Step t)) as [c|] eqn:X; [|discriminate].
  pose proof X as X'. cbn in X'. destruct (nth_error (bpcs s) t) as [bp|] eqn:NB; [|discriminate].
  destruct (exec (cs_buf (y_buf s)) bp) as [[c' bp']|] eqn:EX; [|discriminate]. inversion X' as [X2]. clear X'.
  assert (NT : nth_error (cs_pcs c) t = Some bp') by (rewrite <- X2; cbn; eapply nth_set_same; eauto).
  rewrite NT in B. assert (BS : bufstep (y_buf s) c) by (right; eauto).
  destruct (k bp') as [z|] eqn:KZ; inversion B; subst s'; clear B; (split; [intros _|auto]).
  - destruct (H bp bp' c' z eq_refl EX KZ NT) as [H1 H2]. eapply (frame_c s _ t p z); eauto; try reflexivity.
    + cbn. apply K.
    + apply H2. eapply (pc_full_same s); eauto; try reflexivity; [eapply nth_error_In; eauto|].
      apply (k_pcs _ K). eapply nth_error_In; eauto.
  - eapply (frame_c s _ t p p); eauto; try reflexivity.
    + cbn. apply set_same. auto.
    + cbn. apply K.
    + eapply (pc_full_same s); eauto; try reflexivity; [eapply nth_error_In; eauto|].
      apply (k_pcs _ K). eapply nth_error_In; eauto.
Qed.

Lemma got_full : forall s e (w : who R) g0, pc_full s (SGet g0 w) -> pc_full s (got e w).
Proof.
  intros s e [[] seen|r ts] g0 H; cbn in *; auto; try (split; [auto|discriminate]). intro X. congruence.
Qed.

(** Changes of the two cells. *)
Lemma cell_c : forall s s' t p q, cinv s -> floors s -> y_buf s' = y_buf s -> y_heap s' = y_heap s ->
  nth_error (y_pcs s) t = Some p -> y_pcs s' = set_nth t q (y_pcs s) -> y_ans s' = y_ans s ->
  (forall e, c_ep (y_cur s') = Some e \/ c_ep (y_prev s') = Some e -> ep_full s e) ->
  (forall a, c_ep (y_next s') = Some a -> c_ep (y_next s) = Some a /\ flushed q = flushed p) ->
  pc_full s q -> outc s s'.
Proof.
  intros s s' t p q K F B H N E A C X PF. split; [intros _|rewrite A; auto].
  eapply (frame_c s s' t p q); eauto.
  - left. auto.
  - assert (HO : forall e, headof s' e = headof s e) by (intro; unfold headof; rewrite H; auto).
    assert (EP : forall e, ep_full s e -> ep_full s' e) by (intros e EP; eapply (ep_full_step s); eauto; [left; auto|rewrite H; auto]).
    destruct q; cbn in *; unfold known in *; rewrite ?B, ?HO; auto.
Qed.

Lemma get_c : forall s t g0 w, cinv s -> floors s -> nth_error (y_pcs s) t = Some (SGet g0 w) -> outc s (get_step s t g0 w).
Proof.
  intros s t g0 w K F N. assert (PF := k_pcs _ K _ (nth_error_In _ _ N)).
  assert (FG : forall e, flushed (got e w) = None) by (intro; destruct w as [[]|]; auto).
  assert (GO : forall g1, outc s (go s t (SGet g1 w))).
  { intro g1. eapply go_c; eauto. }
  destruct g0; cbn [get_step]; auto.
  - destruct (cell_eqb (y_prev s) old) eqn:E; auto. destruct (c_ep old) as [e|] eqn:EO; auto. apply cell_eqb_eq in E.
    eapply (cell_c s _ t _ (got e w)); eauto; try reflexivity.
    + cbn. intros c [C|C]; apply (k_cells _ K); auto. right. rewrite E. congruence.
    + eapply got_full; eauto.
  - destruct (cell_eqb (y_cur s) old) eqn:E; auto. destruct (c_ep old) as [e|] eqn:EO; auto. apply cell_eqb_eq in E.
    eapply (cell_c s _ t _ (got e w)); eauto; try reflexivity.
    + cbn. intros c [C|C]; apply (k_cells _ K); auto. left. rewrite E. congruence.
    + eapply got_full; eauto.
Qed.

Lemma halt_c : forall s f, outc s (halt s f).
Proof. intros. split; [discriminate|auto]. Qed.

Lemma end_c : forall s t j e f, cinv s -> floors s -> nth_error (y_pcs s) t = Some (SEnd j e f) -> outc s (end_step s t j e f).
Proof.
  intros s t j e f K F N.
  assert (GO : forall j', outc s (go s t (SEnd j' e f))) by (intro; eapply go_c; eauto; cbn; auto).
  assert (FA : flushed (after f) = None /\ pc_full s (after f)) by (destruct f; cbn; auto). destruct FA as [FA PA].
  destruct j; cbn [end_step]; auto.
  - destruct (c_ep (y_prev s)); auto. destruct (_ =? 0); auto. apply halt_c.
  - destruct (cell_eqb (y_prev s) old) eqn:E; auto. apply cell_eqb_eq in E. eapply (cell_c s _ t _ (after f)); eauto; try reflexivity.
    + cbn. intros c [C|C]; apply (k_cells _ K); auto. right. rewrite E. congruence.
  - destruct (c_ep (y_cur s)); auto. destruct (_ =? 0); auto. apply halt_c.
  - destruct (cell_eqb (y_cur s) old) eqn:E; auto. apply cell_eqb_eq in E. eapply (cell_c s _ t _ (after f)); eauto; try reflexivity.
    + cbn. intros c [C|C]; apply (k_cells _ K); auto. left. rewrite E. congruence.
Qed.

End SX.

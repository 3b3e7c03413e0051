(** Slot contents of the concurrent buffer under the same discipline. *)
From Coq Require Import List Arith ZArith NArith Lia Bool Permutation.
From Verif Require Import Base ListLemmas RecordModel BufferModel BufConcModel BufConcProofs BufConcView.
Import ListNotations.

Lemma in_set_nth_other : forall {A} (l : list A) t q x, In x (set_nth t q l) ->
  x = q \/ exists u, u <> t /\ nth_error l u = Some x.
Proof.
  induction l as [|a l IH]; intros [|t] q x I; cbn in I; try contradiction.
  - destruct I as [->|I]; auto. right. apply In_nth_error in I as [u U]. exists (S u). auto.
  - destruct I as [->|I]; [right; exists 0; auto|]. apply IH in I as [->|(u & U1 & U2)]; auto.
    right. exists (S u). auto.
Qed.

Lemma flat_map_excl : forall {A B} (f : A -> list B) l t u p q y, NoDup (flat_map f l) ->
  nth_error l t = Some p -> nth_error l u = Some q -> t <> u -> In y (f p) -> In y (f q) -> False.
Proof.
  induction l as [|a l IH]; intros t u p q y ND T U N P Q; [destruct t; discriminate|].
  cbn in ND. assert (X : forall z, In z (f a) -> In z (flat_map f l) -> False).
  { intros z Z1 Z2. apply in_split in Z1 as (x1 & x2 & E). rewrite E in ND.
    rewrite <- app_assoc in ND. cbn in ND. apply NoDup_remove_2 in ND. apply ND.
    rewrite !in_app_iff. auto. }
  destruct t as [|t], u as [|u]; cbn in T, U.
  - contradiction.
  - inversion T; subst. apply (X y P). apply in_flat_map. exists q. split; auto. eapply nth_error_In; eauto.
  - inversion U; subst. apply (X y Q). apply in_flat_map. exists p. split; auto. eapply nth_error_In; eauto.
  - eapply (IH t u); eauto. clear - ND. induction (f a); cbn in ND; auto. inversion ND; auto.
Qed.

Section CD.
Context {R : Type} {RO : RecOps R}.
Variables hwm cap : nat.
Hypothesis HW : 0 < hwm.
Hypothesis CP : hwm <= cap.
Variable SL : nat -> Prop.
Notation exec := (exec hwm cap).
Notation cexec := (cexec hwm cap).
Notation creach := (creach hwm cap).
Notation cs_init := (cs_init hwm cap).
Notation hd b := (hidx (cb_head b)).
Notation od b := (hidx (cb_old b)).
Implicit Types (s : cstate R) (b : cbuf R) (p : pc R).

Definition slot b (y : nat) : option (wrapped R) := nth_error (cb_data b) (y mod cap).

Definition pcD b p : Prop :=
  match p with
  | AStamp r ts y => SL (y mod cap) -> slot b y = Some (fresh r ts)
  | AVis r ts y => SL (y mod cap) -> slot b y = Some (stamp (y mod cap) (fresh r ts))
  | _ => True
  end.

Record dinv s : Prop := {
  d_done : forall y r ts, In (y, (r, ts)) (cs_done s) -> SL (y mod cap) -> cb_tail (cs_buf s) <= y + cap ->
    slot (cs_buf s) y = Some (append_rec r ts (y mod cap));
  d_fl : forall p, In p (cs_pcs s) -> pcD (cs_buf s) p
}.

Lemma slot_with : forall b f x y, length (cb_data b) = cap ->
  slot (with_slot b (x mod cap) f) y =
  if y mod cap =? x mod cap then option_map f (slot b x) else slot b y.
Proof.
  intros b f x y L. unfold slot, with_slot. cbn [cb_data].
  assert (M : x mod cap < length (cb_data b)) by (rewrite L; apply Nat.mod_upper_bound; lia).
  destruct (nth_error (cb_data b) (x mod cap)) as [w|] eqn:E.
  - destruct (Nat.eqb_spec (y mod cap) (x mod cap)) as [->|N].
    + rewrite nth_error_set_nth_eq by auto. auto.
    + apply nth_error_set_nth_neq. auto.
  - apply nth_error_None in E. lia.
Qed.

(** Only the three writes of append touch the slots. *)
Lemma exec_data : forall b p b' p', exec b p = Some (b', p') ->
  (exists r ts y f, In y (pc_pos p) /\ b' = with_slot b (y mod cap) f /\
     ((p = AWrite r ts y /\ p' = AStamp r ts y /\ f = fun _ => fresh r ts) \/
      (p = AStamp r ts y /\ p' = AVis r ts y /\ f = stamp (y mod cap)) \/
      (p = AVis r ts y /\ p' = Idle /\ f = show))) \/
  (cb_data b' = cb_data b /\ pc_pos p = [] /\ (forall r ts q, p <> AVis r ts q) /\
   forall b0, pcD b0 p').
Proof.
  intros b p b' p' E. destruct p; cbn [BufConcModel.exec] in E; try discriminate.
  all: try (left; inversion E; subst; do 4 eexists; split; [cbn; eauto|]; split; [reflexivity|]; tauto).
  all: right; repeat match type of E with
       | context[if ?c then _ else _] => destruct c
       end; inversion E; subst; (split; [auto|]; split; [auto|]; split; [congruence|cbn; auto]).
Qed.

Lemma slot_some : forall b x, length (cb_data b) = cap -> exists w, slot b x = Some w.
Proof.
  intros b x L. unfold slot. destruct (nth_error (cb_data b) (x mod cap)) eqn:E; eauto.
  apply nth_error_None in E. pose proof (Nat.mod_upper_bound x cap). lia.
Qed.

Lemma d_step : forall s a s', kinv hwm cap SL s -> dinv s -> cexec s a = Some s' -> dinv s'.
Proof.
  intros s a s' K D E. destruct D as [DD DF].
  destruct a as [t c|t|n|].
  - destruct s as [b l v d]. cbn [BufConcModel.cexec cs_buf cs_pcs cs_adv cs_done] in *.
    destruct (nth_error l t) as [p|] eqn:N; [|discriminate].
    destruct (begin c p) as [p'|] eqn:B; [|discriminate]. inversion E; subst; clear E.
    constructor; cbn [cs_buf cs_pcs cs_adv cs_done]; auto.
    intros x I. apply in_set_nth in I as [->|I]; auto.
    destruct c; destruct p; cbn in B; inversion B; cbn; auto.
  - pose proof (k_fl _ _ _ _ K) as FL. destruct (k_j _ _ _ _ K) as [L1 L2 PJ A Q LD].
    assert (ND : NoDup (map fst (cs_done s) ++ in_flight s))
      by (eapply Permutation_NoDup; [apply Permutation_sym; eauto|apply seq_NoDup]).
    assert (LT : forall y, In y (map fst (cs_done s) ++ in_flight s) -> y < cb_tail (cs_buf s))
      by (intros y Y; rewrite Q in Y; apply in_seq in Y; lia).
    destruct s as [b l v d]. unfold in_flight in *. cbn [BufConcModel.cexec cs_buf cs_pcs cs_adv cs_done] in *.
    destruct (nth_error l t) as [p|] eqn:N; [|discriminate].
    destruct (exec b p) as [[b' p']|] eqn:X; [|discriminate]. inversion E; subst; clear E.
    pose proof (nth_error_In _ _ N) as IN.
    destruct (exec_J hwm cap b p b' p' X (PJ p IN) L1 L2) as (T & _).
    destruct (exec_data b p b' p' X) as [(r & ts & y & f & Y & -> & C)|(ED & PP & NV & PD)].
    + assert (YF : In y (flat_map pc_pos l)) by (apply in_flat_map; eauto).
      assert (Y1 : SL (y mod cap) -> hd b <= y) by auto.
      assert (Y2 : y < cb_tail b) by (apply LT, in_app_iff; auto).
      assert (OTHER : forall z, SL (z mod cap) -> z <> y -> z < cb_tail b -> cb_tail b <= z + cap ->
        slot (with_slot b (y mod cap) f) z = slot b z).
      { intros z ZS ZN Z1 Z2. rewrite slot_with by auto.
        destruct (Nat.eqb_spec (z mod cap) (y mod cap)) as [E|]; auto. exfalso. apply ZN.
        rewrite E in ZS. specialize (Y1 ZS).
        destruct (Nat.le_ge_cases z y); [|symmetry]; apply mod_close with (c := cap); auto; lia. }
      assert (OWN : slot (with_slot b (y mod cap) f) y = option_map f (slot b y)).
      { rewrite slot_with by auto. rewrite Nat.eqb_refl. auto. }
      assert (DN : forall z, In z (map fst d) -> z <> y).
      { intros z Z ->. apply in_split in Z as (d1 & d2 & E). rewrite E in ND. rewrite <- app_assoc in ND.
        cbn in ND. apply NoDup_remove_2 in ND. apply ND. rewrite !in_app_iff. auto. }
      assert (FN : NoDup (flat_map pc_pos l)).
      { clear - ND. induction (map fst d); cbn in ND; auto. inversion ND; auto. }
      assert (OF : forall x, In x (set_nth t p' l) -> x = p' \/ pcD (with_slot b (y mod cap) f) x).
      { intros x I. apply in_set_nth_other in I as [->|(u & U1 & U2)]; auto. right.
        pose proof (nth_error_In _ _ U2) as UI. specialize (DF x UI).
        assert (Z : forall z, In z (pc_pos x) -> SL (z mod cap) -> slot (with_slot b (y mod cap) f) z = slot b z).
        { intros z Z ZS. assert (ZF : In z (flat_map pc_pos l)) by (apply in_flat_map; eauto).
          apply OTHER; [auto| |apply LT, in_app_iff; auto|].
          - intros ->. eapply (flat_map_excl pc_pos l t u); eauto.
          - specialize (FL z ZF ZS). lia. }
        destruct x; cbn in *; auto; intro ZS; rewrite Z; auto. }
      assert (OD : forall z r' ts', In (z, (r', ts')) d -> SL (z mod cap) -> cb_tail b <= z + cap ->
        slot (with_slot b (y mod cap) f) z = Some (append_rec r' ts' (z mod cap))).
      { intros z r' ts' I ZS Z. assert (ZI : In z (map fst d)) by (apply in_map_iff; exists (z, (r', ts')); auto).
        rewrite OTHER; auto. apply LT, in_app_iff; auto. }
      destruct (slot_some b y LD) as [w SW].
      destruct C as [(-> & -> & ->)|[(-> & -> & ->)|(-> & -> & ->)]];
        (constructor; cbn [cs_buf cs_pcs cs_adv cs_done cb_tail with_slot]; [|intros x I; destruct (OF x I) as [->|]; auto]); auto.
      * cbn [pcD]. intros _. fold (with_slot b (y mod cap) (fun _ => fresh r ts)). rewrite OWN, SW. auto.
      * cbn [pcD]. intros ZS. fold (with_slot b (y mod cap) (stamp (y mod cap))). rewrite OWN.
        specialize (DF _ IN). cbn in DF. rewrite DF; auto.
      * intros z r' ts' [E|I] ZS Z; [|auto]. inversion E; subst.
        change (slot (with_slot b (z mod cap) show) z = Some (append_rec r' ts' (z mod cap))). rewrite OWN.
        specialize (DF _ IN). cbn in DF. rewrite DF; auto.
      * cbn. auto.
    + assert (ES : forall z, slot b' z = slot b z) by (intros; unfold slot; rewrite ED; auto).
      assert (EE : match p with AVis r ts q => (q, (r, ts)) :: d | _ => d end = d).
      { destruct p; auto. destruct (NV r ts p); auto. }
      rewrite EE. constructor; cbn [cs_buf cs_pcs cs_adv cs_done].
      * intros z r ts I ZS Z. rewrite ES. apply DD; auto. lia.
      * intros x I. apply in_set_nth in I as [->|I]; auto.
        specialize (DF x I). destruct x; cbn in *; rewrite ?ES; auto.
  - destruct s as [b l v d]. cbn [BufConcModel.cexec cs_buf cs_pcs cs_adv cs_done] in *.
    destruct v; inversion E; subst. constructor; auto.
  - destruct s as [b l v d]. cbn [BufConcModel.cexec cs_buf cs_pcs cs_adv cs_done] in *.
    destruct (vexec b v) as [[b' v']|] eqn:X; [|discriminate]. inversion E; subst; clear E.
    assert (G : cb_tail b' = cb_tail b /\ cb_data b' = cb_data b).
    { destruct v; cbn [vexec] in X; try discriminate.
      all: try (match type of X with context[if ?c then _ else _] => destruct c end).
      all: inversion X; subst; auto. }
    destruct G as [G1 G2].
    assert (ES : forall z, slot b' z = slot b z) by (intros; unfold slot; rewrite G2; auto).
    constructor; cbn [cs_buf cs_pcs cs_adv cs_done].
    + intros z r ts I ZS Z. rewrite ES. apply DD; auto. lia.
    + intros x I. specialize (DF x I). destruct x; cbn in *; rewrite ?ES; auto.
Qed.

Lemma d_reach : forall n s, creach (disciplined_on cap SL) (cs_init n) s -> kinv hwm cap SL s /\ dinv s.
Proof.
  intros n s H. remember (cs_init n) as s0. induction H; subst.
  - split; [apply k_init; auto|]. constructor; cbn; [contradiction|].
    intros p I. apply repeat_spec in I. subst. cbn. auto.
  - destruct IHcreach as [K D]; auto. split; [eapply k_step; eauto|eapply d_step; eauto].
Qed.

(** C20: an acknowledged record that has not been flushed is in its slot. *)
Theorem buffered_intact_on : forall n s y r ts, creach (disciplined_on cap SL) (cs_init n) s ->
  In (y, (r, ts)) (cs_done s) -> SL (y mod cap) -> hd (cs_buf s) <= y ->
  nth_error (cb_data (cs_buf s)) (y mod cap) = Some (append_rec r ts (y mod cap)).
Proof.
  intros n s y r ts RE I ZS H. destruct (d_reach n s RE) as [K D]. destruct (k_j _ _ _ _ K).
  apply (d_done _ D); auto. lia.
Qed.

(** C17, C19: an acknowledged record in a held view stays in its slot. *)
Theorem held_intact_on : forall n s h tl y r ts, 2 * hwm <= cap -> creach (disciplined_on cap SL) (cs_init n) s ->
  In (Hold h tl) (cs_pcs s) -> h <= y < tl -> In (y, (r, ts)) (cs_done s) -> SL (y mod cap) ->
  nth_error (cb_data (cs_buf s)) (y mod cap) = Some (append_rec r ts (y mod cap)).
Proof.
  intros n s h tl y r ts C2 RE I H D0 ZS. destruct (d_reach n s RE) as [K D].
  destruct (held_close hwm cap SL s _ h tl K I eq_refl) as (H1 & H2 & H3 & H4). destruct (k_j _ _ _ _ K).
  apply (d_done _ D); auto. lia.
Qed.

End CD.

(** All slots. *)
Section CD2.
Context {R : Type} {RO : RecOps R}.
Variables hwm cap : nat.
Hypothesis HW : 0 < hwm.
Hypothesis CP : hwm <= cap.
Notation exec := (exec hwm cap).
Notation cexec := (cexec hwm cap).
Notation creach := (creach hwm cap).
Notation cs_init := (cs_init hwm cap).
Notation hd b := (hidx (cb_head b)).
Notation od b := (hidx (cb_old b)).
Implicit Types (s : cstate R) (b : cbuf R) (p : pc R).
Notation any := (fun _ : nat => True).

Lemma d_reach_any : forall n s, creach disciplined (cs_init n) s -> kinv hwm cap any s /\ dinv cap any s.
Proof. intros n s RE. eapply d_reach; eauto. apply disciplined_any. eauto. Qed.

(** C20: an acknowledged record that has not been flushed is in its slot. *)
Theorem buffered_intact : forall n s y r ts, creach disciplined (cs_init n) s ->
  In (y, (r, ts)) (cs_done s) -> hd (cs_buf s) <= y ->
  nth_error (cb_data (cs_buf s)) (y mod cap) = Some (append_rec r ts (y mod cap)).
Proof.
  intros n s y r ts RE I H. eapply (buffered_intact_on hwm cap HW CP any n); eauto. apply disciplined_any. auto.
Qed.

(** C17, C19: an acknowledged record in a held view stays in its slot. *)
Theorem held_intact : forall n s h tl y r ts, 2 * hwm <= cap -> creach disciplined (cs_init n) s ->
  In (Hold h tl) (cs_pcs s) -> h <= y < tl -> In (y, (r, ts)) (cs_done s) ->
  nth_error (cb_data (cs_buf s)) (y mod cap) = Some (append_rec r ts (y mod cap)).
Proof.
  intros n s h tl y r ts C2 RE I H D. eapply (held_intact_on hwm cap HW CP any n); eauto. apply disciplined_any. auto.
Qed.

(** C20: when a flush of the positions below [m] is finished, each of them was
    acknowledged and its record is in its slot. *)
Theorem flush_complete : forall n s m y, creach disciplined (cs_init n) s ->
  quiet s (Advance m) -> hd (cs_buf s) <= y < m ->
  exists r ts, In (y, (r, ts)) (cs_done s) /\
    nth_error (cb_data (cs_buf s)) (y mod cap) = Some (append_rec r ts (y mod cap)).
Proof.
  intros n s m y RE [Q1 Q2] Y. destruct (d_reach_any n s RE) as [K D]. destruct (k_j _ _ _ _ K) as [L1 L2 PJ A Q LD].
  assert (I : In y (map fst (cs_done s) ++ in_flight s)) by (rewrite Q; apply in_seq; lia).
  apply in_app_iff in I as [I|I]; [|specialize (Q2 y I); lia].
  apply in_map_iff in I as ([z [r ts]] & E & I). cbn in E. subst z. exists r, ts. split; auto.
  apply (d_done _ _ _ D); auto. lia.
Qed.

(** C19: advance_head is refused, changing nothing, while a view of the old head is
    held. *)
Theorem held_blocks : forall n s m h tl s', creach disciplined (cs_init n) s ->
  cs_adv s = VRef m -> In (Hold h tl) (cs_pcs s) -> h < hd (cs_buf s) ->
  cexec s AdvStep = Some s' ->
  cs_adv s' = VIdle /\ cs_buf s' = cs_buf s /\ cs_pcs s' = cs_pcs s.
Proof.
  intros n s m h tl s' RE V I H E. destruct (d_reach_any n s RE) as [K _].
  destruct s as [b l v d]. cbn [cs_buf cs_pcs cs_adv cs_done] in *. subst v.
  pose proof (k_refs _ _ _ _ K) as F. cbn in F. destruct F as (F1 & F2 & F3 & _).
  assert (C : 0 < cnt l h) by (eapply countb_in; [eauto|]; cbn; apply Nat.eqb_refl).
  assert (h = od b) by (destruct (Nat.eq_dec h (od b)); auto; pose proof (F3 h); unfold cnt in *; lia). subst h.
  cbn in E. unfold cnt in C. destruct (href (cb_old b)); [lia|]. inversion E; subst. auto.
Qed.

(** C19: the head is never moved while a view of the old head is held. *)
Theorem held_keeps_head : forall n s h tl a s', creach disciplined (cs_init n) s ->
  In (Hold h tl) (cs_pcs s) -> h < hd (cs_buf s) -> cexec s a = Some s' ->
  hd (cs_buf s') = hd (cs_buf s).
Proof.
  intros n s h tl a s' RE I H E. destruct (d_reach_any n s RE) as [K _].
  destruct s as [b l v d]. cbn [cs_buf cs_pcs cs_adv cs_done] in *.
  destruct (k_j _ _ _ _ K) as [L1 L2 PJ A Q LD]. cbn [cs_buf cs_pcs cs_adv cs_done] in *.
  assert (C : 0 < cnt l h) by (eapply countb_in; [eauto|]; cbn; apply Nat.eqb_refl).
  destruct a as [t c|t|n0|]; cbn [BufConcModel.cexec cs_buf cs_pcs cs_adv cs_done] in E.
  - destruct (nth_error l t); [|discriminate]. destruct (begin c p); inversion E; auto.
  - destruct (nth_error l t) as [p|] eqn:N; [|discriminate].
    destruct (exec b p) as [[b' p']|] eqn:X; [|discriminate]. inversion E; subst.
    destruct (exec_J _ _ b p b' p' X (PJ p (nth_error_In _ _ N)) L1 L2) as (_ & H1 & _). auto.
  - destruct v; inversion E; auto.
  - pose proof (k_refs _ _ _ _ K) as F. cbn [cs_buf cs_pcs cs_adv cs_done] in F.
    destruct v; cbn [vexec] in E; try discriminate.
    all: try (match type of E with context[if ?c then _ else _] => destruct c eqn:G end; inversion E; auto; fail).
    + inversion E; auto.
    + cbn in F. destruct F as (F1 & F2 & F3 & F4 & F5 & F6 & F7).
      assert (h = od b) by (destruct (Nat.eq_dec h (od b)); auto; pose proof (F3 h); unfold cnt in *; lia). subst h. unfold cnt in *. lia.
    + inversion E; auto.
Qed.

End CD2.

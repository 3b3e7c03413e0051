(** Reference counts and views of the concurrent buffer when its callers follow the
    epoch discipline and flush only finished appends. *)
From Coq Require Import List Arith ZArith NArith Lia Bool Permutation.
From Verif Require Import Base ListLemmas RecordModel BufferModel BufConcModel BufConcProofs.
Import ListNotations.

Section CV.
Context {R : Type} {RO : RecOps R}.
Variables hwm cap : nat.
(** The slots whose appends are finished before a flush. *)
Variable SL : nat -> Prop.
Notation exec := (exec hwm cap).
Notation cexec := (cexec hwm cap).
Notation creach := (creach hwm cap).
Notation cs_init := (cs_init hwm cap).
Notation hd b := (hidx (cb_head b)).
Notation od b := (hidx (cb_old b)).
Implicit Types (s : cstate R) (b : cbuf R) (p : pc R).

Definition cnt (l : list (pc R)) (i : nat) : nat := countb (holds i) l.

Definition refs b (l : list (pc R)) (v : vpc) : Prop :=
  match v with
  | VOld n cur =>
      cb_head b = BH n 0 /\ href (cb_old b) = 0 /\ cnt l (hidx cur) = href cur /\
      (forall i, i <> hidx cur -> cnt l i = 0) /\ od b <> hidx cur /\ hidx cur < n /\ n <= hidx cur + hwm
  | _ =>
      href (cb_old b) + href (cb_head b) = cnt l (od b) + cnt l (hd b) /\
      cnt l (od b) <= href (cb_old b) /\
      (forall i, i <> od b -> i <> hd b -> cnt l i = 0) /\ od b <> hd b /\
      (0 < cnt l (od b) -> od b < hd b) /\ (od b < hd b -> hd b <= od b + hwm) /\
      (match v with VLoad _ | VCas _ _ => href (cb_old b) = 0 | _ => True end)
  end.

Definition vbase b (v : vpc) : nat := match v with VOld n cur => hidx cur | _ => hd b end.

Definition target_ok b (v : vpc) (t : nat) : Prop :=
  t = vbase b v \/ (v = VIdle /\ t = od b /\ t < hd b).

Definition pcK b p : Prop :=
  match p with
  | GNow => False
  | GTail t => t <= cb_tail b
  | Hold h tl => h <= tl /\ tl <= cb_tail b
  | ROldLd h => od b = h
  | ROldCas h cur => od b = h /\ hidx cur = h /\ 0 < href cur
  | RCurCas h cur => 0 < href cur
  | _ => True
  end.

Definition tgt (v : vpc) : option nat :=
  match v with
  | VHead n | VTail n | VRef n | VLoad n | VCas n _ => Some n
  | _ => None
  end.

Record kinv s : Prop := {
  k_j : jinv hwm cap s;
  k_refs : refs (cs_buf s) (cs_pcs s) (cs_adv s);
  k_seek : forall p t, In p (cs_pcs s) -> seeks p = Some t -> target_ok (cs_buf s) (cs_adv s) t;
  k_pc : forall p, In p (cs_pcs s) -> pcK (cs_buf s) p;
  k_fl : forall q, In q (in_flight s) -> SL (q mod cap) -> hd (cs_buf s) <= q;
  k_tgt : forall n, tgt (cs_adv s) = Some n ->
    n <= cb_tail (cs_buf s) /\ forall q, In q (in_flight s) -> SL (q mod cap) -> n <= q
}.

Lemma base_vbase : forall s, base s = vbase (cs_buf s) (cs_adv s).
Proof. intros [b l v d]. unfold base. cbn. destruct v; auto. Qed.

Lemma vbase_eq : forall b b' v, hd b' = hd b -> vbase b' v = vbase b v.
Proof. intros. destruct v; cbn; auto. Qed.

Lemma target_eq : forall b b' v t, hd b' = hd b -> od b' = od b -> target_ok b v t -> target_ok b' v t.
Proof. intros b b' v t H O T. unfold target_ok in *. rewrite (vbase_eq b b'), H, O by auto. auto. Qed.

Lemma target_le : forall b l v t, refs b l v -> hd b <= cb_tail b -> target_ok b v t -> t <= cb_tail b.
Proof.
  intros b l v t F L [->|(-> & -> & T)]; [|lia]. destruct v; cbn; auto.
  cbn in F. destruct F as (E & _ & _ & _ & _ & X & _). rewrite E in L. cbn in L. lia.
Qed.

Lemma pcK_mono : forall b b' p, cb_tail b <= cb_tail b' -> od b' = od b -> pcK b p -> pcK b' p.
Proof. intros b b' [] T H K; cbn in *; try rewrite H; auto; lia. Qed.

(** What one step does to the two heads and to who holds what. *)
Lemma exec_K : forall b p b' p', exec b p = Some (b', p') -> pcJ hwm b p -> pcK b p ->
  (forall t, seeks p = Some t -> t <= cb_tail b) ->
  cb_tail b <= cb_tail b' /\ hd b' = hd b /\ od b' = od b /\ pcK b' p' /\
  (forall t, seeks p' = Some t -> seeks p = Some t) /\
  ((cb_head b' = cb_head b /\ cb_old b' = cb_old b /\ (forall i, holds i p' = holds i p)) \/
   (cb_head b' = cb_head b /\ cb_old b' = BH (od b) (S (href (cb_old b))) /\ seeks p = Some (od b) /\
      forall i, holds i p = false /\ holds i p' = (od b =? i)) \/
   (cb_old b' = cb_old b /\ cb_head b' = BH (hd b) (S (href (cb_head b))) /\ seeks p = Some (hd b) /\
      forall i, holds i p = false /\ holds i p' = (hd b =? i)) \/
   (cb_head b' = cb_head b /\ cb_old b' = BH (od b) (href (cb_old b) - 1) /\ 0 < href (cb_old b) /\
      forall i, holds i p' = false /\ holds i p = (od b =? i)) \/
   (cb_old b' = cb_old b /\ cb_head b' = BH (hd b) (href (cb_head b) - 1) /\ 0 < href (cb_head b) /\
      exists h, forall i, holds i p' = false /\ holds i p = (h =? i))).
Proof.
  intros b p b' p' E J K S.
  destruct p; cbn [BufConcModel.exec] in E; try discriminate; cbn [pcJ pcK seeks] in J, K, S.
  all: repeat match type of E with
       | context[if ?c then _ else _] => let F := fresh "F" in destruct c eqn:F
       end; inversion E; subst; clear E.
  all: try (apply head_eqb_eq in F).
  all: try match goal with F : cb_old _ = ?c |- _ => subst c end.
  all: try match goal with F : cb_head _ = ?c |- _ => subst c end.
  all: cbn [cb_tail cb_head cb_old hidx href with_tail with_head with_old with_slot pcK seeks holds] in *.
  all: try contradiction.
  all: try match goal with H : (_ =? _) = true |- _ => apply Nat.eqb_eq in H end.
  all: try match goal with H : (_ =? _) = false |- _ => apply Nat.eqb_neq in H end.
  all: try match goal with H : _ /\ _ /\ _ |- _ => destruct H as (<- & ? & ?) end.
  all: try (split; [lia|]; split; [congruence|]; split; [congruence|]; split; [auto; lia|]; split; [congruence|]).
  all: try (left; auto; fail).
  all: try (right; left; split; [auto|]; split; [auto|]; split; [auto|]; intros i; auto; fail).
  all: try (right; right; left; split; [auto|]; split; [auto|]; split; [auto|]; intros i; auto; fail).
  all: try (right; right; right; left; split; [auto|]; split; [auto|]; split; [lia|]; intros i; auto; fail).
  all: try (right; right; right; right; split; [auto|]; split; [auto|]; split; [lia|]; eexists; intros i; auto; fail).
Qed.

Lemma in_fl : forall (l : list (pc R)) q, In q (flat_map pc_pos l) <-> exists p, In p l /\ In q (pc_pos p).
Proof. intros. apply in_flat_map. Qed.

Lemma cnt_set : forall l t p p' i, nth_error l t = Some p ->
  cnt (set_nth t p' l) i + (if holds i p then 1 else 0) = cnt l i + (if holds i p' then 1 else 0).
Proof. intros. apply countb_set_nth. auto. Qed.

Lemma cnt_same : forall l t p p', nth_error l t = Some p -> (forall i, holds i p' = holds i p) ->
  forall i, cnt (set_nth t p' l) i = cnt l i.
Proof. intros l t p p' N H i. pose proof (cnt_set l t p p' i N) as C. rewrite H in C. lia. Qed.

Lemma refs_same : forall b b' l l' v, cb_head b' = cb_head b -> cb_old b' = cb_old b ->
  (forall i, cnt l' i = cnt l i) -> refs b l v -> refs b' l' v.
Proof.
  intros b b' l l' v H O C F. unfold refs in *. rewrite H, O.
  destruct v; rewrite ?C; (repeat match goal with H : _ /\ _ |- _ => destruct H end);
  repeat (split; [auto; fail||(intros; rewrite C; auto)|]); auto; intros; rewrite C; auto.
Qed.

(** Outside the window between the two stores of advance_head. *)
Lemma refs_out : forall b l v, (forall n cur, v <> VOld n cur) -> refs b l v <->
  (href (cb_old b) + href (cb_head b) = cnt l (od b) + cnt l (hd b) /\
   cnt l (od b) <= href (cb_old b) /\
   (forall i, i <> od b -> i <> hd b -> cnt l i = 0) /\ od b <> hd b /\
   (0 < cnt l (od b) -> od b < hd b) /\ (od b < hd b -> hd b <= od b + hwm) /\
   (match v with VLoad _ | VCas _ _ => href (cb_old b) = 0 | _ => True end)).
Proof. intros b l v N. destruct v; try reflexivity. destruct (N n cur); auto. Qed.

Lemma v_cases : forall v, (exists n cur, v = VOld n cur) \/ (forall n cur, v <> VOld n cur).
Proof. destruct v; try (right; congruence). left; eauto. Qed.

Lemma refs_old_acq : forall b b' l l' v, refs b l v -> target_ok b v (od b) ->
  cb_head b' = cb_head b -> cb_old b' = BH (od b) (S (href (cb_old b))) ->
  (forall i, cnt l' i = cnt l i + if od b =? i then 1 else 0) -> refs b' l' v.
Proof.
  intros b b' l l' v F T H O C. unfold target_ok in T. destruct T as [T|(-> & _ & T)].
  - destruct (v_cases v) as [(n & cur & ->)|N].
    + cbn in F, T. destruct F as (_ & _ & _ & _ & X & _). congruence.
    + apply refs_out in F; auto. destruct F as (_ & _ & _ & X & _).
      destruct v; cbn in T; congruence.
  - destruct F as (F1 & F2 & F3 & F4 & F5 & F6 & F7).
    cbn [refs]. rewrite H, O. cbn [hidx href]. rewrite !C, Nat.eqb_refl.
    destruct (Nat.eqb_spec (od b) (hd b)); [lia|].
    split; [lia|]. split; [lia|]. split; [|auto].
    intros i I1 I2. rewrite C. destruct (Nat.eqb_spec (od b) i); [congruence|]. rewrite F3; auto.
Qed.

Lemma refs_head_acq : forall b b' l l' v, refs b l v -> target_ok b v (hd b) ->
  cb_old b' = cb_old b -> cb_head b' = BH (hd b) (S (href (cb_head b))) ->
  (forall i, cnt l' i = cnt l i + if hd b =? i then 1 else 0) -> refs b' l' v.
Proof.
  intros b b' l l' v F T O H C. destruct (v_cases v) as [(n & cur & ->)|N].
  - destruct T as [T|(T & _)]; [|discriminate]. cbn in F, T.
    destruct F as (X & _ & _ & _ & _ & Y & _). rewrite X in T. cbn in T. lia.
  - apply refs_out in F; auto. apply refs_out; auto. destruct F as (F1 & F2 & F3 & F4 & F5 & F6 & F7).
    rewrite H, O. cbn [hidx href]. rewrite !C, Nat.eqb_refl.
    destruct (Nat.eqb_spec (hd b) (od b)); [congruence|].
    split; [lia|]. split; [lia|]. split; [|split; [auto|split; [rewrite Nat.add_0_r; auto|auto]]].
    intros i I1 I2. rewrite C. destruct (Nat.eqb_spec (hd b) i); [congruence|]. rewrite F3; auto.
Qed.

Lemma refs_old_rel : forall b b' l l' v, refs b l v -> 0 < href (cb_old b) ->
  cb_head b' = cb_head b -> cb_old b' = BH (od b) (href (cb_old b) - 1) ->
  (forall i, cnt l' i + (if od b =? i then 1 else 0) = cnt l i) -> refs b' l' v.
Proof.
  intros b b' l l' v F P H O C. destruct (v_cases v) as [(n & cur & ->)|N].
  - cbn in F. destruct F as (_ & X & _). lia.
  - apply refs_out in F; auto. apply refs_out; auto. destruct F as (F1 & F2 & F3 & F4 & F5 & F6 & F7).
    rewrite H, O. cbn [hidx href]. pose proof (C (od b)) as C1. pose proof (C (hd b)) as C2.
    rewrite Nat.eqb_refl in C1. destruct (Nat.eqb_spec (od b) (hd b)); [congruence|].
    split; [lia|]. split; [lia|]. split; [|split; [auto|split; [intros; apply F5; lia|split; [auto|]]]].
    + intros i I1 I2. pose proof (C i). rewrite (F3 i) in * by auto. lia.
    + destruct v; auto; lia.
Qed.

Lemma refs_head_rel : forall b b' l l' v h, refs b l v -> 0 < href (cb_head b) ->
  cb_old b' = cb_old b -> cb_head b' = BH (hd b) (href (cb_head b) - 1) ->
  (forall i, cnt l' i + (if h =? i then 1 else 0) = cnt l i) -> refs b' l' v.
Proof.
  intros b b' l l' v h F P O H C. destruct (v_cases v) as [(n & cur & ->)|N].
  - cbn in F. destruct F as (X & _). rewrite X in P. cbn in P. lia.
  - apply refs_out in F; auto. apply refs_out; auto. destruct F as (F1 & F2 & F3 & F4 & F5 & F6 & F7).
    rewrite H, O. cbn [hidx href]. pose proof (C (od b)) as C1. pose proof (C (hd b)) as C2. pose proof (C h) as C3.
    rewrite Nat.eqb_refl in C3.
    assert (HH : h = od b \/ h = hd b).
    { destruct (Nat.eq_dec h (od b)); auto. destruct (Nat.eq_dec h (hd b)); auto. rewrite (F3 h) in C3 by auto. lia. }
    destruct (Nat.eqb_spec h (od b)); destruct (Nat.eqb_spec h (hd b)); try (subst; congruence); try lia.
    all: split; [lia|]; split; [lia|]; split; [|split; [auto|split; [intros; apply F5; lia|split; auto]]].
    all: intros i I1 I2; pose proof (C i); rewrite (F3 i) in * by auto; lia.
Qed.

Lemma k_thread : forall s t s', kinv s -> cexec s (Step t) = Some s' -> kinv s'.
Proof.
  intros s t s' K E. pose proof (j_step _ _ _ _ _ (k_j _ K) E) as J'.
  destruct K as [J F SK PC FL TG]. destruct s as [b l v d]. unfold in_flight in *.
  cbn [BufConcModel.cexec cs_buf cs_pcs cs_adv cs_done] in *.
  destruct (nth_error l t) as [p|] eqn:N; [|discriminate].
  destruct (exec b p) as [[b' p']|] eqn:X; [|discriminate]. inversion E; subst; clear E.
  pose proof (nth_error_In _ _ N) as IN. destruct J as [L1 L2 PJ A Q D]. cbn [cs_buf cs_pcs cs_adv cs_done] in *.
  destruct (exec_K b p b' p' X (PJ p IN) (PC p IN)) as (T & H & O & PK & SS & C).
  { intros u U. eapply target_le; eauto. }
  destruct (exec_J hwm cap b p b' p' X (PJ p IN) L1 L2) as (_ & _ & _ & _ & _ & C2).
  assert (NF : forall q, In q (pc_pos p') -> In q (pc_pos p) \/ q = cb_tail b).
  { intros q I. destruct C2 as [(r & ts & -> & -> & _)|[_ [(r & ts & y & -> & ->)|[_ E]]]].
    - destruct I as [<-|[]]; auto.
    - destruct I.
    - rewrite E in I. auto. }
  assert (NF2 : forall q, In q (flat_map pc_pos (set_nth t p' l)) -> In q (flat_map pc_pos l) \/ q = cb_tail b).
  { intros q I. apply in_fl in I as (y & Y & I). apply in_set_nth in Y as [->|Y].
    - apply NF in I as [I|I]; auto. left. apply in_fl. eauto.
    - left. apply in_fl. eauto. }
  constructor; unfold in_flight; cbn [cs_buf cs_pcs cs_adv cs_done]; auto.
  - destruct C as [(C1 & C3 & C4)|[(C1 & C3 & C4 & C5)|[(C1 & C3 & C4 & C5)|[(C1 & C3 & C4 & C5)|(C1 & C3 & C4 & h & C5)]]]].
    + eapply refs_same; [eauto|eauto| |eauto]. apply cnt_same with (p := p); auto.
    + eapply refs_old_acq; [eauto|eauto|eauto|eauto|]. intros i. pose proof (cnt_set l t p p' i N) as Y.
      destruct (C5 i) as [Z1 Z2]. rewrite Z1, Z2 in Y. lia.
    + eapply refs_head_acq; [eauto|eauto|eauto|eauto|]. intros i. pose proof (cnt_set l t p p' i N) as Y.
      destruct (C5 i) as [Z1 Z2]. rewrite Z1, Z2 in Y. lia.
    + eapply refs_old_rel; [eauto|eauto|eauto|eauto|]. intros i. pose proof (cnt_set l t p p' i N) as Y.
      destruct (C5 i) as [Z1 Z2]. rewrite Z1, Z2 in Y. lia.
    + eapply refs_head_rel with (h := h); [eauto|eauto|eauto|eauto|]. intros i. pose proof (cnt_set l t p p' i N) as Y.
      destruct (C5 i) as [Z1 Z2]. rewrite Z1, Z2 in Y. lia.
  - intros y u I U. apply target_eq with (b := b); auto.
    apply in_set_nth in I as [->|I]; eauto.
  - intros y I. apply in_set_nth in I as [->|I]; auto. eapply pcK_mono; [| |apply PC; auto]; auto.
  - intros q I. rewrite H. apply NF2 in I as [I| ->]; auto.
  - intros n Hn. destruct (TG n Hn) as [T1 T2]. split; [lia|].
    intros q I. apply NF2 in I as [I| ->]; auto.
Qed.

Lemma k_step : forall s a s', kinv s -> disciplined_on cap SL s a -> cexec s a = Some s' -> kinv s'.
Proof.
  intros s a s' K [OK QT] E. destruct a as [t c|t|n|]; [| eapply k_thread; eauto| |].
  - pose proof (j_step _ _ _ _ _ (k_j _ K) E) as J'. destruct K as [J F SK PC FL TG].
    pose proof (base_vbase s) as BV.
    destruct s as [b l v d]. unfold in_flight in *.
    cbn [BufConcModel.cexec cs_buf cs_pcs cs_adv cs_done epochs_ok] in *.
    destruct (nth_error l t) as [p|] eqn:N; [|discriminate].
    destruct (begin c p) as [p'|] eqn:B; [|discriminate]. inversion E; subst; clear E.
    destruct (begin_pos hwm c p p' b B) as (P1 & P2 & _).
    pose proof (nth_error_In _ _ N) as IN.
    assert (FE : forall q, In q (flat_map pc_pos (set_nth t p' l)) -> In q (flat_map pc_pos l)).
    { intros q I. apply in_fl in I as (y & Y & I). apply in_set_nth in Y as [->|Y].
      - rewrite P2 in I. destruct I.
      - apply in_fl. eauto. }
    assert (BB : (forall i, holds i p' = holds i p) /\ pcK b p' /\ (forall u, seeks p' = Some u -> target_ok b v u)).
    { destruct c; destruct p; cbn in B; inversion B; subst; cbn [holds pcK seeks]; try contradiction.
      - split; [auto|split; [auto|congruence]].
      - split; [auto|split; [auto|]]. intros u U. inversion U; subst. rewrite BV in OK. exact OK.
      - split; [auto|split; [auto|congruence]]. }
    destruct BB as (B1 & B2 & B3).
    constructor; unfold in_flight; cbn [cs_buf cs_pcs cs_adv cs_done]; auto.
    + eapply refs_same; [auto|auto| |eauto]. apply cnt_same with (p := p); auto.
    + intros y u I U. apply in_set_nth in I as [->|I]; eauto.
    + intros y I. apply in_set_nth in I as [->|I]; auto.
    + intros n Hn. destruct (TG n Hn) as [T1 T2]. split; auto.
  - pose proof (j_step _ _ _ _ _ (k_j _ K) E) as J'. destruct K as [J F SK PC FL TG].
    destruct s as [b l v d]. unfold in_flight in *.
    cbn [BufConcModel.cexec cs_buf cs_pcs cs_adv cs_done epochs_ok quiet_on] in *.
    destruct v; inversion E; subst; clear E.
    constructor; unfold in_flight; cbn [cs_buf cs_pcs cs_adv cs_done]; auto.
    + intros y u I U. left. cbn. eapply OK; eauto.
    + cbn. intros m M. inversion M; subst. auto.
  - pose proof (j_step _ _ _ _ _ (k_j _ K) E) as J'. destruct K as [J F SK PC FL TG].
    destruct s as [b l v d]. unfold in_flight in *.
    cbn [BufConcModel.cexec cs_buf cs_pcs cs_adv cs_done] in *.
    destruct (vexec b v) as [[b' v']|] eqn:X; [|discriminate]. inversion E; subst; clear E.
    destruct J as [L1 L2 PJ A Q D]. cbn [cs_buf cs_pcs cs_adv cs_done] in *.
    assert (SK' : forall p t, In p l -> seeks p = Some t -> v <> VIdle -> t = vbase b v).
    { intros p t I U V. destruct (SK p t I U) as [|(? & _)]; [auto|contradiction]. }
    assert (KV : forall w, cs_buf (CS b' l v' d) = b -> v' = w -> refs b l w -> v <> VIdle -> vbase b w = vbase b v ->
      (forall m, tgt w = Some m -> tgt v = Some m) -> kinv (CS b' l v' d)).
    { cbn [cs_buf]. intros w -> -> W1 WI W2 W3.
      constructor; unfold in_flight; cbn [cs_buf cs_pcs cs_adv cs_done]; auto.
      intros p t I U. left. rewrite W2. apply (SK' p t I U). auto. }
    destruct v as [|n|n|n|n|n cur|n cur|]; cbn [vexec] in X; try discriminate.
    all: repeat match type of X with
         | context[if ?c then _ else _] => let G := fresh "G" in destruct c eqn:G
         end; inversion X; subst; clear X.
    all: try (eapply KV; [reflexivity|reflexivity|cbn in *; tauto|discriminate|reflexivity|cbn; try (intros; congruence); auto]; fail).
    + (* VRef, no reference on the old head *)
      eapply KV; [reflexivity|reflexivity| |discriminate|reflexivity|auto].
      apply Nat.ltb_ge in G. cbn in *. repeat (split; [tauto|]). lia.
    + (* VCas succeeds *)
      apply head_eqb_eq in G. subst cur. cbn in F. destruct F as (F1 & F2 & F3 & F4 & F5 & F6 & F7).
      cbn in A. destruct A as [A1 A2]. destruct (TG n eq_refl) as [_ TG2].
      constructor; unfold in_flight; cbn [cs_buf cs_pcs cs_adv cs_done with_head cb_head cb_old cb_tail hidx]; auto.
      * cbn. split; [auto|]. split; [auto|]. split; [lia|].
        split; [|split; [auto|split; [auto|lia]]].
        intros i I. destruct (Nat.eq_dec i (od b)) as [->|]; [lia|auto].
      * intros p t I U. left. cbn. apply (SK' p t I U). discriminate.
      * cbn. discriminate.
    + (* VOld *)
      cbn in F. destruct F as (F1 & F2 & F3 & F4 & F5 & F6 & F7).
      constructor; unfold in_flight; cbn [cs_buf cs_pcs cs_adv cs_done with_old cb_head cb_old cb_tail hidx]; auto.
      * cbn. rewrite F1. cbn. rewrite (F4 n) by lia.
        split; [lia|]. split; [lia|]. split; [auto|]. split; [lia|auto].
      * intros p t I U. right. cbn. rewrite F1. cbn. rewrite (SK' p t I U) by discriminate. cbn. auto.
      * intros p I. pose proof (PC p I) as P.
        assert (NH : forall i, holds i p = true -> i = hidx cur).
        { intros i HI. destruct (Nat.eq_dec i (hidx cur)); auto.
          pose proof (countb_in (holds i) l p I HI). fold (cnt l i) in H. rewrite F4 in H by auto. lia. }
        destruct p; cbn [pcK with_old cb_old cb_tail hidx] in *; auto.
        -- symmetry. apply NH. cbn. apply Nat.eqb_refl.
        -- split; [|tauto]. symmetry. apply NH. cbn. apply Nat.eqb_refl.
Qed.

Lemma init_cnt : forall n i, cnt (repeat Idle n) i = 0.
Proof. intros. apply countb_false. intros p I. apply repeat_spec in I. subst. auto. Qed.

Lemma k_init : forall n, 0 < hwm -> kinv (cs_init n).
Proof.
  intros n HW. pose proof (j_init hwm cap n) as J.
  constructor; auto; unfold BufConcModel.cs_init, in_flight; cbn [cs_buf cs_pcs cs_adv cs_done].
  - cbn. rewrite !init_cnt. repeat split; try lia. intros. apply init_cnt.
  - intros p t I. apply repeat_spec in I. subst. discriminate.
  - intros p I. apply repeat_spec in I. subst. cbn. auto.
  - rewrite init_pos. contradiction.
  - discriminate.
Qed.

Lemma k_reach : forall n s, 0 < hwm -> creach (disciplined_on cap SL) (cs_init n) s -> kinv s.
Proof.
  intros n s HW H. remember (cs_init n) as s0. induction H; subst; [apply k_init; auto|].
  eapply k_step; eauto.
Qed.

(** A held view's head is the current one, or at most one flush behind it. *)
Lemma held_close : forall s p h tl, kinv s -> In p (cs_pcs s) -> p = Hold h tl ->
  h <= tl /\ tl <= cb_tail (cs_buf s) /\ h <= hd (cs_buf s) /\ hd (cs_buf s) <= h + hwm.
Proof.
  intros [b l v d] p h tl K I ->. destruct K as [J F SK PC FL TG]. cbn [cs_buf cs_pcs cs_adv cs_done] in *.
  destruct (PC _ I) as [P1 P2]. split; [auto|]. split; [auto|].
  assert (C : 0 < cnt l h) by (eapply countb_in; [eauto|]; cbn; apply Nat.eqb_refl).
  destruct (v_cases v) as [(n & cur & ->)|N].
  - cbn in F. destruct F as (F1 & F2 & F3 & F4 & F5 & F6 & F7). rewrite F1. cbn.
    destruct (Nat.eq_dec h (hidx cur)); [lia|]. rewrite F4 in C by auto. lia.
  - apply refs_out in F; auto. destruct F as (F1 & F2 & F3 & F4 & F5 & F6 & F7).
    destruct (Nat.eq_dec h (hd b)); [lia|]. destruct (Nat.eq_dec h (od b)); [|rewrite F3 in C by auto; lia].
    subst h. specialize (F5 C). specialize (F6 F5). lia.
Qed.

(** C17, for the slots [SL]. *)
Theorem view_not_overwritten_on : forall n s h tl x y, 0 < hwm -> 2 * hwm <= cap ->
  creach (disciplined_on cap SL) (cs_init n) s -> In (Hold h tl) (cs_pcs s) -> In x (in_flight s) ->
  h <= y < tl -> SL (y mod cap) -> x mod cap = y mod cap -> x = y.
Proof.
  intros n s h tl x y HW CP RE I X B YY E. pose proof (k_reach n s HW RE) as K.
  destruct (held_close s _ h tl K I eq_refl) as (H1 & H2 & H3 & H4).
  pose proof (k_fl _ K x X ltac:(rewrite E; exact YY)) as X1. destruct (k_j _ K) as [L1 L2 PJ A Q D].
  assert (X2 : x < cb_tail (cs_buf s)).
  { assert (In x (seq 0 (cb_tail (cs_buf s)))) by (rewrite <- Q; apply in_app_iff; auto). apply in_seq in H. lia. }
  destruct (Nat.le_ge_cases x y); [|symmetry]; apply mod_close with (c := cap); auto; lia.
Qed.

(** The discipline for all slots is the strictest. *)
Lemma disciplined_step : forall s a, disciplined s a -> disciplined_on cap SL s a.
Proof. intros s a [E Q]. split; auto. destruct a; cbn in *; auto. destruct Q. auto. Qed.

Lemma disciplined_any : forall s s', creach disciplined s s' -> creach (disciplined_on cap SL) s s'.
Proof.
  intros s s' H. induction H; [apply cr_refl|]. eapply cr_step; eauto. apply disciplined_step. auto.
Qed.

End CV.

Section CV2.
Context {R : Type} {RO : RecOps R}.
Variables hwm cap : nat.

(** C17. *)
Theorem view_not_overwritten : forall n (s : cstate R) h tl x y, 0 < hwm -> 2 * hwm <= cap ->
  creach hwm cap disciplined (cs_init hwm cap n) s -> In (Hold h tl) (cs_pcs s) -> In x (in_flight s) ->
  h <= y < tl -> x mod cap = y mod cap -> x = y.
Proof.
  intros n s h tl x y HW CP RE I X B E.
  eapply (view_not_overwritten_on hwm cap (fun _ => True) n); eauto. apply disciplined_any. auto.
Qed.

End CV2.

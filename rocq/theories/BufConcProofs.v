(** Invariants of the concurrent buffer. *)
From Coq Require Import List Arith ZArith NArith Lia Bool Permutation.
From Verif Require Import Base ListLemmas RecordModel BufferModel BufConcModel.
Import ListNotations.

Lemma head_eqb_eq : forall a b, head_eqb a b = true -> a = b.
Proof.
  intros [i r] [j q] H. unfold head_eqb in H. cbn in H. apply andb_prop in H as [H1 H2].
  apply Nat.eqb_eq in H1. apply Nat.eqb_eq in H2. subst. auto.
Qed.

Lemma head_eqb_refl : forall a, head_eqb a a = true.
Proof. intros [i r]. unfold head_eqb. cbn. rewrite !Nat.eqb_refl. auto. Qed.

Lemma flat_map_set_nth : forall {A B} (f : A -> list B) l t p q, nth_error l t = Some p ->
  Permutation (f p ++ flat_map f (set_nth t q l)) (f q ++ flat_map f l).
Proof.
  induction l as [|a l IH]; intros [|t] p q H; try discriminate; cbn in *.
  - inversion H; subst. rewrite !app_assoc. apply Permutation_app_tail. apply Permutation_app_comm.
  - specialize (IH _ _ q H). rewrite !app_assoc.
    apply Permutation_trans with (f a ++ f p ++ flat_map f (set_nth t q l)).
    { rewrite app_assoc. apply Permutation_app_tail. apply Permutation_app_comm. }
    rewrite IH. rewrite app_assoc. apply Permutation_app_tail. apply Permutation_app_comm.
Qed.

Lemma countb_set_nth : forall {A} (f : A -> bool) l t p q, nth_error l t = Some p ->
  countb f (set_nth t q l) + (if f p then 1 else 0) = countb f l + (if f q then 1 else 0).
Proof.
  induction l as [|a l IH]; intros [|t] p q H; try discriminate; cbn in *.
  - inversion H; subst. destruct (f p), (f q); lia.
  - specialize (IH _ _ q H). destruct (f a); lia.
Qed.

Lemma countb_in : forall {A} (f : A -> bool) l x, In x l -> f x = true -> 0 < countb f l.
Proof.
  induction l as [|a l IH]; intros x I F; [contradiction|]. destruct I as [->|I]; cbn.
  - rewrite F. lia.
  - specialize (IH _ I F). destruct (f a); lia.
Qed.

Section CP.
Context {R : Type} {RO : RecOps R}.
Variables hwm cap : nat.
Notation exec := (exec hwm cap).
Notation cexec := (cexec hwm cap).
Notation creach := (creach hwm cap).
Notation cs_init := (cs_init hwm cap).
Notation hd b := (hidx (cb_head b)).
Implicit Types (s : cstate R) (b : cbuf R) (p : pc R).

(** ** No discipline *)

Definition pcJ b p : Prop :=
  match p with
  | AHead _ _ old | ARetry _ _ old => old <= cb_tail b
  | ACas _ _ old => old <= cb_tail b /\ S old <= hd b + hwm
  | GOldCas t cur | GCurCas t cur => hidx cur = t
  | _ => True
  end.
Definition advJ b (v : vpc) : Prop :=
  match v with
  | VTail n => hd b < n
  | VRef n | VLoad n | VCas n _ => hd b < n /\ n <= cb_tail b
  | _ => True
  end.

Record jinv s : Prop := {
  j_le : hd (cs_buf s) <= cb_tail (cs_buf s);
  j_cnt : cb_tail (cs_buf s) <= hd (cs_buf s) + hwm;
  j_pcs : forall p, In p (cs_pcs s) -> pcJ (cs_buf s) p;
  j_adv : advJ (cs_buf s) (cs_adv s);
  j_pos : Permutation (map fst (cs_done s) ++ in_flight s) (seq 0 (cb_tail (cs_buf s)));
  j_len : length (cb_data (cs_buf s)) = cap
}.

Lemma pcJ_mono : forall b b' p, cb_tail b <= cb_tail b' -> hd b <= hd b' -> pcJ b p -> pcJ b' p.
Proof. intros b b' [] T H J; cbn in *; lia || auto. Qed.

Lemma advJ_mono : forall b b' v, cb_tail b <= cb_tail b' -> hd b = hd b' -> advJ b v -> advJ b' v.
Proof. intros b b' [] T H J; cbn in *; lia || auto. Qed.

Lemma with_slot_len : forall b i f, length (cb_data (with_slot b i f)) = length (cb_data b).
Proof. intros. unfold with_slot. cbn. destruct (nth_error _ _); auto. apply set_nth_length. Qed.

(** What one step of a thread does to the tail and the head number. *)
Lemma exec_J : forall b p b' p', exec b p = Some (b', p') -> pcJ b p ->
  hd b <= cb_tail b -> cb_tail b <= hd b + hwm ->
  cb_tail b <= cb_tail b' /\ hd b' = hd b /\ pcJ b' p' /\ cb_tail b' <= hd b + hwm /\
  length (cb_data b') = length (cb_data b) /\
  ((exists r ts, p = ACas r ts (cb_tail b) /\ p' = AWrite r ts (cb_tail b) /\ cb_tail b' = S (cb_tail b)) \/
   (cb_tail b' = cb_tail b /\ ((exists r ts q, p = AVis r ts q /\ p' = Idle) \/
     ((forall r ts q, p <> AVis r ts q) /\ pc_pos p' = pc_pos p)))).
Proof.
  intros b p b' p' E J L1 L2.
  destruct p; cbn [BufConcModel.exec] in E; try discriminate.
  all: repeat match type of E with
       | context[if ?c then _ else _] => let F := fresh "F" in destruct c eqn:F
       end; inversion E; subst; clear E; cbn [pcJ] in J.
  all: try (apply head_eqb_eq in F).
  all: rewrite ?with_slot_len; cbn [cb_tail cb_head cb_data hidx with_tail with_head with_old with_slot pcJ].
  all: try (apply orb_false_iff in F as [F F']; apply Nat.ltb_ge in F; apply Nat.leb_gt in F').
  all: try (apply Nat.leb_gt in F). all: try (apply Nat.eqb_eq in F).
  all: try (split; [lia|split; [subst; auto; congruence|]]).
  all: try (split; [cbn; auto; lia|]). all: try (split; [lia|]). all: try (split; [auto; fail|]).
  all: try (right; split; [auto|]; right; split; [congruence|auto]; fail).
  all: try (right; split; [auto|]; left; eauto; fail).
  all: try (left; subst; eauto; fail).
Qed.

Lemma begin_pos : forall c p p' b, begin c p = Some p' -> pc_pos p = [] /\ pc_pos p' = [] /\ pcJ b p'.
Proof. intros [] [] p' b H; cbn in H; inversion H; cbn; auto. Qed.

Lemma in_flight_set : forall (l : list (pc R)) t p q, nth_error l t = Some p ->
  Permutation (pc_pos p ++ flat_map pc_pos (set_nth t q l)) (pc_pos q ++ flat_map pc_pos l).
Proof. intros. apply flat_map_set_nth. auto. Qed.

Lemma j_step : forall s a s', jinv s -> cexec s a = Some s' -> jinv s'.
Proof.
  intros s a s' J E. destruct J as [L1 L2 P A Q D]. destruct s as [b l v d]. unfold in_flight in *. cbn [cs_buf cs_pcs cs_adv cs_done] in *.
  destruct a as [t c|t|n|]; cbn [BufConcModel.cexec cs_buf cs_pcs cs_adv cs_done] in E.
  - destruct (nth_error l t) as [p|] eqn:N; [|discriminate]. destruct (begin c p) as [p'|] eqn:B; [|discriminate].
    inversion E; subst; clear E. destruct (begin_pos c p p' b B) as (P1 & P2 & P3).
    pose proof (in_flight_set l t p p' N) as F. rewrite P1, P2 in F. cbn [app] in F.
    constructor; unfold in_flight; cbn [cs_buf cs_pcs cs_adv cs_done]; auto.
    + intros x I. apply in_set_nth in I as [->|I]; auto.
    + rewrite F. auto.
  - destruct (nth_error l t) as [p|] eqn:N; [|discriminate].
    destruct (exec b p) as [[b' p']|] eqn:X; [|discriminate]. inversion E; subst; clear E.
    destruct (exec_J b p b' p' X (P p (nth_error_In _ _ N)) L1 L2) as (T & H & PJ & T2 & LD & C).
    pose proof (in_flight_set l t p p' N) as F.
    constructor; unfold in_flight; cbn [cs_buf cs_pcs cs_adv cs_done]; try lia.
    + intros x I. apply in_set_nth in I as [->|I]; auto. eapply pcJ_mono; [| |apply P; auto]; lia.
    + eapply advJ_mono; [| |eauto]; lia.
    + destruct C as [(r & ts & -> & -> & T')|[T' [(r & ts & q & -> & ->)|[NV SP]]]]; rewrite T'; cbn [pc_pos app] in F.
      * rewrite F. rewrite seq_S. cbn [Nat.add]. rewrite <- Q.
        rewrite <- app_assoc. apply Permutation_app_head. apply Permutation_cons_append.
      * cbn [map fst app]. rewrite <- Q. rewrite <- F.
        cbn [app]. apply Permutation_middle.
      * rewrite SP in F. apply Permutation_app_inv_l in F.
        assert (E : match p with AVis r ts q => (q, (r, ts)) :: d | _ => d end = d).
        { destruct p; auto. destruct (NV r ts p); auto. }
        rewrite E, F. auto.
  - destruct v; inversion E; subst. constructor; cbn [cs_buf cs_pcs cs_adv cs_done]; auto; cbn; auto.
  - destruct (vexec b v) as [[b' v']|] eqn:X; [|discriminate]. inversion E; subst; clear E.
    assert (G : cb_tail b' = cb_tail b /\ cb_data b' = cb_data b /\ hd b <= hd b' /\ hd b' <= cb_tail b /\ advJ b' v').
    { destruct v; cbn [vexec] in X; try discriminate.
      all: try (match type of X with context[if ?c then _ else _] => destruct c eqn:G end).
      all: inversion X; subst; clear X; cbn [cb_tail cb_head cb_data hidx with_tail with_head with_old advJ] in *.
      all: try match goal with H : (_ <? _) = true |- _ => apply Nat.ltb_lt in H end.
      all: try match goal with H : (_ <=? _) = true |- _ => apply Nat.leb_le in H end.
      all: try match goal with H : _ /\ _ |- _ => destruct H end.
      all: repeat (split; [lia || auto; fail|]); lia || auto. }
    destruct G as (G1 & G2 & G3 & G4 & G5).
    constructor; unfold in_flight; cbn [cs_buf cs_pcs cs_adv cs_done]; try lia; auto.
    + intros x I. eapply pcJ_mono; [| |apply P; auto]; lia.
    + rewrite G1. auto.
    + rewrite G2. auto.
Qed.

Lemma init_pos : forall n, flat_map (@pc_pos R) (repeat Idle n) = [].
Proof. induction n; auto. Qed.

Lemma j_init : forall n, jinv (cs_init n).
Proof.
  intros. constructor; cbn; auto; try lia.
  - intros p I. apply repeat_spec in I. subst. cbn. auto.
  - unfold in_flight. cbn. rewrite init_pos. auto.
  - apply repeat_length.
Qed.

Lemma j_reach : forall ok n s, creach ok (cs_init n) s -> jinv s.
Proof.
  intros ok n s H. remember (cs_init n) as s0. induction H; subst; [apply j_init|].
  eapply j_step; eauto.
Qed.

Lemma mod_close : forall a b c : nat, a <= b -> b < a + c -> a mod c = b mod c -> a = b.
Proof.
  intros a b c L H E. destruct c; [lia|].
  pose proof (Nat.div_mod a (S c) ltac:(lia)). pose proof (Nat.div_mod b (S c) ltac:(lia)).
  rewrite E in H0. assert (a / S c <= b / S c) by (apply Nat.div_le_mono; lia).
  generalize dependent (a / S c). generalize dependent (b / S c). generalize (b mod S c).
  intros m y Y x X XY. destruct (Nat.eq_dec x y); [congruence|].
  assert (S c * S x <= S c * y) by (apply Nat.mul_le_mono_l; lia). lia.
Qed.

(** C16. *)
Theorem buffer_bounded : forall ok n s, creach ok (cs_init n) s ->
  hd (cs_buf s) <= cb_tail (cs_buf s) /\ cb_count (cs_buf s) <= hwm /\
  NoDup (map fst (cs_done s) ++ in_flight s) /\
  (forall x, In x (map fst (cs_done s) ++ in_flight s) <-> x < cb_tail (cs_buf s)).
Proof.
  intros ok n s H. destruct (j_reach ok n s H). unfold cb_count. split; [auto|]. split; [lia|]. split.
  - eapply Permutation_NoDup; [apply Permutation_sym; eauto|]. apply seq_NoDup.
  - intros x. rewrite j_pos0. rewrite in_seq. lia.
Qed.

(** Buffered positions have their own slots. *)
Theorem buffer_slots : forall ok n s x y, hwm <= cap -> creach ok (cs_init n) s ->
  hd (cs_buf s) <= x < cb_tail (cs_buf s) -> hd (cs_buf s) <= y < cb_tail (cs_buf s) ->
  x mod cap = y mod cap -> x = y.
Proof.
  intros ok n s x y C H X Y E. destruct (j_reach ok n s H).
  destruct (Nat.le_ge_cases x y); [|symmetry]; apply mod_close with (c := cap); auto; lia.
Qed.

End CP.

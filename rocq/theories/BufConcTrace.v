(** Leaked references, refused appends, and running concrete schedules. *)
From Coq Require Import List Arith ZArith NArith Lia Bool Permutation.
From Verif Require Import Base ListLemmas RecordModel BufferModel BufConcModel BufConcProofs BufConcView BufConcData.
Import ListNotations.

Section CT.
Context {R : Type} {RO : RecOps R}.
Variables hwm cap : nat.
Notation exec := (exec hwm cap).
Notation cexec := (cexec hwm cap).
Notation creach := (creach hwm cap).
Notation cs_init := (cs_init hwm cap).
Notation hd b := (hidx (cb_head b)).
Notation od b := (hidx (cb_old b)).
Implicit Types (s : cstate R) (b : cbuf R) (p : pc R).

(** More references on the old head than threads that will give one back. *)
Definition leaked s : Prop :=
  match cs_adv s with VLoad _ | VCas _ _ | VOld _ _ => False | _ => True end /\
  cnt (cs_pcs s) (od (cs_buf s)) < href (cb_old (cs_buf s)).

Lemma leaked_step : forall s a s', kinv hwm cap (fun _ => True) s -> leaked s -> cexec s a = Some s' ->
  leaked s' /\ hd (cs_buf s') = hd (cs_buf s).
Proof.
  intros s a s' K [LA LC] E. destruct s as [b l v d]. cbn [cs_buf cs_pcs cs_adv cs_done] in *.
  destruct a as [t c|t|n|]; cbn [BufConcModel.cexec cs_buf cs_pcs cs_adv cs_done] in E.
  - destruct (nth_error l t) as [p|] eqn:N; [|discriminate]. destruct (begin c p) as [p'|] eqn:B; inversion E; subst.
    split; auto. split; auto. cbn [cs_buf cs_pcs]. rewrite (cnt_same l t p p' N); auto.
    intros i. destruct c; destruct p; cbn in B; inversion B; auto.
  - destruct (nth_error l t) as [p|] eqn:N; [|discriminate].
    destruct (exec b p) as [[b' p']|] eqn:X; [|discriminate]. inversion E; subst; clear E.
    destruct K as [J F SK PC FL TG]. destruct J as [L1 L2 PJ A Q D].
    cbn [cs_buf cs_pcs cs_adv cs_done] in *. pose proof (nth_error_In _ _ N) as IN.
    destruct (exec_K hwm _ b p b' p' X (PJ p IN) (PC p IN)) as (T & H & O & PK & SS & C).
    { intros u U. eapply target_le; eauto. }
    split; auto. split; auto. cbn [cs_buf cs_pcs]. rewrite O.
    pose proof (cnt_set l t p p' (od b) N) as Y.
    assert (NE : od b <> hd b).
    { destruct v; cbn in LA; try contradiction; cbn in F; tauto. }
    destruct C as [(C1 & C3 & C4)|[(C1 & C3 & C4 & C5)|[(C1 & C3 & C4 & C5)|[(C1 & C3 & C4 & C5)|(C1 & C3 & C4 & h & C5)]]]];
      rewrite ?C3, ?C1; cbn [href].
    + rewrite C4 in Y. lia.
    + destruct (C5 (od b)) as [Z1 Z2]. rewrite Z1, Z2, Nat.eqb_refl in Y. lia.
    + destruct (C5 (od b)) as [Z1 Z2]. rewrite Z1, Z2 in Y. destruct (Nat.eqb_spec (hd b) (od b)); [congruence|]. lia.
    + destruct (C5 (od b)) as [Z1 Z2]. rewrite Z1, Z2, Nat.eqb_refl in Y. lia.
    + destruct (C5 (od b)) as [Z1 Z2]. rewrite Z1, Z2 in Y. destruct (h =? od b); lia.
  - destruct v; inversion E; subst. split; auto. split; cbn; auto.
  - destruct v; cbn [vexec] in E; try discriminate; try contradiction.
    all: match type of E with context[if ?c then _ else _] => destruct c eqn:G end; inversion E; subst; clear E.
    all: split; auto; split; auto; cbn; auto.
    apply Nat.ltb_ge in G. lia.
Qed.

Theorem leaked_forever : forall n s s', 0 < hwm -> creach disciplined (cs_init n) s -> leaked s ->
  creach disciplined s s' -> leaked s' /\ hd (cs_buf s') = hd (cs_buf s).
Proof.
  intros n s s' HW RE L H. pose proof (k_reach hwm cap (fun _ => True) n s HW (disciplined_any _ _ _ _ _ RE)) as K. clear RE.
  assert (G : kinv hwm cap (fun _ => True) s' /\ leaked s' /\ hd (cs_buf s') = hd (cs_buf s)); [|tauto].
  induction H as [|s s1 a s2 H IH OK E]; auto.
  destruct (IH L K) as (K1 & L1 & H1). split; [eapply k_step; eauto using disciplined_step|].
  destruct (leaked_step s1 a s2 K1 L1 E) as [L2 H2]. split; auto. congruence.
Qed.

(** C41. *)
Theorem refused_full : forall ok n s t s' p, creach ok (cs_init n) s ->
  nth_error (cs_pcs s) t = Some p -> cexec s (Step t) = Some s' ->
  nth_error (cs_pcs s') t = Some ARefused ->
  (hd (cs_buf s) = 0 \/ exists r ts old, p = AHead r ts old /\ hd (cs_buf s) <= old) ->
  cb_count (cs_buf s) = hwm.
Proof.
  intros ok n s t s' p RE N E AR C. destruct (j_reach hwm cap ok n s RE) as [L1 L2 PJ A Q D].
  unfold cb_count. pose proof (PJ p (nth_error_In _ _ N)) as P.
  destruct s as [b l v d]. cbn [cs_buf cs_pcs cs_adv cs_done BufConcModel.cexec] in *. rewrite N in E.
  destruct (exec b p) as [[b' p']|] eqn:X; [|discriminate]. inversion E; subst; clear E. cbn [cs_pcs] in AR.
  rewrite nth_error_set_nth_eq in AR by (apply nth_error_Some; congruence). inversion AR; subst; clear AR.
  destruct p; cbn [BufConcModel.exec] in X; try discriminate.
  all: repeat match type of X with context[if ?c then _ else _] => let F := fresh "F" in destruct c eqn:F end; inversion X; subst.
  - cbn in P. apply orb_true_iff in F. rewrite Nat.ltb_lt, Nat.leb_le in F.
    destruct C as [C|(r' & ts' & o' & C & C')]; [lia|]. inversion C; subst. lia.
  - cbn in P. apply Nat.leb_le in F. destruct C as [C|(r' & ts' & o' & C & C')]; [lia|]. discriminate.
Qed.

(** ** Concrete schedules *)

Definition epochs_okb s (a : act R) : bool :=
  match a with
  | Call _ (View_ t) =>
      (t =? base s) ||
      (match cs_adv s with VIdle => (t =? od (cs_buf s)) && (t <? hd (cs_buf s)) | _ => false end)
  | Call _ ViewNow => false
  | Advance n => forallb (fun p => match seeks p with Some t => t =? hd (cs_buf s) | None => true end) (cs_pcs s)
  | _ => true
  end.
Definition quietb s (a : act R) : bool :=
  match a with
  | Advance n => (n <=? cb_tail (cs_buf s)) && forallb (fun y => n <=? y) (in_flight s)
  | _ => true
  end.

Lemma epochs_okb_ok : forall s a, epochs_okb s a = true -> epochs_ok s a.
Proof.
  intros s [t []|t|n|] H; cbn in *; auto; try discriminate.
  - apply orb_true_iff in H as [H|H]; [left; apply Nat.eqb_eq; auto|right].
    destruct (cs_adv s); try discriminate. apply andb_prop in H as [H1 H2].
    apply Nat.eqb_eq in H1. apply Nat.ltb_lt in H2. auto.
  - intros p t I S. rewrite forallb_forall in H. specialize (H p I). cbn in H. rewrite S in H. apply Nat.eqb_eq. auto.
Qed.
Lemma quietb_ok : forall s a, quietb s a = true -> quiet s a.
Proof.
  intros s [t c|t|n|] H; cbn in *; auto. apply andb_prop in H as [H1 H2]. split; [apply Nat.leb_le; auto|].
  intros p I. rewrite forallb_forall in H2. apply Nat.leb_le. auto.
Qed.

(** A schedule whose actions all pass [chk]. *)
Fixpoint checked (chk : cstate R -> act R -> bool) (s : cstate R) (l : list (act R)) : option (cstate R) :=
  match l with
  | [] => Some s
  | a :: l' => if chk s a then match cexec s a with Some s' => checked chk s' l' | None => None end else None
  end.

Lemma checked_reach : forall (ok : cstate R -> act R -> Prop) chk l s0 s s',
  (forall s a, chk s a = true -> ok s a) -> creach ok s0 s -> checked chk s l = Some s' -> creach ok s0 s'.
Proof.
  intros ok chk l. induction l as [|a l IH]; intros s0 s s' H RE E; cbn in E; [inversion E; subst; auto|].
  destruct (chk s a) eqn:C; [|discriminate]. destruct (cexec s a) as [s1|] eqn:X; [|discriminate].
  eapply IH; [eauto| |eauto]. econstructor; eauto.
Qed.

Lemma checked_views : forall l s s', checked (fun s a => epochs_okb s a && quietb s a) s l = Some s' ->
  creach disciplined s s'.
Proof.
  intros l s s' E. eapply checked_reach; [|apply cr_refl|eauto]. cbn. intros s1 a H.
  apply andb_prop in H as [H1 H2]. split; [apply epochs_okb_ok|apply quietb_ok]; auto.
Qed.
Lemma checked_epochs : forall l s s', checked epochs_okb s l = Some s' -> creach (@epochs_ok R) s s'.
Proof. intros l s s' E. eapply checked_reach; [|apply cr_refl|eauto]. intros. apply epochs_okb_ok. auto. Qed.

End CT.

Definition steps {R} (t k : nat) : list (act R) := repeat (Step t) k.

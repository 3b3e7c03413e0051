(** One operation after a history. *)
From Coq Require Import List Arith ZArith NArith Lia Bool Permutation Sorted.
From Verif Require Import Base ListLemmas RecordModel RecordProofs BufferModel BufferProofs
  MergeModel MergeProofs StructModel ExtModel StructProofs StructTotal SortedProofs ExtProofs ContentProofs
  QueryModel Spec QueryProofs SerialProofs.
Import ListNotations.

Section St.
Context {R : Type} {RO : RecOps R} {RL : RecLaws R}.
Variable qlt : qorder R.
Context {QO : QOrder qlt}.
Variable C : cfg.
Hypothesis V : valid_cfg C.

Lemma safe_prefix : forall a b : list (op R), bsm_safe qlt C (a ++ b) -> bsm_safe qlt C a.
Proof.
  intros a b H Q pre post e rs E Rn. subst a. eapply (H Q pre (post ++ b)); eauto. apply app_assoc_reverse.
Qed.

Theorem step_balance : forall ops o e rs e' rs', c_del C = TOMBSTONE ->
  bsm_safe qlt C (ops ++ [o]) ->
  run_new qlt C ops = Ok (e, rs) -> run_new qlt C (ops ++ [o]) = Ok (e', rs') ->
  (forall r, n_plain r (stored e') + n_tomb r (stored e) + n_del r [o] =
             n_plain r (stored e) + n_tomb r (stored e') + n_ins r [o]) /\
  length (buffer_records e') =
    (if length (buffer_records e) =? c_lwm C then 1 else length (buffer_records e) + 1).
Proof.
  intros ops o e rs e' rs' TB BM H H'.
  pose proof (safe_prefix _ _ BM) as BM0.
  split.
  - intro r. pose proof (net_balance qlt C V _ _ _ TB BM0 H r).
    pose proof (net_balance qlt C V _ _ _ TB BM H' r).
    unfold n_ins, n_del in *. rewrite !countb_app in H1. lia.
  - destruct V as (LW & WM & SF & _).
    destruct (run_facts qlt C V _ _ _ (tomb_appends C _ TB) (safe_ok qlt C _ BM0) H)
      as (st & win & pos & I & _ & HH & _).
    destruct (run_facts qlt C V _ _ _ (tomb_appends C _ TB) (safe_ok qlt C _ BM) H')
      as (st' & win' & pos' & I' & _ & HH' & _).
    rewrite (proj2 (stored_eq C V _ _ _ _ _ I)), (proj2 (stored_eq C V _ _ _ _ _ I')).
    apply (hist_win qlt C SF LW WM) in HH as (_ & L1 & L2 & (k & L3) & L4).
    apply (hist_win qlt C SF LW WM) in HH' as (_ & L1' & L2' & (k' & L3') & L4').
    rewrite map_length in *. rewrite app_length in L1'. simpl in L1'.
    assert (NW : 1 <= length win') by (destruct L4'; [lia|destruct win'; [congruence|simpl; lia]]).
    assert (NW0 : pos = 0 \/ 1 <= length win) by (destruct L4; [lia|destruct win; [congruence|simpl; lia]]).
    subst pos pos'. set (n := c_lwm C) in *.
    destruct (Nat.eqb_spec (length win) n).
    + assert (k' = k + 1) by nia. nia.
    + assert (k' = k) by nia. nia.
Qed.

End St.

(** What queries return of the records that are never erased. *)
From Coq Require Import List Arith ZArith Lia Bool Permutation.
From Verif Require Import Base ListLemmas RecordModel RecordProofs BufferModel MergeModel MergeProofs StructModel ExtModel QueryModel
  ContentProofs Spec QueryProofs SerialProofs FlushModel FlushSpec FlushProofs FlushAny FlushKeep
  BufConcModel SysModel SysBatch SysSpec SysTrace SysQuery SysOrigin KeepSpec.
Import ListNotations.

Section SK.
Context {R : Type} {RO : RecOps R} {RL : RecLaws R} {KO : KeyOps R} {KL : KeyLaws R}.
Variable qlt : qorder R.
Context {QO : QOrder qlt}.
Variable C : cfg.
Hypothesis V : valid_cfg C.
Hypothesis NB : c_layout C <> BSM.
Variable cap : nat.
Hypothesis CAP : 2 * c_hwm C <= cap.
Notation sys_init := (sys_init (c_hwm C) cap).
Notation sreach := (sreach (c_lwm C) (c_hwm C) cap).

Lemma spared_answer : forall (f : nat -> bool) n s seen runs buf r,
  sreach (fun s x => calm_on cap (fun i => f i = true) s x /\ spares r s x) (sys_init n) s ->
  In (AList seen runs buf) (y_ans s) ->
  Forall (Forall nodel) runs /\ Forall nodel buf /\ n_tomb r (concat runs ++ buf) = 0 /\
  a_ins r (filter (fun x => f (fst x mod cap)) seen) <= n_plain r (concat runs ++ buf).
Proof.
  intros f n s seen runs buf r SR A.
  assert (SO : sreach (only (fun x ts => ts = true -> req r x = false)) (sys_init n) s).
  { clear A. induction SR; econstructor; eauto. destruct H as [_ H]. destruct x as [t []| | |]; cbn in *; auto. intros ->. auto. }
  assert (SC : sreach (calm_on cap (fun i => f i = true)) (sys_init n) s).
  { clear A SO. induction SR; econstructor; eauto. apply H. }
  pose proof (origin_reach _ _ _ _ _ _ SO) as O.
  assert (K : forall w, In w (concat runs ++ buf) -> nodel w /\ req r (wrec w) && is_ts w = false).
  { intros w W. destruct (answer_from _ _ _ _ _ _ _ O A W) as [[X Y]| ->].
    - split; auto. destruct (is_ts w); [rewrite X; auto|apply andb_false_r].
    - split; [reflexivity|]. apply andb_false_r. }
  split. { apply Forall_forall. intros ws W. apply Forall_forall. intros w I. apply K. apply in_or_app. left.
    apply in_concat. eauto. }
  split. { apply Forall_forall. intros w I. apply K. apply in_or_app. auto. }
  split.
  - unfold n_tomb. destruct (Nat.eq_dec (countb (fun w => req r (wrec w) && is_ts w) (concat runs ++ buf)) 0); auto.
    assert (P : 0 < countb (fun w => req r (wrec w) && is_ts w) (concat runs ++ buf)) by lia.
    apply countb_pos in P as (w & I & E). apply K in I as [_ I]. congruence.
  - destruct (snapshot_on _ _ _ f _ _ _ _ _ (hwm_pos C V cap CAP) CAP SC A) as (ex & P).
    destruct (placed_counts cap r (filter (fun x => f (fst x mod cap)) seen)) as [P1 _].
    unfold n_plain in *. rewrite (countb_perm _ _ _ P), countb_app. rewrite <- P1. apply Nat.le_add_r.
Qed.

Theorem spared_static : forall (f : nat -> bool) n s seen runs buf bs st d v sh r,
  sreach (fun s x => calm_on cap (fun i => f i = true) s x /\ spares r s x) (sys_init n) s ->
  In (AList seen runs buf) (y_ans s) -> Forall2 shows bs runs -> flush_all qlt C st_empty bs = Ok st ->
  shows (d, v) buf -> static_on qlt st d v = Ok sh ->
  a_ins r (filter (fun x => f (fst x mod cap)) seen) <= n_plain r (s_data sh).
Proof.
  intros f n s seen runs buf bs st d v sh r SR A F H W Q.
  destruct (spared_answer _ _ _ _ _ _ _ SR A) as (N1 & N2 & T & L).
  destruct (keep_static qlt C V NB _ _ _ _ _ _ _ r F N1 H W N2 Q). lia.
Qed.

Variable lbf : list (wrapped R) -> Z -> res nat.
Hypothesis LB : lb_sound lbf.

Theorem spared_range : forall (f : nat -> bool) n s seen runs buf bs st d v lo hi out r,
  sreach (fun s x => calm_on cap (fun i => f i = true) s x /\ spares r s x) (sys_init n) s ->
  In (AList seen runs buf) (y_ans s) -> Forall2 shows bs runs -> flush_all qlt C st_empty bs = Ok st ->
  shows (d, v) buf -> rq_on qlt lbf lo hi st d v = Ok out -> key_in lo hi r = true ->
  a_ins r (filter (fun x => f (fst x mod cap)) seen) <= occ r out.
Proof.
  intros f n s seen runs buf bs st d v lo hi out r SR A F H W Q K.
  destruct (spared_answer _ _ _ _ _ _ _ SR A) as (N1 & N2 & T & L).
  pose proof (keep_range qlt C V NB lbf LB _ _ _ _ _ _ lo hi out r F N1 H W Q) as B. rewrite K in B. lia.
Qed.
End SK.

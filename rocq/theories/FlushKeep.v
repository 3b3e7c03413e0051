(** Reconstructions with any number of tombstones lose no record that is not erased. *)
From Coq Require Import List Arith ZArith NArith Lia Bool Permutation.
From Verif Require Import Base ListLemmas RecordModel RecordProofs BufferModel BufferProofs
  MergeModel MergeProofs StructModel ExtModel QueryModel StructProofs StructTotal SortedProofs ExtProofs ContentProofs
  Spec QueryProofs SerialProofs ExecProofs LevelProofs SizeProofs CountProofs BsmProofs FlushModel FlushSpec FlushProofs FlushAny.
Import ListNotations.

Section FK.
Context {R : Type} {RO : RecOps R} {RL : RecLaws R}.
Variable qlt : qorder R.
Context {QO : QOrder qlt}.
Variable C : cfg.
Hypothesis V : valid_cfg C.
Hypothesis NB : c_layout C <> BSM.

Lemma keep_all : forall bs runs st st', Forall2 shows bs runs -> Forall (Forall nodel) runs -> sinv C shard_ok st ->
  Forall nodel (sdata (age st)) -> flush_all qlt C st bs = Ok st' ->
  sinv C shard_ok st' /\ Forall nodel (sdata (age st')) /\
  exists ps, cancel_of (map rt (sdata (age st) ++ concat runs)) (map rt (sdata (age st'))) ps.
Proof.
  intros bs runs st st' F. revert st. induction F as [|x ws bs runs X F IHF]; intros st ND S N H.
  - inv H. split; auto. split; auto. cbn. rewrite app_nil_r. exists []. apply cancel_of_refl.
  - destruct x as [d v]. cbn [flush_all] in H. mon H. inv ND.
    destruct (shows_ok d v ws X) as (VO & VC & VR).
    destruct (flush_step qlt C V st d v ws a S) as (S1 & s & B & G); auto; [congruence|].
    rewrite built_sorted in B. destruct (shard_of_cancel _ _ B H2) as (N3 & qs & Q).
    destruct (seg_steps_cancel _ _ _ G) as (N4 & us & U).
    { rewrite sdata_app, sdata1. apply Forall_app. auto. }
    destruct (IHF _ H3 S1 N4 H) as (S2 & N5 & ps & P). split; auto. split; auto.
    exists ((([] ++ qs) ++ us) ++ [] ++ ps). cbn [app concat].
    eapply cancel_of_trans; [|exact P]. rewrite app_assoc, (map_app rt (sdata (age st) ++ ws)), (map_app rt (sdata (age a))).
    rewrite <- (app_nil_r (qs ++ us)). apply cancel_of_app; [|apply cancel_of_refl].
    eapply cancel_of_trans; [|exact U]. rewrite sdata_app, sdata1, !map_app.
    change qs with ([] ++ qs). apply cancel_of_app; [apply cancel_of_refl|auto].
Qed.

Lemma keep_new : forall bs runs st, Forall2 shows bs runs -> Forall (Forall nodel) runs ->
  flush_all qlt C st_empty bs = Ok st ->
  sinv C shard_ok st /\ Forall nodel (sdata (age st)) /\
  exists ps, cancel_of (map rt (concat runs)) (map rt (sdata (age st))) ps.
Proof. intros bs runs st F N H. apply (keep_all _ _ _ _ F N (empty_sinv C)); auto. constructor. Qed.

Theorem keep_balance : forall bs runs st r, Forall2 shows bs runs -> Forall (Forall nodel) runs ->
  flush_all qlt C st_empty bs = Ok st ->
  n_plain r (st_records st) + n_tomb r (concat runs) = n_tomb r (st_records st) + n_plain r (concat runs) /\
  n_plain r (st_records st) <= n_plain r (concat runs).
Proof.
  intros bs runs st r F N H. destruct (keep_new _ _ _ F N H) as (_ & _ & ps & E).
  destruct (cancel_balance _ _ _ E r) as (k & K1 & K2).
  rewrite <- !n_plain_rt, <- !n_tomb_rt in *.
  assert (A : n_plain r (st_records st) = n_plain r (sdata (age st)) /\ n_tomb r (st_records st) = n_tomb r (sdata (age st))).
  { split; apply countb_perm; apply st_records_perm. }
  destruct A as [-> ->]. lia.
Qed.

Theorem keep_static : forall bs runs st d v win s r, Forall2 shows bs runs -> Forall (Forall nodel) runs ->
  flush_all qlt C st_empty bs = Ok st -> shows (d, v) win -> Forall nodel win -> static_on qlt st d v = Ok s ->
  n_plain r (s_data s) + n_tomb r (concat runs ++ win) = n_tomb r (s_data s) + n_plain r (concat runs ++ win) /\
  n_plain r (s_data s) <= n_plain r (concat runs ++ win).
Proof.
  intros bs runs st d v win s r F N H W NW E. destruct (keep_new _ _ _ F N H) as (S & ND & ps & P).
  pose proof (s_ok _ _ S) as O. destruct (shows_ok _ _ _ W) as (VO & VC & VR).
  unfold static_on in E. mon E. mon E.
  pose proof (combined_steps qlt _ _ E0 O) as G. destruct (seg_steps_cancel _ _ _ G ND) as (N1 & qs & Q).
  assert (B : Forall nodel (sdata a0) /\ exists us, cancel_of (map rt win) (map rt (sdata a0)) us).
  { destruct (0 <? v_count v) eqn:Z.
    - mon E1. inv E1. rewrite (view_built qlt _ _ _ VO VR), built_sorted in E2. rewrite sdata1.
      apply shard_of_cancel; auto.
    - inv E1. apply Nat.ltb_ge in Z. destruct win; [|cbn in *; lia]. split; [constructor|]. exists []. apply cancel_of_refl. }
  destruct B as (N2 & us & U).
  destruct (sfs_cancel _ _ _ E) as (_ & xs & X); [rewrite sdata_app; apply Forall_app; auto|].
  assert (K : cancel_of (map rt (concat runs ++ win)) (map rt (s_data s)) (((ps ++ qs) ++ us) ++ xs)).
  { eapply cancel_of_trans; [|exact X]. rewrite sdata_app, !map_app. apply cancel_of_app; auto.
    eapply cancel_of_trans; eauto. }
  destruct (cancel_balance _ _ _ K r) as (k & K1 & K2).
  rewrite <- !n_plain_rt, <- !n_tomb_rt in *. lia.
Qed.

Context {KO : KeyOps R} {KL : KeyLaws R}.
Variable lbf : list (wrapped R) -> Z -> res nat.
Hypothesis LB : lb_sound lbf.

Theorem keep_range : forall bs runs st d v win l u out r, Forall2 shows bs runs -> Forall (Forall nodel) runs ->
  flush_all qlt C st_empty bs = Ok st -> shows (d, v) win -> rq_on qlt lbf l u st d v = Ok out ->
  if key_in l u r then n_plain r (concat runs ++ win) <= occ r out + n_tomb r (concat runs ++ win) /\
                       occ r out <= n_plain r (concat runs ++ win)
  else occ r out = 0.
Proof.
  intros bs runs st d v win l u out r F N H W Q. destruct (keep_new _ _ _ F N H) as (S & _).
  destruct (shows_ok _ _ _ W) as (_ & _ & VR).
  destruct (rq_on_run qlt lbf LB _ _ _ _ _ _ _ (s_ok _ _ S) VR Q) as (evs & M & ->).
  pose proof (merge_counts qlt _ _ _ l u r M (range_inputs st win l u)) as MC. cbv zeta in MC.
  destruct (keep_balance _ _ _ r F N H) as [B1 B2].
  unfold n_plain, n_tomb in *. rewrite !countb_app in *. rewrite !(countb_perm _ _ _ (st_records_perm st)) in *.
  destruct (key_in l u r); lia.
Qed.

End FK.

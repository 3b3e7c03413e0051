(** The sorted arrays as a kind of shards. *)
From Coq Require Import List Arith ZArith NArith Lia Bool Permutation Sorted.
From Verif Require Import Base ListLemmas RecordModel RecordProofs BufferModel BufferProofs
  MergeModel MergeProofs StructModel ExtModel StructProofs.
Import ListNotations.

Section SO.
Context {R : Type} {RO : RecOps R} {RL : RecLaws R}.
Variable qlt : qorder R.
Context {QO : QOrder qlt}.

Lemma sfs_bound : forall ss s, shard_from_shards qlt ss = Ok s ->
  s_reccnt s <= sum_list (map s_reccnt ss).
Proof.
  unfold shard_from_shards. intros. rewrite build_cursor_vec_eq in H. mon H.
  destruct (Nat.leb_spec (m_rec a) (sum_list (map s_reccnt ss))); inv H. auto.
Qed.

Lemma sfv_bound : forall (d : list (wrapped R)) v s, vok d v -> shard_from_view d v = Ok s ->
  s_reccnt s <= v_count v.
Proof.
  intros. apply sfv_ok in H0 as (l & evs & H1 & H2 & H3 & (H4 & _)).
  rewrite v_copy_ok in H1 by auto. inv H1. rewrite H4, H3, map_length.
  eapply Nat.le_trans; [apply filter_length_le|].
  apply crun_perm in H2. apply Permutation_length in H2. rewrite !app_length in H2.
  pose proof (Permutation_length (wsort_perm (ring d (v_head v) (v_count v)))) as PL.
  rewrite ring_length in PL. lia.
Qed.

(** The shard built from a list of buffered records. *)
Definition shard_of (l : list (wrapped R)) : res (shard R) :=
  do m <- cancel_loop (S (length (wsort l))) (wsort l) (MArr [] 0 0);
  Ok (Shard (m_data m) (m_rec m) (m_ts m)).

Lemma sfv_shard_of : forall d v l, v_copy d v = Ok l -> shard_from_view d v = shard_of l.
Proof.
  intros. unfold shard_from_view, sorted_array_from_view, shard_of. rewrite H. auto.
Qed.

Lemma shard_of_ok : forall l s, shard_of l = Ok s ->
  exists evs, crun (wsort l) evs /\ s_data s = map mask3 (filter keep (emits evs)) /\ shard_ok s.
Proof.
 intros l s H. unfold shard_of in H.
  destruct (lview_ok l) as (_ & _ & _ & E).
  pose proof (sfv_shard_of _ _ _ E) as F. unfold shard_of in F. rewrite H in F.
  apply sfv_ok in F as (l' & evs & E' & K1 & K2 & K3).
  rewrite E in E'. inv E'. eauto.
Qed.

Lemma shard_of_total : forall l, exists s, shard_of l = Ok s.
Proof.
  intros. unfold shard_of.
  destruct (cancel_loop_run (S (length (wsort l))) (wsort l) (MArr [] 0 0)
    (Nat.lt_succ_diag_r _)) as (evs & _ & ->). simpl. eauto.
Qed.

#[global] Instance sorted_laws : ShardLaws qlt shard_ok.
Proof.
  constructor.
  - intros s [H _]. auto.
  - intros d v d' v' V V' E. simpl. rewrite v_records_ok in E by auto. rewrite v_records_ok in E by auto.
    unfold shard_from_view, sorted_array_from_view. rewrite !v_copy_ok by auto. rewrite E. auto.
  - intros d v s V H. split; [apply sfv_ok in H as (_ & _ & _ & _ & _ & ?); auto|].
    apply (sfv_bound _ _ _ V H).
  - intros d v V. simpl. eapply sfv_total. apply v_copy_ok. auto.
  - exact (sfs_shard_ok qlt).
  - exact sfs_bound.
  - exact (sfs_total qlt).
Qed.

Lemma built_sorted : forall l, built qlt l = shard_of l.
Proof. intros. apply sfv_shard_of. apply lview_ok. Qed.

End SO.

(** The constructors of [sorted_shards], seen through its fields. *)
#[global] Hint Extern 1 (shard_from_shards _ _ = _) =>
  match goal with H : from_shards (sorted_shards _) _ = _ |- _ => exact H end : core.
#[global] Hint Extern 1 (from_shards (sorted_shards _) _ = _) =>
  match goal with H : shard_from_shards _ _ = _ |- _ => exact H end : core.
#[global] Hint Extern 1 (built (sorted_shards _) _ = _) => rewrite built_sorted; assumption : core.

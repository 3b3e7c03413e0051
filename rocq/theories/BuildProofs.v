(** Shard construction in the vocabulary of Spec.v. *)
From Coq Require Import List Arith ZArith NArith Lia Bool Permutation Sorted.
From Verif Require Import Base ListLemmas RecordModel RecordProofs BufferModel MergeModel MergeProofs Spec.
Import ListNotations.

Section BP.
Context {R : Type} {RO : RecOps R} {RL : RecLaws R}.

Lemma keep_split : forall l : list (wrapped R),
  Permutation l (filter keep l ++ filter (fun w => negb (keep w)) l).
Proof.
  induction l as [|w l IH]; simpl; auto. destruct (keep w); simpl; auto.
  apply Permutation_cons_app. auto.
Qed.

Lemma dropped_del : forall l : list (wrapped R),
  Forall (fun w => is_del w = true) (filter (fun w => negb (keep w)) l).
Proof.
  intros. apply Forall_forall. intros w H. apply filter_In in H as [_ H]. unfold keep in H.
  rewrite negb_involutive in H. auto.
Qed.

Lemma kept_nodel : forall l : list (wrapped R), Forall (fun w => is_del w = false) (filter keep l).
Proof.
  intros. apply Forall_forall. intros w H. apply filter_In in H as [_ H]. unfold keep in H.
  apply negb_true_iff in H. auto.
Qed.

Lemma cancels_pairs : forall ps : list (wrapped R * wrapped R),
  Forall (fun p => cancels (fst p) (snd p) = true) ps ->
  Forall (fun p => is_ts (fst p) = false /\ is_ts (snd p) = true /\
                   req (wrec (fst p)) (wrec (snd p)) = true) ps.
Proof.
  intros. eapply Forall_impl; [|exact H]. intros [a b] K. unfold cancels in K. simpl in *.
  apply andb_true_iff in K as [K T]. apply andb_true_iff in K as [K Q]. apply negb_true_iff in K. auto.
Qed.

Theorem view_build : forall (d : list (wrapped R)) v l, v_copy d v = Ok l ->
  exists s, shard_from_view d v = Ok s /\ built_from l (s_data s) /\
    s_reccnt s = length (s_data s) /\ s_tscnt s = countb is_ts (s_data s) /\ s_reccnt s <= length l.
Proof.
  intros d v l H. destruct (sfv_total d v l H) as [s E]. exists s. split; auto.
  destruct (sfv_ok _ _ _ E) as (l' & evs & H' & CR & D & (O1 & O2 & O3)).
  rewrite H in H'. inv H'. rename l' into l.
  pose proof (crun_perm _ _ CR) as P. pose proof (crun_cancelled _ _ CR) as K.
  assert (PL : Permutation l (emits evs ++ map fst (cancelled evs) ++ map snd (cancelled evs))).
  { rewrite (wsort_perm l). auto. }
  split; [|split; [auto|split; [auto|]]].
  - split; auto. split.
    { rewrite D. pose proof (kept_nodel (emits evs)) as N. apply Forall_map.
      eapply Forall_impl; [|exact N]. intros w Hw. rewrite mask3_del. auto. }
    exists (filter keep (emits evs)), (filter (fun w => negb (keep w)) (emits evs)), (cancelled evs).
    split; [|split; [|split; [apply dropped_del|apply cancels_pairs; auto]]].
    + rewrite PL. rewrite (app_assoc (filter keep _)). apply Permutation_app_tail. apply keep_split.
    + rewrite D, map_map. apply map_ext. intros w. rewrite mask3_ts. auto.
  - rewrite O1, D, map_length. apply Permutation_length in PL. rewrite app_length in PL.
    pose proof (filter_length_le keep (emits evs)). lia.
Qed.

Theorem shards_build : forall (qlt : qorder R) (QO : QOrder qlt) (ss : list (shard R)),
  Forall (fun s => s_data s <> [] /\ sorted (s_data s) /\ s_reccnt s = length (s_data s)) ss ->
  exists s, shard_from_shards qlt ss = Ok s /\ built_from (concat (map s_data ss)) (s_data s) /\
    s_reccnt s = length (s_data s) /\ s_tscnt s = countb is_ts (s_data s) /\
    s_reccnt s <= sum_list (map s_reccnt ss).
Proof.
  intros qlt QO ss F.
  assert (LEN : sum_list (map s_reccnt ss) = length (concat (map s_data ss))).
  { clear -F. induction F; simpl; auto. rewrite app_length. destruct H as (_ & _ & H). lia. }
  assert (T : exists s, shard_from_shards qlt ss = Ok s).
  { unfold shard_from_shards. rewrite build_cursor_vec_eq.
    destruct (sam_total qlt (map s_data ss)) as [m Hm].
    { apply Forall_map. eapply Forall_impl; [|exact F]. intros a (Ha & _). exact Ha. }
    rewrite Hm. simpl. apply sam_ok in Hm as (_ & evs & M & H1 & H2 & _); auto.
    assert (m_rec m <= sum_list (map s_reccnt ss)).
    { rewrite H2, H1, LEN. pose proof (emits_len qlt _ _ M).
      pose proof (filter_length_le keep (emits evs)). lia. }
    rewrite (proj2 (Nat.leb_le _ _) H). eauto. }
  destruct T as [s E]. exists s. split; auto.
  destruct (sfs_ok qlt _ _ E) as (_ & evs & M & D & C1 & C2).
  pose proof (mrun_perm qlt _ _ M) as P. pose proof (mrun_cancelled qlt _ _ M) as K.
  assert (S1 : Forall (StronglySorted wle) (map s_data ss)).
  { apply Forall_map. eapply Forall_impl; [|exact F]. intros x (_ & Hx & _). exact Hx. }
  split; [|split; [auto|split; [auto|]]].
  - split. { rewrite D. apply filter_keep_sorted. eapply mrun_sorted; eauto. }
    split. { rewrite D. apply kept_nodel. }
    exists (filter keep (emits evs)), (filter (fun w => negb (keep w)) (emits evs)), (cancelled evs).
    split; [|split; [|split; [apply dropped_del|apply cancels_pairs; auto]]].
    + rewrite P. rewrite (app_assoc (filter keep _)). apply Permutation_app_tail. apply keep_split.
    + rewrite D. auto.
  - rewrite C1, D, LEN. pose proof (emits_len qlt _ _ M).
    pose proof (filter_length_le keep (emits evs)). lia.
Qed.

End BP.

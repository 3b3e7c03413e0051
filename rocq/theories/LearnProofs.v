(** The constructors of PGM and TrieSpline build the arrays of SortedMerge.h and give
    their index the keys of these arrays. *)
From Coq Require Import List Arith ZArith NArith Lia Bool Permutation Sorted.
From Verif Require Import Base ListLemmas RecordModel RecordProofs BufferModel BufferProofs MergeModel MergeProofs
  StructModel ExtModel StructProofs StructTotal SortedProofs ExtProofs Spec QueryProofs SerialProofs LearnModel LearnSpec.
Import ListNotations.

Section Loops.
Context {R : Type} {RO : RecOps R} {RL : RecLaws R}.
Variable qlt : qorder R.
Context {X : Type}.
Variable note : wrapped R -> X -> res X.

Fixpoint note_all (ws : list (wrapped R)) (x : X) : res X :=
  match ws with [] => Ok x | w :: ws' => do x' <- note w x; note_all ws' x' end.

Lemma note_all_app : forall a b x, note_all (a ++ b) x = do x' <- note_all a x; note_all b x'.
Proof. induction a; simpl; intros; auto. destruct (note a x); simpl; auto. Qed.

(** Both loops follow the same events. *)
Lemma scan_run : forall fuel l (o : marr R) x, length l < fuel ->
  exists evs, crun l evs /\
  cancel_loop fuel l o = Ok (finish (fold_left (fun x w => sam_act w x) (map mask3 (emits evs)) o)) /\
  scan_loop note fuel l o x =
    do x' <- note_all (filter keep (emits evs)) x;
    Ok (finish (fold_left (fun x w => sam_act w x) (map mask3 (emits evs)) o), x').
Proof.
  induction fuel; intros l o x L; [lia|]. destruct l as [|b l]; simpl.
  - exists []. split; [constructor|auto].
  - assert (K : (forall n l', l = n :: l' -> cancels b n = false) ->
      exists evs, crun (b :: l) evs /\
        (if is_del b then cancel_loop fuel l o else cancel_loop fuel l (emit (mask3 b) o)) =
        Ok (finish (fold_left (fun x w => sam_act w x) (map mask3 (emits evs)) o)) /\
        (if is_del b then scan_loop note fuel l o x
         else do x' <- note b x; scan_loop note fuel l (emit (mask3 b) o) x') =
        do x' <- note_all (filter keep (emits evs)) x;
        Ok (finish (fold_left (fun x w => sam_act w x) (map mask3 (emits evs)) o), x')).
    { intros NC. destruct (is_del b) eqn:D.
      - destruct (IHfuel l o x) as (evs & C & E & F); [simpl in L; lia|].
        exists (EEmit b :: evs). split; [constructor; auto|]. simpl.
        unfold sam_act at 2 4. rewrite mask3_del, D. unfold keep at 1. rewrite D. auto.
      - destruct (note b x) as [x'|f] eqn:N.
        + destruct (IHfuel l (emit (mask3 b) o) x') as (evs & C & E & F); [simpl in L; lia|].
          exists (EEmit b :: evs). split; [constructor; auto|]. simpl.
          unfold sam_act at 2 4. rewrite mask3_del, D. unfold keep at 1. rewrite D. simpl. rewrite N. auto.
        + destruct (IHfuel l (emit (mask3 b) o) x) as (evs & C & E & F); [simpl in L; lia|].
          exists (EEmit b :: evs). split; [constructor; auto|]. simpl.
          unfold sam_act at 2. rewrite mask3_del, D. unfold keep at 1. rewrite D. simpl. rewrite N. auto. }
    destruct l as [|n l].
    + apply K. discriminate.
    + destruct (negb (is_ts b) && req (wrec b) (wrec n) && is_ts n) eqn:CC.
      * destruct (IHfuel l o x) as (evs & C & E & F); [simpl in L; lia|].
        exists (ECancel b n :: evs). split; [constructor; auto|]. auto.
      * apply K. intros n0 l0 E. inv E. auto.
Qed.

Lemma merge_loop_hom : forall {A B} (act1 : wrapped R -> A -> A) (act2 : wrapped R -> B -> B) (h : A -> B),
  (forall w a, h (act1 w a) = act2 w (h a)) ->
  forall fuel cs q a, merge_loop qlt act2 fuel cs q (h a) = do x <- merge_loop qlt act1 fuel cs q a; Ok (h x).
Proof.
  intros A B act1 act2 h H. induction fuel; intros cs q a; [auto|]. simpl.
  destruct (pq_min qlt q) as [[w v]|]; [|auto]. cbn [fst snd].
  destruct (pq_next qlt q) as [[t u]|]; cbn [fst snd].
  - destruct (negb (is_ts w) && req (wrec w) (wrec t) && is_ts t).
    + destruct (advance_push v cs (pq_pop qlt (pq_pop qlt q))) as [cs1 q1].
      destruct (advance_push u cs1 q1) as [cs2 q2]. apply IHfuel.
    + destruct (advance_push v cs (pq_pop qlt q)) as [cs1 q1]. rewrite <- H. apply IHfuel.
  - destruct (advance_push v cs (pq_pop qlt q)) as [cs1 q1]. rewrite <- H. apply IHfuel.
Qed.

(** The records that the merge does not cancel, in order. *)
Definition merged (fuel : nat) (cs : list (list (wrapped R))) (q : list (qent R)) : res (list (wrapped R)) :=
  merge_loop qlt cons fuel cs q [].

Lemma merge_loop_merged : forall {A} (act : wrapped R -> A -> A) fuel cs q a,
  merge_loop qlt act fuel cs q a = do l <- merged fuel cs q; Ok (fold_left (fun x w => act w x) (rev l) a).
Proof.
  intros A act fuel cs q a.
  apply (fun H => merge_loop_hom cons act (fun l => fold_left (fun x w => act w x) (rev l) a) H fuel cs q []).
  intros w l. simpl. rewrite fold_left_app. auto.
Qed.

Lemma learn_fold : forall l (o : marr R) x,
  fold_left (fun a w => learn_act note w a) l (Ok (o, x)) =
  do x' <- note_all (filter keep l) x; Ok (fold_left (fun a w => sam_act w a) l o, x').
Proof.
  induction l; intros o x; [reflexivity|]. simpl. unfold sam_act at 2. unfold keep at 1.
  destruct (is_del a); simpl; [apply IHl|].
  destruct (note a x) as [x'|f]; simpl; [apply IHl|].
  clear. induction l; simpl; auto.
Qed.

(** What both merges do with the queue [q]. *)
Lemma merge_same : forall cs q x,
  match merge_loop qlt sam_act (S (length (concat cs))) cs q (MArr [] 0 0) with
  | Ok o => exists l, o = fold_left (fun a w => sam_act w a) l (MArr [] 0 0) /\
      learn_merge qlt note cs q x = do x' <- note_all (filter keep l) x; Ok (finish o, x')
  | Fail f => learn_merge qlt note cs q x = Fail f
  end.
Proof.
  intros cs q x. unfold learn_merge. rewrite !merge_loop_merged.
  destruct (merged (S (length (concat cs))) cs q) as [l|f]; cbn [bind]; auto.
  exists (rev l). split; auto. rewrite learn_fold. cbn [bind].
  destruct (note_all (filter keep (rev l)) x); auto.
Qed.
End Loops.

Section Keys.
Context {R : Type} {RO : RecOps R} {RL : RecLaws R} {KO : KeyOps R} {KL : KeyLaws R}.
Variable qlt : qorder R.
Context {QO : QOrder qlt}.
Implicit Types ws l : list (wrapped R).

Lemma pgm_notes : forall ws ks, note_all pgm_note ws ks = Ok (rev (keys_of ws) ++ ks).
Proof.
  induction ws; intros ks; [reflexivity|]. simpl. rewrite IHws. unfold keys_of. simpl.
  rewrite <- app_assoc. auto.
Qed.

Lemma sorted_keys : forall ws, StronglySorted wle ws -> StronglySorted Z.le (keys_of ws).
Proof.
  unfold keys_of. induction 1; simpl; constructor; auto. apply Forall_map. eapply Forall_impl; [|exact H0].
  intros b Hb. apply wle_key in Hb. exact Hb.
Qed.

Lemma mask_keys : forall ws, keys_of (map mask3 ws) = keys_of ws.
Proof. intros. unfold keys_of. rewrite map_map. auto. Qed.

(** m_min_key and m_max_key after some records. *)
Definition lowest (ks : list Z) (m : Z) : Z := fold_left (fun m k => if (k <? m)%Z then k else m) ks m.
Definition highest (ks : list Z) (m : Z) : Z := fold_left (fun m k => if (m <? k)%Z then k else m) ks m.

Lemma lowest_ok : forall ks m, (lowest ks m <= m)%Z /\ Forall (fun k => lowest ks m <= k)%Z ks /\
  (lowest ks m = m \/ In (lowest ks m) ks).
Proof.
  unfold lowest. induction ks; intros m; simpl; [split; [lia|split; auto]|].
  destruct (IHks (if (a <? m)%Z then a else m)) as (H1 & H2 & H3).
  assert (Q : ((if (a <? m)%Z then a else m) <= a /\ (if (a <? m)%Z then a else m) <= m)%Z)
    by (destruct (Z.ltb_spec a m); lia).
  split; [lia|]. split; [constructor; auto; lia|].
  destruct H3 as [H3|H3]; auto. rewrite H3. destruct (a <? m)%Z; auto.
Qed.
Lemma highest_ok : forall ks m, (m <= highest ks m)%Z /\ Forall (fun k => k <= highest ks m)%Z ks /\
  (highest ks m = m \/ In (highest ks m) ks).
Proof.
  unfold highest. induction ks; intros m; simpl; [split; [lia|split; auto]|].
  destruct (IHks (if (m <? a)%Z then a else m)) as (H1 & H2 & H3).
  assert (Q : (a <= (if (m <? a)%Z then a else m) /\ m <= (if (m <? a)%Z then a else m))%Z)
    by (destruct (Z.ltb_spec m a); lia).
  split; [lia|]. split; [constructor; auto; lia|].
  destruct H3 as [H3|H3]; auto. rewrite H3. destruct (m <? a)%Z; auto.
Qed.

Lemma ts_notes : forall ws mn mx ks a b,
  StronglySorted Z.le (keys_of ws) -> Forall (fun k => mn <= k <= mx)%Z (keys_of ws) ->
  (forall p, hd_error ks = Some p -> Forall (fun k => p <= k)%Z (keys_of ws)) ->
  note_all ts_note ws (TB mn mx ks, (a, b)) =
  Ok (TB mn mx (rev (keys_of ws) ++ ks), (lowest (keys_of ws) a, highest (keys_of ws) b)).
Proof.
  induction ws; intros mn mx ks x y S F P; [reflexivity|]. cbn [keys_of map] in S, F, P.
  inv S. inv F. cbn [note_all]. unfold ts_note at 1. unfold add_key. cbn [tb_min tb_max tb_keys].
  assert (G : ((mn <=? wkey a) && (wkey a <=? mx) && match ks with [] => true | p :: _ => p <=? wkey a end)%Z = true).
  { rewrite !andb_true_iff. split; [lia|]. destruct ks as [|p ks]; auto.
    specialize (P p eq_refl). inv P. lia. }
  rewrite G. cbn [bind]. rewrite IHws; auto.
  - cbn [keys_of map rev]. rewrite <- app_assoc. reflexivity.
  - intros p Hp. simpl in Hp. inv Hp. auto.
Qed.

(** Bounds from outside become exact. *)
Lemma bounds_exact : forall ks mn mx, ks <> [] -> Forall (fun k => mn <= k <= mx)%Z ks ->
  In (lowest ks mx) ks /\ In (highest ks mn) ks /\ Forall (fun k => lowest ks mx <= k <= highest ks mn)%Z ks.
Proof.
  intros ks mn mx NE F.
  destruct (lowest_ok ks mx) as (A1 & A2 & A3). destruct (highest_ok ks mn) as (B1 & B2 & B3).
  assert (exists k, In k ks) as [k Hk] by (destruct ks; [congruence|eexists; left; reflexivity]).
  rewrite Forall_forall in F, A2, B2. pose proof (F k Hk). pose proof (A2 k Hk). pose proof (B2 k Hk).
  repeat split.
  - destruct A3 as [A3|A3]; auto. replace (lowest ks mx) with k by lia. auto.
  - destruct B3 as [B3|B3]; auto. replace (highest ks mn) with k by lia. auto.
  - apply Forall_forall. intros z Hz. split; auto.
Qed.

Lemma strongly : forall ks, StronglySorted Z.le ks -> Sorted Z.le ks.
Proof. intros. apply StronglySorted_Sorted. auto. Qed.

Lemma sorted_head : forall l w, hd_error l = Some w -> StronglySorted wle l ->
  Forall (fun k => wkey w <= k)%Z (keys_of l).
Proof.
  intros l w H S. destruct l; inv H. apply sorted_keys in S. simpl in *. inv S. constructor; auto. lia.
Qed.
Lemma sorted_last : forall l w, nth_error l (length l - 1) = Some w -> StronglySorted wle l ->
  Forall (fun k => k <= wkey w)%Z (keys_of l).
Proof.
  intros l w H S. apply Forall_map. apply Forall_forall. intros z Hz. apply In_nth_error in Hz as [i Hi].
  pose proof (proj1 (nth_error_Some l i) ltac:(congruence)) as LI.
  assert (D : wle z w).
  { clear KL KO. revert i w z H Hi LI. induction S; intros i w z H1 H2 LI; [simpl in LI; lia|].
    destruct l as [|y l].
    - simpl in *. destruct i; [|destruct i; discriminate]. congruence || (inv H1; inv H2; apply wle_refl).
    - replace (length (a :: y :: l) - 1) with (Datatypes.S (length (y :: l) - 1)) in H1 by (simpl; lia). simpl nth_error in H1.
      destruct i.
      + inv H2. rewrite Forall_forall in H. apply H. eapply nth_error_In; eauto.
      + simpl in H2. eapply IHS; eauto. simpl in *. lia. }
  apply wle_key in D. exact D.
Qed.

Lemma sam_data : forall l, m_data (finish (fold_left (fun x w => sam_act w x) l (MArr [] 0 0))) = filter keep l /\
  m_rec (finish (fold_left (fun x w => sam_act w x) l (MArr [] 0 0))) = length (filter keep l).
Proof.
  intros l. destruct (sam_fold l (MArr [] 0 0)) as (H1 & H2 & _). unfold finish. cbn [m_data m_rec] in *.
  rewrite app_nil_r in H1. rewrite H1, H2, rev_involutive, countb_filter, Nat.add_0_r. auto.
Qed.

(** ** PGM *)

Lemma pgm_ok : forall m ks d, m_data m = d -> m_rec m = length d -> ks = rev (keys_of d) ->
  StronglySorted wle d -> pgm_handed (pgm_done m ks).
Proof.
  intros m ks d <- L -> S. unfold pgm_handed, pgm_done. simpl. split; [apply strongly, sorted_keys; auto|].
  rewrite L, rev_involutive. destruct (m_data m); auto.
Qed.

Theorem pgm_view : forall d v l, v_copy d v = Ok l ->
  exists p, pgm_from_view d v = Ok p /\ shard_from_view d v = Ok (fst p) /\ pgm_handed p.
Proof.
  intros d v l E. unfold pgm_from_view, shard_from_view, sorted_array_from_view. rewrite E. cbn [bind].
  destruct (scan_run pgm_note (S (length (wsort l))) (wsort l) (MArr [] 0 0) [] (Nat.lt_succ_diag_r _))
    as (evs & CR & E1 & E2).
  rewrite E1, E2, pgm_notes. cbn [bind]. rewrite app_nil_r.
  eexists. split; [reflexivity|]. split; [reflexivity|].
  destruct (sam_data (map mask3 (emits evs))) as [D1 D2].
  eapply pgm_ok; [exact D1|exact D2| |].
  - rewrite filter_map_mask3, mask_keys. auto.
  - rewrite filter_map_mask3. apply map_mask3_sorted, filter_keep_sorted. eapply crun_sorted; eauto.
    apply sorted_wnlt_wle, wsort_sorted.
Qed.

Lemma pgm_merge_eq : forall ss,
  match shard_from_shards qlt ss with
  | Ok s => exists ks, pgm_from_shards qlt ss = Ok (s, if 0 <? s_reccnt s then Some (rev ks) else None) /\
      ks = rev (keys_of (s_data s))
  | Fail f => pgm_from_shards qlt ss = Fail f
  end.
Proof.
  intros ss. unfold shard_from_shards, pgm_from_shards, sorted_array_merge. rewrite build_cursor_vec_eq.
  destruct (init_pushes 0 (map s_data ss)) as [q|f]; cbn [bind]; auto.
  pose proof (merge_same qlt pgm_note (map s_data ss) q []) as M.
  destruct (merge_loop qlt sam_act _ _ q (MArr [] 0 0)) as [o|f]; cbn [bind] in *.
  2:{ rewrite M. auto. }
  destruct M as (l & -> & M). rewrite M, pgm_notes. cbn [bind]. rewrite app_nil_r.
  destruct (sam_data l) as [D1 D2].
  destruct (_ <=? _); [|auto]. cbn [bind].
  eexists. split; [reflexivity|]. cbn [s_data]. rewrite D1. auto.
Qed.

Theorem pgm_merge : forall ss s, shard_from_shards qlt ss = Ok s -> Forall shard_ok ss ->
  exists p, pgm_from_shards qlt ss = Ok p /\ fst p = s /\ pgm_handed p.
Proof.
  intros ss s H F. pose proof (pgm_merge_eq ss) as K. rewrite H in K. destruct K as (ks & E & ->).
  eexists. split; [exact E|]. split; auto.
  destruct (sfs_shard_ok qlt _ _ H F) as (L & _ & S). unfold pgm_handed. simpl.
  split; [apply strongly, sorted_keys; auto|]. rewrite L, rev_involutive. destruct (s_data s); auto.
Qed.

(** ** TrieSpline *)

Lemma wsort_len : forall l, length (wsort l) = length l.
Proof. intros. symmetry. apply Permutation_length, wsort_perm. Qed.

Theorem ts_view : forall d v, vok d v -> 0 < v_count v ->
  exists t b s, ts_from_view d v = Ok (t, b) /\ shard_from_view d v = Ok s /\ sp_shard t = s /\
    handed b (s_data s) /\ exact_bounds t.
Proof.
  intros d v V P. unfold ts_from_view, shard_from_view, sorted_array_from_view.
  rewrite v_copy_ok by auto. cbn [bind]. set (l := wsort (ring d (v_head v) (v_count v))).
  assert (LL : length l = v_count v) by (unfold l; rewrite wsort_len, ring_length; auto).
  assert (SS : StronglySorted wle l) by (apply sorted_wnlt_wle, wsort_sorted).
  unfold nth_res.
  destruct (nth_error l 0) as [f|] eqn:EF; [|apply nth_error_None in EF; lia].
  destruct (nth_error l (v_count v - 1)) as [z|] eqn:EZ; [|apply nth_error_None in EZ; lia].
  cbn [bind]. rewrite <- LL in EZ.
  destruct (scan_run ts_note (S (length l)) l (MArr [] 0 0) (TB (wkey f) (wkey z) [], (wkey z, wkey f))
    (Nat.lt_succ_diag_r _)) as (evs & CR & E1 & E2).
  rewrite E1, E2. clear E1 E2. cbn [bind].
  set (ws := filter keep (emits evs)).
  assert (SW : StronglySorted wle ws).
  { apply filter_keep_sorted. eapply crun_sorted; eauto. }
  assert (IN : forall w, In w ws -> In w l).
  { intros w Hw. unfold ws in Hw. apply filter_In in Hw as [Hw _].
    eapply Permutation_in; [apply Permutation_sym; eapply crun_perm; eauto|]. apply in_app_iff; auto. }
  assert (RG : Forall (fun k => wkey f <= k <= wkey z)%Z (keys_of ws)).
  { apply Forall_map. apply Forall_forall. intros w Hw. apply IN in Hw.
    assert (H1 := sorted_head l f ltac:(destruct l; [discriminate|exact EF]) SS).
    assert (H2 := sorted_last l z EZ SS).
    unfold keys_of in H1, H2. rewrite Forall_map, Forall_forall in H1, H2. auto. }
  rewrite ts_notes; [|apply sorted_keys; auto|auto|discriminate].
  cbn [bind]. rewrite app_nil_r.
  destruct (sam_data (map mask3 (emits evs))) as [D1 D2]. rewrite filter_map_mask3 in D1.
  do 3 eexists. split; [reflexivity|]. split; [reflexivity|]. split; [reflexivity|]. cbn [s_data]. rewrite D1. fold ws.
  split.
  - unfold handed. cbn [tb_keys tb_min tb_max]. rewrite rev_involutive, mask_keys.
    split; auto. split; auto. apply strongly, sorted_keys. auto.
  - unfold exact_bounds. cbn [sp_shard shard_of_arr s_data sp_min sp_max]. rewrite D1. fold ws. rewrite mask_keys.
    intro NE. apply bounds_exact; auto.
Qed.

Lemma ts_view_refines : forall d v t b, ts_from_view d v = Ok (t, b) -> shard_from_view d v = Ok (sp_shard t).
Proof.
  intros d v t b H. unfold ts_from_view in H. mon H. unfold shard_from_view, sorted_array_from_view. rewrite E. cbn [bind].
  destruct (nth_res 0 (wsort a)) as [f|]; cbn [bind] in H; [|discriminate].
  destruct (nth_res (v_count v - 1) (wsort a)) as [z|]; cbn [bind] in H; [|discriminate].
  destruct (scan_run ts_note (S (length (wsort a))) (wsort a) (MArr [] 0 0) (TB (wkey f) (wkey z) [], (wkey z, wkey f))
    (Nat.lt_succ_diag_r _)) as (evs & CR & E1 & E2).
  rewrite E1. rewrite E2 in H. destruct (note_all ts_note _ _) as [[b' [mn mx]]|]; cbn [bind] in H; [|discriminate].
  inv H. reflexivity.
Qed.

Lemma max_of_ok : forall (ts : list (spline R)) m, (m <= max_of ts m)%Z /\ Forall (fun t => sp_max t <= max_of ts m)%Z ts.
Proof.
  unfold max_of. induction ts; intros m; simpl; [split; auto; lia|].
  destruct (IHts (if (m <? sp_max a)%Z then sp_max a else m)) as [A B].
  destruct (Z.ltb_spec m (sp_max a)); split; try lia; constructor; auto; lia.
Qed.
Lemma min_of_ok : forall (ts : list (spline R)) m, (min_of ts m <= m)%Z /\ Forall (fun t => min_of ts m <= sp_min t)%Z ts.
Proof.
  unfold min_of. induction ts; intros m; simpl; [split; auto; lia|].
  destruct (IHts (if (sp_min a <? m)%Z then sp_min a else m)) as [A B].
  destruct (Z.ltb_spec (sp_min a) m); split; try lia; constructor; auto; lia.
Qed.

Theorem ts_merge : forall (ts : list (spline R)) s, ts <> [] -> Forall exact_bounds ts -> Forall shard_ok (map sp_shard ts) ->
  shard_from_shards qlt (map sp_shard ts) = Ok s ->
  exists t b, ts_from_shards qlt ts = Ok (t, b) /\ sp_shard t = s /\ handed b (s_data s) /\ exact_bounds t.
Proof.
  intros ts s NE XB OKS H.
  pose proof (sfs_shard_ok qlt _ _ H OKS) as (_ & _ & SS).
  pose proof (sfs_ok qlt _ _ H) as (NES & evs0 & M0 & D0 & _).
  unfold shard_from_shards, ts_from_shards, sorted_array_merge in *. rewrite build_cursor_vec_eq in *.
  destruct (init_pushes 0 (map s_data (map sp_shard ts))) as [q|]; cbn [bind] in *; [|discriminate].
  destruct (nth_error ts 0) as [t0|] eqn:ET0; [|destruct ts; [congruence|discriminate]].
  unfold nth_res at 1. rewrite ET0. cbn [bind].
  set (mx := max_of ts (sp_max t0)). set (mn := min_of ts (sp_min t0)).
  pose proof (merge_same qlt ts_note (map s_data (map sp_shard ts)) q (TB mn mx [], (mx, mn))) as M.
  destruct (merge_loop qlt sam_act _ _ q (MArr [] 0 0)) as [o|f]; cbn [bind] in *; [|discriminate].
  destruct M as (l & -> & M). rewrite M.
  destruct (sam_data l) as [D1 D2]. destruct (_ <=? _) eqn:CAP in H; [|discriminate]. inv H. cbn [s_data] in *.
  assert (SS' : StronglySorted wle (filter keep l)) by (rewrite <- D1; exact SS).
  assert (D0' : filter keep l = filter keep (emits evs0)) by (rewrite <- D1; exact D0).
  clear SS D0. rename SS' into SS, D0' into D0.
  assert (RG : Forall (fun k => mn <= k <= mx)%Z (keys_of (filter keep l))).
  { apply Forall_map. apply Forall_forall. intros w Hw. rewrite D0 in Hw. apply filter_In in Hw as [Hw _].
    apply (mrun_emits_in qlt _ _ _ M0) in Hw. rewrite map_map in Hw. apply in_concat in Hw as (c & Hc & Hw).
    apply in_map_iff in Hc as (t & <- & Ht).
    rewrite Forall_forall in XB. specialize (XB t Ht). unfold exact_bounds in XB.
    destruct XB as (_ & _ & XB).
    { intro Z. apply map_eq_nil in Z. rewrite Z in Hw. destruct Hw. }
    unfold keys_of in XB. rewrite Forall_map, Forall_forall in XB. specialize (XB w Hw). unfold wkey in *.
    destruct (max_of_ok ts (sp_max t0)) as [_ A]. destruct (min_of_ok ts (sp_min t0)) as [_ B].
    rewrite Forall_forall in A, B. specialize (A t Ht). specialize (B t Ht). fold mx in A. fold mn in B. lia. }
  rewrite ts_notes; [|apply sorted_keys; auto|auto|discriminate].
  cbn [bind]. rewrite CAP. rewrite app_nil_r.
  do 2 eexists. split; [reflexivity|]. split; [reflexivity|]. split.
  - change (handed (TB mn mx (rev (keys_of (filter keep l))))
      (m_data (finish (fold_left (fun x w => sam_act w x) l (MArr [] 0 0))))). rewrite D1.
    unfold handed. cbn [tb_keys tb_min tb_max]. rewrite rev_involutive.
    split; auto. split; auto. apply strongly, sorted_keys. auto.
  - unfold exact_bounds. cbn [sp_shard shard_of_arr s_data sp_min sp_max]. rewrite D1. intro N. apply bounds_exact; auto.
Qed.

Lemma ts_merge_refines : forall (ts : list (spline R)) t b, ts_from_shards qlt ts = Ok (t, b) ->
  shard_from_shards qlt (map sp_shard ts) = Ok (sp_shard t).
Proof.
  intros ts t b H. unfold shard_from_shards, ts_from_shards, sorted_array_merge in *. rewrite build_cursor_vec_eq in *.
  destruct (init_pushes 0 (map s_data (map sp_shard ts))) as [q|]; cbn [bind] in *; [|discriminate].
  destruct (nth_res 0 ts) as [t0|]; cbn [bind] in *; [|discriminate].
  set (x := (TB _ _ [], _)) in H.
  pose proof (merge_same qlt ts_note (map s_data (map sp_shard ts)) q x) as M.
  destruct (merge_loop qlt sam_act _ _ q (MArr [] 0 0)) as [o|f]; cbn [bind] in *.
  2:{ rewrite M in H. discriminate. }
  destruct M as (l & -> & M). rewrite M in H.
  destruct (note_all ts_note _ _) as [[b' [mn' mx']]|]; cbn [bind] in H; [|discriminate].
  destruct (_ <=? _); [|discriminate]. inv H. reflexivity.
Qed.

(** What the shards of an index remember is what the constructors left. *)
Lemma exact_of : forall t : spline R, StronglySorted wle (s_data (sp_shard t)) -> s_data (sp_shard t) <> [] ->
  exact_bounds t -> t = sp_of (sp_shard t).
Proof.
  intros [s mn mx] S NE X. unfold exact_bounds in X. cbn [sp_shard sp_min sp_max] in *.
  destruct X as (X1 & X2 & X3); [intro Q; apply map_eq_nil in Q; auto|].
  unfold sp_of. apply sorted_keys in S. f_equal.
  - destruct (s_data s) as [|w l]; [congruence|]. simpl in *. inv S. inv X3.
    destruct X1 as [X1|X1]; auto. rewrite Forall_forall in H2. specialize (H2 _ X1). lia.
  - destruct (rev (s_data s)) as [|w l] eqn:ER.
    { apply (f_equal (@rev _)) in ER. rewrite rev_involutive in ER. simpl in ER. congruence. }
    assert (EQ : s_data s = rev l ++ [w]).
    { rewrite <- (rev_involutive (s_data s)), ER. auto. }
    rewrite EQ in *. unfold keys_of in *. rewrite map_app in *. simpl in *.
    rewrite Forall_app in X3. destruct X3 as [_ X3]. inv X3.
    apply in_app_iff in X2 as [X2|[X2|[]]]; auto.
    assert (L : (mx <= wkey w)%Z); [|lia].
    clear -S X2. revert X2. induction (map wkey (rev l)) as [|k ks]; simpl; [tauto|].
    simpl in S. inv S. intros [->|X]; auto. rewrite Forall_forall in H2. apply H2. apply in_app_iff. simpl. auto.
Qed.
Lemma of_exact : forall s : shard R, StronglySorted wle (s_data s) -> exact_bounds (sp_of s).
Proof.
  intros s S NE. unfold sp_of in *. cbn [sp_shard sp_min sp_max] in *.
  assert (ND : s_data s <> []) by (intro Q; rewrite Q in NE; apply NE; reflexivity). clear NE.
  assert (H1 : forall w, hd_error (s_data s) = Some w -> Forall (fun k => wkey w <= k)%Z (keys_of (s_data s)))
    by (intros; apply sorted_head; auto).
  assert (H2 : forall w, nth_error (s_data s) (length (s_data s) - 1) = Some w ->
    Forall (fun k => k <= wkey w)%Z (keys_of (s_data s))) by (intros; apply sorted_last; auto).
  destruct (rev (s_data s)) as [|z l] eqn:ER.
  { apply (f_equal (@rev _)) in ER. rewrite rev_involutive in ER. simpl in ER. congruence. }
  assert (EQ : s_data s = rev l ++ [z]) by (rewrite <- (rev_involutive (s_data s)), ER; auto).
  assert (HZ : nth_error (s_data s) (length (s_data s) - 1) = Some z).
  { rewrite EQ, app_length. simpl. rewrite nth_error_app2 by lia.
    replace (length (rev l) + 1 - 1 - length (rev l)) with 0 by lia. auto. }
  apply H2 in HZ.
  destruct (s_data s) as [|w l'] eqn:ED; [congruence|]. specialize (H1 w eq_refl).
  split; [left; auto|]. split.
  - unfold keys_of. rewrite EQ, map_app. apply in_app_iff. right. left. auto.
  - rewrite Forall_forall in *. intros k Hk. split; auto.
Qed.
End Keys.

(** Tagged deletes: which record is tagged, in the buffer and in the levels. *)
From Coq Require Import List Arith ZArith NArith Lia Bool Permutation Sorted.
From Verif Require Import Base ListLemmas RecordModel RecordProofs BufferModel BufferProofs
  MergeModel MergeProofs StructModel StructProofs.
Import ListNotations.

Section TP.
Context {R : Type} {RO : RecOps R} {RL : RecLaws R}.

Local Arguments set_nth : simpl never.

(** [w], at index [i], is the first record of [l] equal to [r]. *)
Definition first_match (r : R) (l : list (wrapped R)) (i : nat) (w : wrapped R) : Prop :=
  nth_error l i = Some w /\ req (wrec w) r = true /\
  (forall k w', k < i -> nth_error l k = Some w' -> req (wrec w') r = false).

Definition no_match (r : R) (l : list (wrapped R)) : Prop :=
  forall w, In w l -> req (wrec w) r = false.

Lemma first_match_in : forall r l i w, first_match r l i w -> In w l.
Proof. intros r l i w (H & _). eapply nth_error_In; eauto. Qed.

Lemma match_dec : forall r l, (exists i w, first_match r l i w) \/ no_match r l.
Proof.
  induction l as [|a l IH].
  - right. intros w [].
  - destruct (req (wrec a) r) eqn:E.
    + left. exists 0, a. split; [auto|]. split; [auto|]. intros. lia.
    + destruct IH as [(i & w & H1 & H2 & H3)|H].
      * left. exists (S i), w. split; [auto|]. split; [auto|]. intros [|k] w' L N.
        -- inv N. auto.
        -- eapply H3; [|exact N]. lia.
      * right. intros w [<-|Hw]; auto.
Qed.

Lemma find_rec_spec : forall r l i,
  match find_rec r l i with
  | Some j => exists k w, j = i + k /\ first_match r l k w
  | None => no_match r l
  end.
Proof.
  induction l as [|a l IH]; intros i; simpl.
  - intros w [].
  - destruct (req (wrec a) r) eqn:E.
    + exists 0, a. split; [lia|]. split; [auto|]. split; [auto|]. intros. lia.
    + specialize (IH (S i)). destruct (find_rec r l (S i)).
      * destruct IH as (k & w & -> & H1 & H2 & H3). exists (S k), w. split; [lia|].
        split; [auto|]. split; [auto|]. intros [|k'] w' L N.
        -- inv N. auto.
        -- eapply H3; [|exact N]. lia.
      * intros w [<-|Hw]; auto.
Qed.

(** ** The buffer *)

Lemma scan_spec : forall n d r s, s + n <= length d ->
  match scan_slots d r s n with
  | Some j => exists k w, k < n /\ j = s + k /\ nth_error d j = Some w /\ req (wrec w) r = true /\
      (forall k' w', k' < k -> nth_error d (s + k') = Some w' -> req (wrec w') r = false)
  | None => forall k w, k < n -> nth_error d (s + k) = Some w -> req (wrec w) r = false
  end.
Proof.
  induction n; intros d r s L; simpl.
  - intros. lia.
  - destruct (nth_error d s) as [a|] eqn:Ea.
    2:{ apply nth_error_None in Ea. lia. }
    destruct (req (wrec a) r) eqn:E.
    + exists 0, a. rewrite Nat.add_0_r. repeat (split; [solve [auto; lia]|]). intros. lia.
    + specialize (IHn d r (S s) ltac:(lia)). destruct (scan_slots d r (S s) n).
      * destruct IHn as (k & w & K1 & -> & K2 & K3 & K4). exists (S k), w.
        rewrite <- plus_n_Sm. repeat (split; [solve [auto; lia]|]).
        intros [|k'] w' L' N; [rewrite Nat.add_0_r in N; congruence|].
        rewrite <- plus_n_Sm in N. eapply K4; [|exact N]. lia.
      * intros [|k] w L' N; [rewrite Nat.add_0_r in N; congruence|].
        rewrite <- plus_n_Sm in N. eapply IHn; [|exact N]. lia.
Qed.

Lemma ring_nth_err : forall d h n i, 0 < length d -> i < n ->
  nth_error (ring d h n) i = nth_error d ((h + i) mod length d).
Proof.
  intros. rewrite nth_error_ring by auto. symmetry. apply nth_error_nth_some.
  apply Nat.mod_upper_bound. lia.
Qed.

Lemma ring_set : forall d h n i w, n < length d -> i < n ->
  ring (set_nth ((h + i) mod length d) w d) h n = set_nth i w (ring d h n).
Proof.
  intros d h n i w L I. assert (0 < length d) by lia. apply nth_error_ext.
  - rewrite set_nth_length, !ring_length. auto.
  - rewrite ring_length. intros j Hj. rewrite ring_nth_err by (rewrite ?set_nth_length; auto).
    rewrite set_nth_length.
    assert (B : forall x, x mod length d < length d) by (intro; apply Nat.mod_upper_bound; lia).
    destruct (Nat.eq_dec i j).
    + subst. rewrite !nth_error_set_nth_eq; rewrite ?ring_length; auto.
    + rewrite !nth_error_set_nth_neq; auto.
      * rewrite ring_nth_err; auto.
      * rewrite !mod_window by lia. pose proof (B h).
        destruct (Nat.leb_spec (length d) (h mod length d + i)),
                 (Nat.leb_spec (length d) (h mod length d + j)); lia.
Qed.

(** Scanning a non-empty view tags its first matching record, in append order. *)
Lemma v_delete_spec : forall d v r, vok d v -> v_head v < v_tail v ->
  let l := ring d (v_head v) (v_count v) in
  (exists i w, first_match r l i w /\
     v_delete_record d v r = (set_nth ((v_head v + i) mod length d) (set_delete w) d, true)) \/
  (no_match r l /\ v_delete_record d v r = (d, false)).
Proof.
  intros d v r (Hc & Hh & Hn) NE. unfold v_delete_record, v_start, v_stop.
  unfold v_count in *. set (h := v_head v) in *. set (n := v_tail v - h) in *.
  replace (v_tail v) with (h + n) by lia. rewrite Hc in *.
  assert (P : 0 < length d) by lia.
  assert (B : h mod length d < length d) by (apply Nat.mod_upper_bound; lia).
  assert (K : forall i, i < n -> nth_error (ring d h n) i = nth_error d
     (if length d <=? h mod length d + i then h mod length d + i - length d else h mod length d + i)).
  { intros. rewrite ring_nth_err, mod_window by lia. auto. }
  assert (M : forall i, i < n -> (h + i) mod length d =
     if length d <=? h mod length d + i then h mod length d + i - length d else h mod length d + i).
  { intros. apply mod_window; lia. }
  assert (NL : forall i w, nth_error (ring d h n) i = Some w -> i < n).
  { intros i w Hi. apply nth_some_lt in Hi. rewrite ring_length in Hi. auto. }
  rewrite (mod_window (length d) h n) by lia.
  set (s := h mod length d) in *. cbv zeta.
  destruct (Nat.leb_spec (length d) (s + n)).
  - destruct (Nat.ltb_spec s (s + n - length d)); [lia|].
    pose proof (scan_spec (length d - s) d r s ltac:(lia)) as S1.
    destruct (scan_slots d r s (length d - s)) as [j|].
    + destruct S1 as (k & w & K1 & -> & K2 & K3 & K4). left. exists k, w.
      assert (k < n) by lia. split.
      * split; [|split; [auto|]].
        -- rewrite K by lia. destruct (Nat.leb_spec (length d) (s + k)); [lia|auto].
        -- intros k' w' L' N. rewrite K in N by lia.
           destruct (Nat.leb_spec (length d) (s + k')); [lia|]. eauto.
      * rewrite K2, M by lia. destruct (Nat.leb_spec (length d) (s + k)); [lia|auto].
    + pose proof (scan_spec (s + n - length d) d r 0 ltac:(lia)) as S2.
      destruct (scan_slots d r 0 (s + n - length d)) as [j|].
      * destruct S2 as (k & w & K1 & -> & K2 & K3 & K4). left. exists (length d - s + k), w.
        simpl in *. split.
        -- split; [|split; [auto|]].
           ++ rewrite K by lia. destruct (Nat.leb_spec (length d) (s + (length d - s + k))); [|lia].
              rewrite <- K2. f_equal. lia.
           ++ intros k' w' L' N. rewrite K in N by lia.
              destruct (Nat.leb_spec (length d) (s + k')).
              ** eapply (K4 (s + k' - length d)); [lia|exact N].
              ** eapply (S1 k'); [lia|exact N].
        -- rewrite K2, M by lia.
           destruct (Nat.leb_spec (length d) (s + (length d - s + k))); [|lia].
           do 2 f_equal. lia.
      * right. split; auto. intros w Hw. apply In_nth_error in Hw as (k & Hk).
        pose proof (NL _ _ Hk). rewrite K in Hk by auto.
        destruct (Nat.leb_spec (length d) (s + k)).
        -- eapply (S2 (s + k - length d)); [lia|exact Hk].
        -- eapply (S1 k); [lia|exact Hk].
  - destruct (Nat.ltb_spec s (s + n)); [|lia].
    replace (s + n - s) with n by lia.
    pose proof (scan_spec n d r s ltac:(lia)) as S1.
    destruct (scan_slots d r s n) as [j|].
    + destruct S1 as (k & w & K1 & -> & K2 & K3 & K4). left. exists k, w. split.
      * split; [|split; [auto|]].
        -- rewrite K by lia. destruct (Nat.leb_spec (length d) (s + k)); [lia|auto].
        -- intros k' w' L' N. rewrite K in N by lia.
           destruct (Nat.leb_spec (length d) (s + k')); [lia|]. eauto.
      * rewrite K2, M by lia. destruct (Nat.leb_spec (length d) (s + k)); [lia|auto].
    + right. split; auto. intros w Hw. apply In_nth_error in Hw as (k & Hk).
      pose proof (NL _ _ Hk). rewrite K in Hk by auto.
      destruct (Nat.leb_spec (length d) (s + k)); [lia|]. eapply (S1 k); [lia|exact Hk].
Qed.

(** ** The levels *)

(** [s] with its record [i] tagged. *)
Definition tagged_at (s : shard R) (i : nat) (w : wrapped R) : shard R :=
  Shard (set_nth i (set_delete w) (s_data s)) (s_reccnt s) (s_tscnt s).

Lemma shard_tag_spec : forall r s,
  match shard_tag r s with
  | Some s' => exists i w, first_match r (s_data s) i w /\ s' = tagged_at s i w
  | None => no_match r (s_data s)
  end.
Proof.
  intros r s. unfold shard_tag. pose proof (find_rec_spec r (s_data s) 0) as F.
  destruct (find_rec r (s_data s) 0); auto.
  destruct F as (k & w & -> & F). simpl. destruct F as (F1 & F2). rewrite F1.
  exists k, w. split; auto. split; auto.
Qed.

Lemma shards_tag_spec : forall r ss,
  match shards_tag r ss with
  | Some ss' => exists a s b i w, ss = a ++ s :: b /\ first_match r (s_data s) i w /\
      ss' = a ++ tagged_at s i w :: b /\ Forall (fun x => no_match r (s_data x)) a
  | None => Forall (fun x => no_match r (s_data x)) ss
  end.
Proof.
  induction ss as [|s ss IH]; simpl; auto.
  pose proof (shard_tag_spec r s) as P. destruct (shard_tag r s).
  - destruct P as (i & w & P & ->). exists [], s, ss, i, w. auto.
  - destruct (shards_tag r ss).
    + destruct IH as (a & s' & b & i & w & -> & H1 & -> & H2).
      exists (s :: a), s', b, i, w. auto.
    + auto.
Qed.

Definition retag (l : level R) (ss : list (shard R)) : level R :=
  Level (lv_no l) (lv_cap l) ss (lv_pending l).

Lemma tagged_delete_spec : forall r (st : structure R),
  match tagged_delete r st with
  | Some st' => exists la l lb a s b i w,
      st_levels st = la ++ l :: lb /\ lv_shards l = a ++ s :: b /\
      first_match r (s_data s) i w /\
      st' = Struct (la ++ retag l (a ++ tagged_at s i w :: b) :: lb) (st_state st)
  | None => Forall (fun l => Forall (fun x => no_match r (s_data x)) (lv_shards l)) (st_levels st)
  end.
Proof.
  intros r [ls state]. unfold tagged_delete. simpl.
  assert (K : match levels_tag r ls with
  | Some ls' => exists la l lb a s b i w,
      ls = la ++ l :: lb /\ lv_shards l = a ++ s :: b /\
      first_match r (s_data s) i w /\ ls' = la ++ retag l (a ++ tagged_at s i w :: b) :: lb
  | None => Forall (fun l => Forall (fun x => no_match r (s_data x)) (lv_shards l)) ls
  end).
  { induction ls as [|l ls IH]; simpl; auto. unfold lv_delete_record.
    pose proof (shards_tag_spec r (lv_shards l)) as P. destruct (shards_tag r (lv_shards l)).
    - destruct P as (a & s & b & i & w & P1 & P2 & -> & _). exists [], l, ls, a, s, b, i, w.
      unfold retag. auto.
    - destruct (levels_tag r ls).
      + destruct IH as (la & l' & lb & a & s & b & i & w & -> & H1 & H2 & ->).
        exists (l :: la), l', lb, a, s, b, i, w. auto.
      + auto. }
  destruct (levels_tag r ls); auto.
  destruct K as (la & l' & lb & a & s & b & i & w & -> & H1 & H2 & ->).
  exists la, l', lb, a, s, b, i, w. auto.
Qed.

(** Tagging changes no counter and no order. *)
Lemma set_delete_wrec : forall w : wrapped R, wrec (set_delete w) = wrec w.
Proof. destruct w; auto. Qed.

Lemma is_ts_set_delete : forall w : wrapped R, is_ts (set_delete w) = is_ts w.
Proof.
  intros [h r]. unfold is_ts, set_delete, h_set_delete. simpl.
  rewrite !h_is_tombstone_bit, N.lor_spec. change (N.testbit 2 0) with false.
  apply orb_false_r.
Qed.

Lemma is_del_set_delete : forall w : wrapped R, is_del (set_delete w) = true.
Proof.
  intros [h r]. unfold is_del, set_delete, h_set_delete. simpl.
  rewrite !h_is_deleted_bit, N.lor_spec. change (N.testbit 2 1) with true.
  apply orb_true_r.
Qed.

Lemma tagged_at_ok : forall s i w, nth_error (s_data s) i = Some w -> shard_ok s ->
  shard_ok (tagged_at s i w).
Proof.
  intros s i w H (H1 & H2 & H3). unfold shard_ok, tagged_at. simpl.
  destruct (set_nth_split i (set_delete w) w (s_data s) H) as (a & b & E & _ & ->).
  rewrite E in *. split; [|split].
  - rewrite H1, !app_length. auto.
  - rewrite H2. unfold ts_count. rewrite !countb_app. simpl.
    replace (is_ts (set_delete w)) with (is_ts w); auto.
    symmetry; apply is_ts_set_delete.
  - apply StronglySorted_app_inv in H3 as (S1 & S2 & S3). inv S2.
    apply StronglySorted_app; auto.
    + constructor; auto.
    + intros x y Hx [<-|Hy]; [|apply S3; simpl; auto].
      unfold wle. rewrite set_delete_wrec. apply (S3 x w); simpl; auto.
Qed.

Variable C : cfg.

Lemma tagged_shape : forall r st st', tagged_delete r st = Some st' ->
  (shape C st -> shape C st') /\ (l0cap C st -> l0cap C st') /\
  (Forall shard_ok (age st) -> Forall shard_ok (age st')) /\
  (Forall nonempty (age st) -> Forall nonempty (age st')) /\
  map (fun l => map s_reccnt (lv_shards l)) (st_levels st') =
  map (fun l => map s_reccnt (lv_shards l)) (st_levels st).
Proof.
  intros r st st' H. pose proof (tagged_delete_spec r st) as P. rewrite H in P.
  destruct P as (la & l & lb & a & s & b & i & w & E1 & E2 & F & ->).
  destruct st as [ls state]. simpl in *. subst ls.
  split; [|split; [|split; [|split]]].
  - intros [L S]. split; simpl in *; [rewrite !app_length in *; simpl in *; auto|].
    intros j l' s' Hl Hs. destruct (Nat.eq_dec j (length la)).
    + subst j. rewrite nth_error_app2, Nat.sub_diag in Hl by lia. simpl in Hl. inv Hl.
      specialize (S (length la) l s'). rewrite nth_error_app2, Nat.sub_diag in S by lia.
      specialize (S eq_refl Hs). unfold lsok, lv_reccnt, lv_count, retag in *. simpl.
      rewrite E2 in S. rewrite !map_app, !app_length in *. simpl in *.
      destruct (c_layout C); auto. destruct S as (S1 & S2 & S3 & S4 & S5 & S6 & S7 & S8).
      repeat (split; auto). intros _. apply S8. destruct a; discriminate.
    + apply (S j); auto. rewrite <- Hl.
      destruct (Nat.lt_ge_cases j (length la)).
      * rewrite !nth_error_app1 by lia. auto.
      * rewrite !nth_error_app2 by lia. destruct (j - length la) eqn:EJ; [lia|auto].
  - intros L Q s' Hs. apply L; auto.
  - unfold age. simpl. rewrite !AGE_app, !AGE_cons. rewrite E2. simpl.
    rewrite !Forall_app. intros ((F1 & F2 & F3) & F4). inv F3.
    split; auto. split; auto. split; auto. constructor; auto.
    apply tagged_at_ok; auto. apply F.
  - unfold age. simpl. rewrite !AGE_app, !AGE_cons. rewrite E2. simpl.
    rewrite !Forall_app. intros ((F1 & F2 & F3) & F4). inv F3.
    split; auto. split; auto. split; auto. constructor; auto.
    unfold nonempty in *. simpl. intro Z. apply (f_equal (@length _)) in Z.
    rewrite set_nth_length in Z. destruct (s_data s); [congruence|discriminate].
  - simpl. rewrite !map_app. simpl. rewrite E2, !map_app. auto.
Qed.

End TP.

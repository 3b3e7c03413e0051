(** What a history stores: the appended records except matched pairs of a plain
    copy and a tombstone. *)
From Coq Require Import List Arith ZArith NArith Lia Bool Permutation Sorted.
From Verif Require Import Base ListLemmas RecordModel RecordProofs BufferModel BufferProofs
  MergeModel MergeProofs StructModel ExtModel StructProofs StructTotal SortedProofs ExtProofs.
Import ListNotations.

Section CP.
Context {R : Type} {RO : RecOps R} {RL : RecLaws R}.

(** Record and tombstone flag. *)
Definition rt (w : wrapped R) : R * bool := (wrec w, is_ts w).

Lemma append_rec_rec : forall (r : R) ts p, wrec (append_rec r ts p) = r.
Proof. auto. Qed.

Lemma land_lor_shift : forall h t k, (k < 3)%N ->
  N.testbit (N.lor h (w32 (N.shiftl t 3))) k = N.testbit h k.
Proof.
  intros. rewrite N.lor_spec. unfold w32. rewrite N.mod_pow2_bits_low by lia.
  rewrite N.shiftl_spec_low by auto. apply orb_false_r.
Qed.

Lemma append_rec_ts : forall (r : R) ts p, is_ts (append_rec r ts p) = ts.
Proof.
  intros. unfold is_ts, append_rec. simpl. rewrite h_is_tombstone_bit. unfold h_set_visible, h_set_timestamp.
  rewrite N.lor_spec. rewrite land_lor_shift by lia.
  destruct ts; auto.
Qed.

Lemma append_rec_del : forall (r : R) ts p, is_del (append_rec r ts p) = false.
Proof.
  intros. unfold is_del, append_rec. simpl. rewrite h_is_deleted_bit. unfold h_set_visible, h_set_timestamp.
  rewrite N.lor_spec. rewrite land_lor_shift by lia.
  destruct ts; auto.
Qed.

Lemma rt_append : forall r ts p, rt (append_rec r ts p) = (r, ts).
Proof. intros. unfold rt. rewrite append_rec_ts. auto. Qed.

Lemma rt_mask3 : forall w, rt (mask3 w) = rt w.
Proof. intros. unfold rt. rewrite mask3_ts. auto. Qed.

(** [l'] is [l] without the pairs [ps] of a plain copy and an equal tombstone. *)
Definition cancel_of (l l' : list (R * bool)) (ps : list (R * R)) : Prop :=
  Permutation l (l' ++ map (fun p => (fst p, false)) ps ++ map (fun p => (snd p, true)) ps) /\
  Forall (fun p => req (fst p) (snd p) = true) ps.

Lemma cancel_of_refl : forall l, cancel_of l l [].
Proof. intros. split; auto. simpl. rewrite app_nil_r. auto. Qed.

Lemma cancel_of_perm : forall l m l' ps, Permutation m l -> cancel_of l l' ps -> cancel_of m l' ps.
Proof. intros. destruct H0. split; auto. eapply Permutation_trans; eauto. Qed.

Lemma cancel_of_app : forall a b a' b' p q,
  cancel_of a a' p -> cancel_of b b' q -> cancel_of (a ++ b) (a' ++ b') (p ++ q).
Proof.
  intros a b a' b' p q [H1 H2] [H3 H4]. split; [|apply Forall_app; auto].
  rewrite H1, H3, !map_app.
  rewrite <- !app_assoc. apply Permutation_app_head.
  set (pf := map (fun p => (fst p, false)) p). set (pt := map (fun p => (snd p, true)) p).
  set (qf := map (fun p => (fst p, false)) q). set (qt := map (fun p => (snd p, true)) q).
  transitivity (b' ++ (pf ++ pt) ++ qf ++ qt).
  - rewrite !app_assoc. do 2 apply Permutation_app_tail.
    rewrite <- !app_assoc. rewrite (app_assoc pf pt b'). apply Permutation_app_comm.
  - apply Permutation_app_head. rewrite <- !app_assoc. apply Permutation_app_head.
    rewrite !app_assoc. apply Permutation_app_tail. apply Permutation_app_comm.
Qed.

Lemma cancel_of_trans : forall a b c p q,
  cancel_of a b p -> cancel_of b c q -> cancel_of a c (p ++ q).
Proof.
  intros a b c p q [H1 H2] [H3 H4]. split; [|apply Forall_app; auto].
  rewrite H1, H3, !map_app. rewrite <- !app_assoc. apply Permutation_app_head.
  set (pf := map (fun p => (fst p, false)) p). set (pt := map (fun p => (snd p, true)) p).
  set (qf := map (fun p => (fst p, false)) q). set (qt := map (fun p => (snd p, true)) q).
  transitivity (qf ++ pf ++ qt ++ pt).
  - apply Permutation_app_head. rewrite !app_assoc. apply Permutation_app_tail.
    apply Permutation_app_comm.
  - rewrite !app_assoc. transitivity ((pf ++ qf) ++ qt ++ pt).
    + rewrite <- (app_assoc (qf ++ pf)). apply Permutation_app_tail. apply Permutation_app_comm.
    + rewrite <- !app_assoc. do 2 apply Permutation_app_head. apply Permutation_app_comm.
Qed.

Lemma cancelled_rt : forall (ps : list (wrapped R * wrapped R)),
  Forall (fun p => cancels (fst p) (snd p) = true) ps ->
  let qs := map (fun p => (wrec (fst p), wrec (snd p))) ps in
  map rt (map fst ps) = map (fun p => (fst p, false)) qs /\
  map rt (map snd ps) = map (fun p => (snd p, true)) qs /\
  Forall (fun p => req (fst p) (snd p) = true) qs.
Proof.
  induction 1; simpl; auto. destruct IHForall as (E1 & E2 & E3).
  unfold cancels in H. apply andb_true_iff in H as [H T]. apply andb_true_iff in H as [H Q].
  apply negb_true_iff in H. unfold rt at 1 3. rewrite H, T, E1, E2. auto.
Qed.

Definition nodel (w : wrapped R) : Prop := is_del w = false.

Lemma filter_keep_id : forall l, Forall nodel l -> filter keep l = l.
Proof. intros. apply filter_all. intros. rewrite Forall_forall in H. unfold keep. rewrite H; auto. Qed.

Lemma evs_cancel : forall l evs,
  Permutation l (emits evs ++ map fst (cancelled evs) ++ map snd (cancelled evs)) ->
  Forall (fun p => cancels (fst p) (snd p) = true) (cancelled evs) ->
  exists ps, cancel_of (map rt l) (map rt (emits evs)) ps.
Proof.
  intros. destruct (cancelled_rt _ H0) as (E1 & E2 & E3).
  exists (map (fun p => (wrec (fst p), wrec (snd p))) (cancelled evs)). split; auto.
  rewrite <- E1, <- E2, <- !map_app. apply Permutation_map. auto.
Qed.

Lemma nodel_in : forall l m, Forall nodel l -> (forall x, In x m -> In x l) -> Forall nodel m.
Proof. intros. rewrite Forall_forall in *. auto. Qed.

Lemma nodel_mask3 : forall l, Forall nodel l -> Forall nodel (map mask3 l).
Proof.
  intros. rewrite Forall_forall in *. intros x Hx. apply in_map_iff in Hx as (y & <- & Hy).
  unfold nodel. rewrite mask3_del. apply H. auto.
Qed.

Lemma shard_of_cancel : forall l s, shard_of l = Ok s -> Forall nodel l ->
  Forall nodel (s_data s) /\ exists ps, cancel_of (map rt l) (map rt (s_data s)) ps.
Proof.
  intros l s H N. apply shard_of_ok in H as (evs & H1 & H2 & _).
  pose proof (crun_perm _ _ H1) as P. pose proof (crun_cancelled _ _ H1) as K.
  pose proof (wsort_perm l) as PS.
  assert (NE : Forall nodel (emits evs)).
  { eapply nodel_in; [exact N|]. intros x Hx.
    apply (Permutation_in (l := wsort l)); [symmetry; auto|].
    apply (Permutation_in (l := emits evs ++ map fst (cancelled evs) ++ map snd (cancelled evs)));
      [symmetry; auto|]. apply in_app_iff. auto. }
  rewrite filter_keep_id in H2 by auto. rewrite H2. split; [apply nodel_mask3; auto|].
  destruct (evs_cancel _ _ P K) as (ps & E). exists ps.
  rewrite map_map. rewrite (map_ext (fun x => rt (mask3 x)) rt) by (apply rt_mask3).
  eapply cancel_of_perm; [|exact E]. apply Permutation_map. auto.
Qed.

Variable qlt : qorder R.
Context {QO : QOrder qlt}.

Definition sdata (ss : list (shard R)) : list (wrapped R) := concat (map s_data ss).

Lemma sdata_app : forall a b, sdata (a ++ b) = sdata a ++ sdata b.
Proof. intros. unfold sdata. rewrite map_app, concat_app. auto. Qed.

Lemma sfs_cancel : forall m s, shard_from_shards qlt m = Ok s -> Forall nodel (sdata m) ->
  Forall nodel (s_data s) /\ exists ps, cancel_of (map rt (sdata m)) (map rt (s_data s)) ps.
Proof.
  intros m s H N. destruct (sfs_ok qlt m s H) as (_ & evs & H1 & H2 & _).
  pose proof (mrun_perm _ _ _ H1) as P. pose proof (mrun_cancelled _ _ _ H1) as K.
  fold (sdata m) in P.
  assert (NE : Forall nodel (emits evs)).
  { eapply nodel_in; [exact N|]. intros x Hx.
    apply (Permutation_in (l := emits evs ++ map fst (cancelled evs) ++ map snd (cancelled evs)));
      [symmetry; auto|]. apply in_app_iff. auto. }
  rewrite filter_keep_id in H2 by auto. rewrite H2. split; auto.
  apply evs_cancel; auto.
Qed.

Lemma sdata_empty : forall m : list (shard R), Forall (fun s => s_data s = []) m -> sdata m = [].
Proof. induction 1; auto. unfold sdata in *. simpl. rewrite H, IHForall. auto. Qed.

Lemma seg_step_cancel : forall a b, seg_step qlt a b -> Forall nodel (sdata a) ->
  Forall nodel (sdata b) /\ exists ps, cancel_of (map rt (sdata a)) (map rt (sdata b)) ps.
Proof.
  intros a b H N. inv H.
  - rewrite !sdata_app in *. change (s :: b0) with ([s] ++ b0). rewrite sdata_app.
    apply Forall_app in N as [N1 N2]. apply Forall_app in N2 as [N2 N3].
    destruct (sfs_cancel _ _ H1 N2) as (N4 & ps & E).
    assert (ES : sdata [s] = s_data s) by (unfold sdata; simpl; apply app_nil_r).
    rewrite ES. split; [rewrite !Forall_app; auto|].
    exists ([] ++ ps ++ []). rewrite !map_app.
    apply cancel_of_app; [apply cancel_of_refl|]. apply cancel_of_app; [auto|apply cancel_of_refl].
  - rewrite !sdata_app in *. rewrite (sdata_empty m) in * by auto. simpl in *. split; auto.
    exists []. apply cancel_of_refl.
Qed.

Lemma seg_steps_cancel : forall a b, seg_steps qlt a b -> Forall nodel (sdata a) ->
  Forall nodel (sdata b) /\ exists ps, cancel_of (map rt (sdata a)) (map rt (sdata b)) ps.
Proof.
  induction 1; intros N.
  - split; auto. exists []. apply cancel_of_refl.
  - destruct (seg_step_cancel _ _ H N) as (N1 & p & E1).
    destruct (IHseg_steps N1) as (N2 & q & E2). split; auto.
    exists (p ++ q). eapply cancel_of_trans; eauto.
Qed.

Variable C : cfg.

(** The stored records are the log without matched pairs. *)
Theorem hist_cancel : forall ops ss win pos, hist qlt C ops ss win pos ->
  Forall nodel (sdata ss ++ win) /\
  exists ps, cancel_of ops (map rt (sdata ss ++ win)) ps.
Proof.
  induction 1.
  - split; [constructor|]. exists []. apply cancel_of_refl.
  - destruct IHhist as (N & ps & E). rewrite app_assoc. split.
    + apply Forall_app. split; auto. constructor; auto. apply append_rec_del.
    + exists (ps ++ []). rewrite map_app. apply cancel_of_app; auto.
      simpl. rewrite rt_append. apply cancel_of_refl.
  - destruct IHhist as (N & ps & E). apply Forall_app in N as [N1 N2].
    rewrite built_sorted in H1. destruct (shard_of_cancel _ _ H1 N2) as (N3 & qs & F).
    assert (ES : sdata [s] = s_data s) by (unfold sdata; simpl; apply app_nil_r).
    destruct (seg_steps_cancel _ _ H2) as (N4 & us & G).
    { rewrite sdata_app, ES. apply Forall_app. auto. }
    split.
    + apply Forall_app. split; auto. constructor; auto. apply append_rec_del.
    + exists ((ps ++ ([] ++ qs) ++ us) ++ []). rewrite map_app. apply cancel_of_app.
      * eapply cancel_of_trans; [exact E|]. eapply cancel_of_trans; [|exact G].
        rewrite sdata_app, ES, !map_app. apply cancel_of_app; [apply cancel_of_refl|auto].
      * simpl. rewrite rt_append. apply cancel_of_refl.
Qed.

(** ** Insert-only histories *)

Lemma cancel_of_plain : forall l l' ps, (forall x, In x l -> snd x = false) ->
  cancel_of l l' ps -> ps = [] /\ Permutation l l'.
Proof.
  intros l l' ps N [P _]. destruct ps as [|p ps].
  - split; auto. simpl in P. rewrite app_nil_r in P. auto.
  - exfalso. assert (In (snd p, true) l).
    { apply (Permutation_in _ (Permutation_sym P)). rewrite !in_app_iff. simpl. auto. }
    apply N in H. discriminate.
Qed.

Lemma hist_plain : forall ops ss win pos, hist qlt C ops ss win pos ->
  (forall x, In x ops -> snd x = false) ->
  Permutation ops (map rt (sdata ss ++ win)) /\
  Forall nodel (sdata ss ++ win) /\ Forall (fun w => is_ts w = false) (sdata ss ++ win).
Proof.
  intros ops ss win pos H N. destruct (hist_cancel _ _ _ _ H) as (D & ps & E).
  destruct (cancel_of_plain _ _ _ N E) as (-> & P). split; auto. split; auto.
  apply Forall_forall. intros w Hw.
  assert (In (rt w) ops) by (apply (Permutation_in _ (Permutation_sym P)); apply in_map; auto).
  apply N in H0. auto.
Qed.

(** ** Positive balance of every block *)

(** Plain copies minus tombstones. *)
Definition net (l : list (R * bool)) : Z :=
  (Z.of_nat (countb (fun x => negb (snd x)) l) - Z.of_nat (countb snd l))%Z.

Lemma net_app : forall a b, net (a ++ b) = (net a + net b)%Z.
Proof. intros. unfold net. rewrite !countb_app. lia. Qed.

Lemma net_perm : forall a b, Permutation a b -> net a = net b.
Proof.
  intros. unfold net. rewrite (countb_perm _ _ _ H). rewrite (countb_perm snd _ _ H). auto.
Qed.

Lemma net_cancel : forall l l' ps, cancel_of l l' ps -> net l = net l'.
Proof.
  intros l l' ps [P _]. rewrite (net_perm _ _ P), !net_app.
  assert (net (map (fun p : R * R => (fst p, false)) ps) + net (map (fun p : R * R => (snd p, true)) ps) = 0)%Z.
  { clear. induction ps; [reflexivity|]. unfold net in *. cbn [map countb fst snd negb]. lia. }
  lia.
Qed.

Definition pos_shard (s : shard R) : Prop := (0 < net (map rt (s_data s)))%Z.

Lemma pos_nonempty : forall s, pos_shard s -> nonempty s.
Proof. intros s H E. unfold pos_shard in H. rewrite E in H. discriminate. Qed.

Lemma sum_pos : forall m, m <> [] -> Forall pos_shard m -> (0 < net (map rt (sdata m)))%Z.
Proof.
  destruct m as [|s m]; [congruence|]. intros _ H. inv H.
  assert (0 <= net (map rt (sdata m)))%Z.
  { clear -H3. induction H3; [unfold net; simpl; lia|].
    unfold sdata in *. simpl. rewrite map_app, net_app. unfold pos_shard in H. lia. }
  unfold sdata in *. simpl. rewrite map_app, net_app. unfold pos_shard in H2. lia.
Qed.

Lemma seg_steps_pos : forall a b, seg_steps qlt a b -> Forall nodel (sdata a) ->
  Forall pos_shard a -> Forall pos_shard b.
Proof.
  induction 1; auto. intros N P. destruct (seg_step_cancel _ _ H N) as (N1 & _).
  apply IHseg_steps; auto. inv H.
  - apply Forall_app in P as [P1 P2]. apply Forall_app in P2 as [P2 P3].
    apply Forall_app. split; auto. constructor; auto.
    rewrite !sdata_app in N. apply Forall_app in N as [_ N]. apply Forall_app in N as [N _].
    destruct (sfs_cancel _ _ H2 N) as (_ & ps & E).
    unfold pos_shard. rewrite <- (net_cancel _ _ _ E). apply sum_pos; auto.
  - apply Forall_app in P as [P1 P2]. apply Forall_app in P2 as [P2 P3].
    apply Forall_app. auto.
Qed.

(** Every full block of [n] appends has more inserts than erases. *)
Definition blocks_pos (n : nat) (ops : list (R * bool)) : Prop :=
  forall k, (k + 1) * n <= length ops -> (0 < net (firstn n (skipn (k * n) ops)))%Z.

Lemma rt_entries : forall ops p, map rt (entries C p ops) = ops.
Proof. induction ops as [|[r ts] ops]; simpl; intros; auto. rewrite rt_append, IHops. auto. Qed.

Hypothesis SF : 1 <= c_sf C.
Hypothesis LW : 1 <= c_lwm C.
Hypothesis WM : c_lwm C <= c_hwm C.

Lemma hist_pos : forall ops, blocks_pos (c_lwm C) ops -> forall pre post ss win pos,
  ops = pre ++ post -> hist qlt C pre ss win pos ->
  Forall pos_shard ss /\ (length win = c_lwm C -> (0 < net (map rt win))%Z).
Proof.
  intros ops B pre post ss win pos E H. revert post E.
  assert (W : forall pre post ss win pos, ops = pre ++ post -> hist qlt C pre ss win pos ->
     length win = c_lwm C -> (0 < net (map rt win))%Z).
  { clear -B SF LW WM. intros pre post ss win pos E H L.
    apply (hist_win qlt C SF LW WM) in H as (EW & LP & _ & (k & K) & _).
    assert (PB : (k + 1) * c_lwm C <= length ops) by (rewrite E, app_length; nia).
    specialize (B k PB). rewrite EW, rt_entries.
    replace (skipn pos pre) with (firstn (c_lwm C) (skipn (k * c_lwm C) ops)); auto.
    rewrite E, K. rewrite skipn_app. rewrite firstn_app.
    rewrite (firstn_all2 (n := c_lwm C)) by (rewrite skipn_length; lia).
    rewrite skipn_length. replace (c_lwm C - _) with 0 by lia. rewrite firstn_O, app_nil_r. auto. }
  induction H; intros post E.
  - split; auto. simpl. lia.
  - split; [|eapply W; [exact E|]; apply h_app; eauto].
    eapply (IHhist ((r, ts) :: post)). rewrite E, <- app_assoc. auto.
  - split; [|eapply W; [exact E|]; eapply h_flush; eauto].
    assert (E' : ops = ops0 ++ ((r, ts) :: post)) by (rewrite E, <- app_assoc; auto).
    destruct (IHhist _ E') as [P1 P2].
    destruct (hist_cancel _ _ _ _ H) as (N & _). apply Forall_app in N as [N1 N2].
    rewrite built_sorted in H1. destruct (shard_of_cancel _ _ H1 N2) as (N3 & qs & F).
    assert (ES : sdata [s] = s_data s) by (unfold sdata; simpl; apply app_nil_r).
    eapply seg_steps_pos; [exact H2| |].
    + rewrite sdata_app, ES. apply Forall_app. auto.
    + apply Forall_app. split; auto. constructor; auto. unfold pos_shard.
      rewrite <- (net_cancel _ _ _ F). auto.
Qed.

Theorem blocks_never_empty : forall ops, blocks_pos (c_lwm C) ops -> never_empty qlt C ops.
Proof.
  intros ops B pre post ss win pos E H.
  destruct (hist_pos _ B _ _ _ _ _ E H) as [P1 P2]. split.
  - eapply Forall_impl; [|exact P1]. apply pos_nonempty.
  - intros L s ES. apply P2 in L. destruct (hist_cancel _ _ _ _ H) as (N & _).
    apply Forall_app in N as [N1 N2]. rewrite built_sorted in ES. destruct (shard_of_cancel _ _ ES N2) as (N3 & qs & F).
    apply (pos_nonempty s). unfold pos_shard. rewrite <- (net_cancel _ _ _ F). auto.
Qed.

Lemma plain_blocks : forall n ops, 1 <= n -> (forall x, In x ops -> snd x = false) -> blocks_pos n ops.
Proof.
  intros n ops Hn N k L. set (l := firstn n (skipn (k * n) ops)).
  assert (LL : length l = n) by (unfold l; rewrite firstn_length, skipn_length; nia).
  assert (NL : forall x, In x l -> snd x = false).
  { intros x Hx. apply N. unfold l in Hx.  rewrite <- (firstn_skipn (k * n) ops). apply in_app_iff. right.
    rewrite <- (firstn_skipn n (skipn (k * n) ops)). apply in_app_iff. auto. }
  assert (net l = Z.of_nat (length l)).
  { clear -NL. induction l; [reflexivity|]. unfold net in *. cbn [countb length].
    rewrite (NL a) by (simpl; auto). cbn [negb].
    specialize (IHl (fun x Hx => NL x (or_intror Hx))). lia. }
  lia.
Qed.

End CP.

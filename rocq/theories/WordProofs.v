(** The operations on one record as a word, and what merging does to it. *)
From Coq Require Import List Arith ZArith NArith Lia Bool Permutation Sorted.
From Verif Require Import Base ListLemmas RecordModel RecordProofs BufferModel BufferProofs
  MergeModel MergeProofs StructModel ExtModel StructProofs StructTotal SortedProofs ExtProofs ContentProofs
  QueryModel Spec QueryProofs SerialProofs HeaderProofs.
Import ListNotations.

(** ** Words: [true] is a tombstone, [false] a plain record *)

(** No two plain records in a row. *)
Fixpoint nii (l : list bool) : bool :=
  match l with
  | [] => true
  | b :: t => (b || match t with false :: _ => false | _ => true end) && nii t
  end.

(** A plain record only at the end. *)
Fixpoint nf (l : list bool) : bool :=
  match l with
  | [] => true
  | b :: t => (b || match t with [] => true | _ => false end) && nf t
  end.

(** Removing a plain record and the tombstone right after it. *)
Inductive red : list bool -> list bool -> Prop :=
| rd_refl : forall l, red l l
| rd_step : forall x y l, red (x ++ y) l -> red (x ++ false :: true :: y) l.

Lemma red_trans : forall a b c, red a b -> red b c -> red a c.
Proof. induction 1; intros; auto. apply rd_step. auto. Qed.

Lemma red_ctx : forall a b p q, red a b -> red (p ++ a ++ q) (p ++ b ++ q).
Proof.
  induction 1.
  - apply rd_refl.
  - rewrite <- app_assoc in *. rewrite app_assoc in *. simpl in *. apply rd_step. auto.
Qed.

Lemma red_cons : forall x a b, red a b -> red (x :: a) (x :: b).
Proof. intros. pose proof (red_ctx _ _ [x] [] H). rewrite !app_nil_r in H0. auto. Qed.

Lemma red_app : forall a a' b b', red a a' -> red b b' -> red (a ++ b) (a' ++ b').
Proof.
  intros. eapply red_trans; [apply (red_ctx _ _ [] b H)|]. simpl.
  pose proof (red_ctx _ _ a' [] H0). rewrite !app_nil_r in H1. auto.
Qed.

Lemma nii_app : forall a b, nii (a ++ b) = true -> nii a = true /\ nii b = true.
Proof.
  induction a as [|x a IH]; simpl; intros b H; auto.
  apply andb_true_iff in H as [H1 H2]. destruct (IH _ H2) as [H3 H4]. split; auto.
  rewrite H3, andb_true_r. destruct x; auto. simpl in *. destruct a; auto.
Qed.

Lemma red_keeps : forall a b, red a b -> nii a = true -> nii b = true /\ last b true = last a true.
Proof.
  induction 1; intros N; auto.
  assert (K : nii (x ++ y) = true /\ last (x ++ y) true = last (x ++ false :: true :: y) true).
  { clear -N. induction x as [|b x IH].
    - simpl in *. split.
      + destruct y; auto.
      + destruct y; auto.
    - simpl in N. apply andb_true_iff in N as [N1 N2]. destruct (IH N2) as [K1 K2]. split.
      + simpl. rewrite K1, andb_true_r. destruct b; auto. simpl in *.
        destruct x as [|c x]; [discriminate|]. exact N1.
      + cbn [app]. destruct (x ++ y) as [|c z] eqn:E.
        * apply app_eq_nil in E as [-> ->]. simpl in *. destruct b; auto.
        * rewrite <- E in *. destruct (x ++ false :: true :: y) as [|d u] eqn:E2.
          { destruct x; discriminate. }
          rewrite E in *. exact K2. }
  destruct K as [K1 K2]. destruct (IHred K1) as [K3 K4]. split; auto. congruence.
Qed.

Lemma nf_count : forall l, nf l = true -> countb negb l = if last l true then 0 else 1.
Proof.
  induction l as [|b l IH]; intros H; auto. simpl in H. apply andb_true_iff in H as [H1 H2].
  specialize (IH H2). destruct b.
  - destruct l; auto.
  - simpl in H1. destruct l; [auto|discriminate].
Qed.

Section WP.
Context {R : Type} {RO : RecOps R} {RL : RecLaws R}.
Variable r : R.

(** The word of [r] in a log, and in an array. *)
Definition wdo (l : list (R * bool)) : list bool := map snd (filter (fun x => req r (fst x)) l).
Definition wd (l : list (wrapped R)) : list bool := wdo (map rt l).

Lemma wdo_app : forall a b, wdo (a ++ b) = wdo a ++ wdo b.
Proof. intros. unfold wdo. rewrite filter_app, map_app. auto. Qed.
Lemma wd_app : forall a b, wd (a ++ b) = wd a ++ wd b.
Proof. intros. unfold wd. rewrite map_app, wdo_app. auto. Qed.
Lemma wd_cons : forall w l, wd (w :: l) = if req r (wrec w) then is_ts w :: wd l else wd l.
Proof. intros. unfold wd, wdo. simpl. destruct (req r (wrec w)); auto. Qed.
Lemma wd_nil : forall l, wd l = [] <-> forall w, In w l -> req r (wrec w) = false.
Proof.
  induction l as [|w l IH]; [split; auto; intros _ w []|]. rewrite wd_cons.
  destruct (req r (wrec w)) eqn:E; split; intros H.
  - discriminate.
  - rewrite (H w) in E by (simpl; auto). discriminate.
  - intros x [<-|Hx]; auto. apply IH; auto.
  - apply IH. intros x Hx. apply H. simpl; auto.
Qed.

Lemma wd_mask3 : forall l, wd (map mask3 l) = wd l.
Proof. intros. unfold wd. rewrite map_map. f_equal. apply map_ext. apply rt_mask3. Qed.

(** ** The scan of a sorted buffer *)

Lemma first_eq : forall (b n : wrapped R) l, StronglySorted wle (b :: n :: l) ->
  req r (wrec b) = true -> wd (n :: l) <> [] -> req r (wrec n) = true.
Proof.
  intros b n l S E N. destruct (req r (wrec n)) eqn:E2; auto. exfalso. apply N.
  apply wd_nil. intros w Hw. destruct Hw as [<-|Hw]; auto.
  destruct (req r (wrec w)) eqn:E3; auto. exfalso.
  inv S. inv H1. inv H2. rewrite Forall_forall in H4. specialize (H4 w Hw).
  assert (Q : req (wrec b) (wrec n) = true).
  { apply rle_antisym; auto. eapply rle_trans; [exact H4|]. apply req_rle.
    rewrite req_sym in E3. eapply req_trans; eauto. }
  rewrite (req_trans _ _ _ E Q) in E2. discriminate.
Qed.

Lemma crun_word : forall l evs, crun l evs -> StronglySorted wle l -> nii (wd l) = true ->
  red (wd l) (wd (emits evs)) /\ nf (wd (emits evs)) = true.
Proof.
  induction 1; simpl emits; intros S N.
  - split; [apply rd_refl|auto].
  - assert (SL : StronglySorted wle l) by (inv S; auto). rewrite wd_cons in *.
    rewrite (wd_cons b (emits evs)).
    destruct (req r (wrec b)) eqn:E; [|auto].
    simpl in N. apply andb_true_iff in N as [N1 N2]. destruct (IHcrun SL N2) as [I1 I2].
    split; [apply red_cons; auto|]. simpl. rewrite I2, andb_true_r.
    destruct (is_ts b) eqn:T; auto. simpl in *.
    assert (Z : wd l = []).
    { destruct l as [|n l]; auto. destruct (wd (n :: l)) as [|x z] eqn:EW; auto. exfalso.
      assert (EN : req r (wrec n) = true) by (eapply first_eq; eauto; congruence).
      rewrite wd_cons, EN in EW. inv EW. specialize (H n l eq_refl).
      unfold cancels in H. rewrite T in H. simpl in H.
      rewrite req_sym in E. rewrite (req_trans _ _ _ E EN) in H. simpl in H.
      rewrite H in N1. discriminate. }
    rewrite Z in I1. inv I1; auto. destruct x; discriminate.
  - assert (SL : StronglySorted wle l) by (inv S; inv H3; auto). rewrite !wd_cons in *.
    unfold cancels in H. apply andb_true_iff in H as [H T]. apply andb_true_iff in H as [T' Q].
    apply negb_true_iff in T'. rewrite (req_congr_r _ _ r Q) in *.
    destruct (req r (wrec n)); auto. rewrite T, T' in *.
    destruct (IHcrun SL) as [I1 I2].
    { simpl in N. auto. }
    split; auto. apply (rd_step [] (wd l)). auto.
Qed.

(** ** Merging with older versions first *)

Lemma set_nth_split' : forall {A} (cs : list A) v x, nth_error cs v = Some x ->
  exists a b, cs = a ++ x :: b /\ length a = v.
Proof. intros. apply nth_error_split in H. auto. Qed.

Lemma head_eq : forall (cs : list (list (wrapped R))) u l w,
  Forall (StronglySorted wle) cs -> nth_error cs u = Some l ->
  req r (wrec w) = true -> (forall y l', l = y :: l' -> wle w y) -> wd l <> [] ->
  exists t c, l = t :: c /\ req r (wrec t) = true.
Proof.
  intros cs u l w S Hu E L N. destruct l as [|t c]; [exfalso; apply N; reflexivity|].
  exists t, c. split; auto. specialize (L t c eq_refl).
  destruct (req r (wrec t)) eqn:E2; auto. exfalso. apply N. apply wd_nil. intros x Hx.
  destruct Hx as [<-|Hx]; auto. destruct (req r (wrec x)) eqn:E3; auto. exfalso.
  rewrite Forall_forall in S. pose proof (S _ (nth_error_In _ _ Hu)) as SC. inv SC.
  rewrite Forall_forall in H2. specialize (H2 x Hx).
  assert (Q : req (wrec w) (wrec t) = true).
  { apply rle_antisym; auto. eapply rle_trans; [exact H2|]. apply req_rle.
    rewrite req_sym in E3. eapply req_trans; eauto. }
  rewrite (req_trans _ _ _ E Q) in E2. discriminate.
Qed.

Lemma wd_concat_nil : forall cs, (forall c, In c cs -> wd c = []) -> wd (concat cs) = [].
Proof.
  induction cs as [|c cs IH]; simpl; intros H; auto. rewrite wd_app, (H c), IH; auto.
Qed.

(** Cursors before the least head hold no copy of its record. *)
Lemma least_before : forall cs v w c,
  Forall (StronglySorted wle) cs -> nth_error cs v = Some (w :: c) -> least by_version cs v w ->
  req r (wrec w) = true -> forall u l, u < v -> nth_error cs u = Some l -> wd l = [].
Proof.
  intros cs v w c S Hv L E u l LT Hu.
  destruct (wd l) as [|b t] eqn:EW; auto. exfalso.
  destruct (head_eq cs u l w S Hu E) as (y & c' & -> & EY).
  { intros y l' ->. apply (qlt_wle by_version (w, v) (y, u)). apply (L u y l'); auto. lia. }
  { congruence. }
  pose proof (L u y c' Hu ltac:(lia)) as Q. unfold by_version in Q. simpl in Q.
  assert (EE : req (wrec w) (wrec y) = true).
  { rewrite req_sym in E. eapply req_trans; eauto. }
  assert (NL : rlt (wrec w) (wrec y) = false).
  { destruct (rlt (wrec w) (wrec y)) eqn:X; auto. apply rlt_not_req in X. congruence. }
  rewrite NL, EE in Q. simpl in Q. apply Nat.ltb_lt in Q. lia.
Qed.

(** The second head is the next cursor with a copy. *)
Lemma second_next : forall cs v w c u l,
  Forall (StronglySorted wle) cs -> nth_error cs v = Some (w :: c) -> least by_version cs v w ->
  req r (wrec w) = true -> v < u -> nth_error cs u = Some l -> wd l <> [] ->
  (forall z l', v < z -> z < u -> nth_error cs z = Some l' -> wd l' = []) ->
  exists t c', l = t :: c' /\ req r (wrec t) = true /\ second by_version cs v u t.
Proof.
  intros cs v w c u l S Hv L E LT Hu NE BT.
  assert (HW : forall z y c', nth_error cs z = Some (y :: c') -> z <> v -> wle w y).
  { intros z y c' Hz Nz. apply (qlt_wle by_version (w, v) (y, z)). eapply L; eauto. }
  destruct (head_eq cs u l w S Hu E) as (t & c' & -> & ET); auto.
  { intros y l' ->. eapply HW; eauto. lia. }
  exists t, c'. split; auto. split; auto.
  intros z x c0 Hz N1 N2. unfold by_version. simpl.
  pose proof (HW _ _ _ Hz N1) as WX. apply rle_cases in WX.
  assert (EWT : req (wrec t) (wrec w) = true).
  { rewrite req_sym in ET. eapply req_trans; eauto. }
  destruct WX as [WX|WX].
  - rewrite (rlt_req_l _ _ _ EWT WX). auto.
  - rewrite (req_trans _ _ _ EWT WX). simpl.
    assert (u < z).
    { assert (EX : wd (x :: c0) <> []).
      { rewrite wd_cons. rewrite (req_trans _ _ _ E WX). discriminate. }
      destruct (Nat.lt_trichotomy z v) as [Z|[Z|Z]]; [|lia|].
      - exfalso. apply EX. eapply (least_before cs v w c); eauto.
      - destruct (Nat.lt_trichotomy z u) as [Z2|[Z2|Z2]]; [|lia|auto].
        exfalso. apply EX. eapply BT; eauto. }
    apply Nat.ltb_lt in H. rewrite H. apply orb_true_r.
Qed.

Lemma first_with : forall (cs : list (list (wrapped R))), wd (concat cs) <> [] ->
  exists i l, nth_error cs i = Some l /\ wd l <> [] /\
    forall j l', j < i -> nth_error cs j = Some l' -> wd l' = [].
Proof.
  induction cs as [|c cs IH]; simpl; intros H; [exfalso; auto|].
  destruct (wd c) as [|b t] eqn:E.
  - rewrite wd_app, E in H. destruct (IH H) as (i & l & Hi & NE & B).
    exists (S i), l. split; auto. split; auto. intros [|j] l' LT Hj; [inv Hj; auto|].
    apply (B j); auto. lia.
  - exists 0, c. split; auto. split; [congruence|]. intros; lia.
Qed.

Lemma wd_concat_app_nil : forall (a : list (list (wrapped R))),
  (forall u l, u < length a -> nth_error a u = Some l -> wd l = []) -> wd (concat a) = [].
Proof.
  intros a H. apply wd_concat_nil. intros c Hc. apply In_nth_error in Hc as (i & Hi).
  eapply H; eauto. apply nth_error_Some. congruence.
Qed.

Lemma red_nil : forall l, red [] l -> l = [].
Proof. intros l H. inv H; auto. destruct x; discriminate. Qed.

Lemma mrun_word : forall cs evs, mrun by_version cs evs ->
  Forall (StronglySorted wle) cs -> Forall (fun c => nf (wd c) = true) cs -> nii (wd (concat cs)) = true ->
  red (wd (concat cs)) (wd (emits evs)) /\ nf (wd (emits evs)) = true.
Proof.
  induction 1 as [cs D|cs v w c evs Hv L NC M IH|cs v u w t c c' evs Hv Hu NU L S2 CC M IH];
    intros SO NF NI; simpl emits.
  - rewrite wd_concat_nil; [split; [apply rd_refl|auto]|]. intros c Hc. rewrite (D c Hc). auto.
  - pose proof Hv as Hv'. apply nth_error_split in Hv' as (a & b & E & LA).
    assert (SN : set_nth v c cs = a ++ c :: b).
    { rewrite E, <- LA. apply set_nth_app_mid. }
    assert (SO' : Forall (StronglySorted wle) (set_nth v c cs)) by (eapply sorted_set_nth; eauto).
    assert (NFW : nf (wd (w :: c)) = true).
    { rewrite Forall_forall in NF. apply NF. eapply nth_error_In; eauto. }
    assert (NFC : nf (wd c) = true).
    { rewrite wd_cons in NFW. destruct (req r (wrec w)); auto. simpl in NFW.
      apply andb_true_iff in NFW. tauto. }
    assert (NF' : Forall (fun c => nf (wd c) = true) (set_nth v c cs)) by (apply Forall_set_nth; auto).
    destruct (req r (wrec w)) eqn:ER.
    2:{ assert (EW : wd (concat (set_nth v c cs)) = wd (concat cs)).
        { rewrite SN, E, !concat_app. simpl. rewrite !wd_app, wd_cons, ER, wd_app. auto. }
        rewrite EW in IH. rewrite (wd_cons w), ER. auto. }
    assert (WA : wd (concat a) = []).
    { apply wd_concat_app_nil. intros u l LU Hl. apply (least_before cs v w c SO Hv L ER u l); [lia|].
      rewrite E, nth_error_app1; auto. }
    assert (EW : wd (concat cs) = is_ts w :: wd (c ++ concat b)).
    { rewrite E, concat_app, wd_app, WA. simpl. rewrite wd_cons, ER. auto. }
    assert (EW' : wd (concat (set_nth v c cs)) = wd (c ++ concat b)).
    { rewrite SN, concat_app, wd_app, WA. auto. }
    rewrite EW in NI |- *. simpl in NI. apply andb_true_iff in NI as [N1 N2].
    rewrite EW' in IH. destruct (IH SO' NF' N2) as [I1 I2].
    rewrite (wd_cons w (emits evs)), ER. split; [apply red_cons; auto|].
    simpl. rewrite I2, andb_true_r. destruct (is_ts w) eqn:T; auto. simpl in *.
    assert (Z : wd (c ++ concat b) = []).
    { rewrite wd_cons, ER, T in NFW. simpl in NFW. rewrite wd_app.
      destruct (wd c) as [|x z] eqn:EC; [|discriminate]. simpl.
      destruct (wd (concat b)) as [|x z] eqn:EB; auto. exfalso.
      destruct (first_with b) as (i & l & Hi & NE & B); [congruence|].
      assert (Hc : nth_error cs (v + S i) = Some l).
      { rewrite E, nth_error_app2 by lia. replace (v + S i - length a) with (S i) by lia. auto. }
      destruct (second_next cs v w c (v + S i) l SO Hv L ER ltac:(lia) Hc NE) as (t & c0 & -> & ET & ST).
      { intros z0 l' Z1 Z2 Hz. apply (B (z0 - v - 1)); [lia|].
        rewrite E, nth_error_app2 in Hz by lia.
        replace (z0 - length a) with (S (z0 - v - 1)) in Hz by lia. auto. }
      pose proof (NC _ _ _ Hc ltac:(lia) ST) as CF. unfold cancels in CF. rewrite T in CF. simpl in CF.
      rewrite req_sym in ER. rewrite (req_trans _ _ _ ER ET) in CF. simpl in CF.
      assert (EX : exists z', wd (concat b) = is_ts t :: z').
      { apply nth_error_split in Hi as (b1 & b2 & -> & LB).
        rewrite concat_app, wd_app. simpl. rewrite (wd_concat_app_nil b1).
        - simpl. rewrite wd_cons, ET. eauto.
        - intros u0 l0 LU HU. apply (B u0); [lia|]. rewrite nth_error_app1; auto. }
      destruct EX as (z' & EX). rewrite wd_app, EC, EX in N1. simpl in N1. rewrite CF in N1. discriminate. }
    rewrite Z in I1. apply red_nil in I1. rewrite I1. auto.
  - unfold cancels in CC. apply andb_true_iff in CC as [CC T]. apply andb_true_iff in CC as [T' Q].
    apply negb_true_iff in T'.
    assert (Hu' : nth_error (set_nth v c cs) u = Some (t :: c')) by (rewrite nth_error_set_nth_neq; auto).
    assert (SO' : Forall (StronglySorted wle) (set_nth u c' (set_nth v c cs))).
    { eapply sorted_set_nth; eauto. eapply sorted_set_nth; eauto. }
    assert (NFT : forall (x : wrapped R) l, nf (wd (x :: l)) = true -> nf (wd l) = true).
    { intros x l K. rewrite wd_cons in K. destruct (req r (wrec x)); auto. simpl in K.
      apply andb_true_iff in K. tauto. }
    assert (NF0 : forall l, In l cs -> nf (wd l) = true) by (rewrite <- Forall_forall; auto).
    assert (NF' : Forall (fun c => nf (wd c) = true) (set_nth u c' (set_nth v c cs))).
    { apply Forall_set_nth; [apply Forall_set_nth; auto|].
      - eapply NFT. apply NF0. eapply nth_error_In; eauto.
      - eapply NFT. apply NF0. eapply nth_error_In; eauto. }
    specialize (IH SO' NF').
    destruct (req r (wrec w)) eqn:ER.
    2:{ assert (ET : req r (wrec t) = false) by (rewrite <- (req_congr_r _ _ r Q); auto).
        assert (DROP : forall (ds : list (list (wrapped R))) i x l, nth_error ds i = Some (x :: l) ->
          req r (wrec x) = false -> wd (concat (set_nth i l ds)) = wd (concat ds)).
        { intros ds i x l Hi EX. apply nth_error_split in Hi as (a & b & -> & <-).
          rewrite set_nth_app_mid, !concat_app. simpl. rewrite !wd_app, wd_cons, EX, wd_app. auto. }
        rewrite (DROP _ _ _ _ Hu' ET), (DROP _ _ _ _ Hv ER) in IH. auto. }
    assert (ET : req r (wrec t) = true) by (rewrite <- (req_congr_r _ _ r Q); auto).
    assert (NE : wd (t :: c') <> []) by (rewrite wd_cons, ET; discriminate).
    assert (VU : v < u).
    { destruct (Nat.lt_trichotomy v u) as [K|[K|K]]; auto; [congruence|]. exfalso. apply NE.
      eapply (least_before cs v w c); eauto. }
    assert (BT : forall z l, v < z -> z < u -> nth_error cs z = Some l -> wd l = []).
    { intros z l Z1 Z2 Hz. destruct (wd l) as [|b0 z0] eqn:EZ; auto. exfalso.
      destruct (head_eq cs z l w SO Hz ER) as (y & c0 & -> & EY).
      { intros y l' ->. apply (qlt_wle by_version (w, v) (y, z)). apply (L z y l'); auto. lia. }
      { congruence. }
      pose proof (S2 z y c0 Hz ltac:(lia) ltac:(lia)) as K. unfold by_version in K. simpl in K.
      assert (EE : req (wrec t) (wrec y) = true).
      { rewrite req_sym in ET. eapply req_trans; eauto. }
      assert (NL : rlt (wrec t) (wrec y) = false).
      { destruct (rlt (wrec t) (wrec y)) eqn:X; auto. apply rlt_not_req in X. congruence. }
      rewrite NL, EE in K. simpl in K. apply Nat.ltb_lt in K. lia. }
    assert (WC : wd c = []).
    { pose proof (NF0 _ (nth_error_In _ _ Hv)) as K. rewrite wd_cons, ER, T' in K. simpl in K.
      destruct (wd c); auto. discriminate. }
    pose proof Hv as Hv'. apply nth_error_split in Hv' as (a & b & E & LA).
    assert (WA : wd (concat a) = []).
    { apply wd_concat_app_nil. intros z l LU Hl. apply (least_before cs v w c SO Hv L ER z l); [lia|].
      rewrite E, nth_error_app1; auto. }
    assert (Hb : nth_error b (u - v - 1) = Some (t :: c')).
    { rewrite E, nth_error_app2 in Hu by lia. replace (u - length a) with (S (u - v - 1)) in Hu by lia. auto. }
    pose proof Hb as Hb'. apply nth_error_split in Hb' as (b1 & b2 & EB & LB).
    assert (WB : wd (concat b1) = []).
    { apply wd_concat_app_nil. intros z l LU Hl. apply (BT (v + S z)); try lia.
      rewrite E, nth_error_app2 by lia. replace (v + S z - length a) with (S z) by lia. simpl.
      rewrite EB, nth_error_app1; auto. }
    assert (EW : wd (concat cs) = false :: true :: wd (c' ++ concat b2)).
    { rewrite E, EB. simpl. rewrite !concat_app. simpl. rewrite concat_app, !wd_app, WA.
      simpl. rewrite wd_cons, ER, T'. simpl. rewrite wd_app, WC. simpl. rewrite wd_app, WB. simpl.
      rewrite wd_cons, ET, T. rewrite !wd_app. auto. }
    assert (EW' : wd (concat (set_nth u c' (set_nth v c cs))) = wd (c' ++ concat b2)).
    { assert (S1 : set_nth v c cs = a ++ c :: b) by (rewrite E, <- LA; apply set_nth_app_mid).
      assert (S3 : set_nth u c' (set_nth v c cs) = (a ++ c :: b1) ++ c' :: b2).
      { rewrite S1, EB. replace (a ++ c :: b1 ++ (t :: c') :: b2) with ((a ++ c :: b1) ++ (t :: c') :: b2)
          by (rewrite <- app_assoc; auto).
        replace u with (length (a ++ c :: b1)) by (rewrite app_length; simpl; lia).
        apply set_nth_app_mid. }
      rewrite S3, !concat_app, !wd_app, WA. simpl. rewrite !wd_app, WC, WB. simpl. auto. }
    rewrite EW in NI |- *. rewrite EW' in IH. simpl in NI.
    destruct (IH NI) as [I1 I2]. split; auto. apply (rd_step [] (wd (c' ++ concat b2))). auto.
Qed.

(** ** Sorting a buffer whose timestamps increase *)

Definition hless (a b : wrapped R) : Prop := (hdr a < hdr b)%N.

Lemma winsert_word : forall (w : wrapped R) acc, StronglySorted wnlt acc ->
  Forall (fun x => hless x w) acc -> wd (winsert w acc) = wd (acc ++ [w]).
Proof.
  induction acc as [|x acc IH]; intros S F; simpl; auto. inv S. inv F.
  destruct (wlt w x) eqn:E.
  - rewrite !wd_cons, !wd_app, !wd_cons. simpl.
    destruct (req r (wrec w)) eqn:EW; [|rewrite app_nil_r; auto].
    assert (LT : rlt (wrec w) (wrec x) = true).
    { apply wlt_cases in E as [E|[_ E]]; auto. unfold hless in H3. lia. }
    assert (NX : forall y, In y (x :: acc) -> req r (wrec y) = false).
    { intros y Hy. destruct (req r (wrec y)) eqn:EY; auto. exfalso.
      assert (WY : rle (wrec x) (wrec y)).
      { destruct Hy as [<-|Hy]; [apply rle_refl|]. rewrite Forall_forall in H2.
        apply (not_wlt_wle y x). apply H2. auto. }
      assert (req (wrec w) (wrec y) = true).
      { rewrite req_sym in EW. eapply req_trans; eauto. }
      apply rle_cases in WY as [WY|WY].
      - pose proof (rlt_trans _ _ _ LT WY) as K. apply rlt_not_req in K. congruence.
      - pose proof (rlt_req_r _ _ _ LT WY) as K. apply rlt_not_req in K. congruence. }
    rewrite (NX x) by (simpl; auto).
    assert (Z : wd acc = []) by (apply wd_nil; intros; apply NX; simpl; auto). rewrite Z. auto.
  - rewrite !wd_cons, IH; auto.
Qed.

Lemma wsort_word : forall l : list (wrapped R), StronglySorted hless l -> wd (wsort l) = wd l.
Proof.
  assert (K : forall (l : list (wrapped R)) acc, StronglySorted wnlt acc -> StronglySorted hless l ->
    (forall x y, In x acc -> In y l -> hless x y) ->
    wd (fold_left (fun acc w => winsert w acc) l acc) = wd (acc ++ l)).
  { induction l as [|w l IH]; simpl; intros acc SA SL F; [rewrite app_nil_r; auto|].
    inv SL. rewrite IH; auto.
    - rewrite wd_app, winsert_word; auto.
      + rewrite <- wd_app, <- app_assoc. auto.
      + apply Forall_forall. intros x Hx. apply F; simpl; auto.
    - apply winsert_sorted. auto.
    - intros x y Hx Hy. apply (Permutation_in _ (Permutation_sym (winsert_perm w acc))) in Hx.
      destruct Hx as [<-|Hx]; [rewrite Forall_forall in H2; auto|]. apply F; simpl; auto. }
  intros l S. unfold wsort. rewrite K; auto; [constructor|]. intros x y [].
Qed.

Lemma append_rec_hless : forall (a b : R) ta tb p q, p < q -> (N.of_nat q < 2 ^ 29)%N ->
  hless (append_rec a ta p) (append_rec b tb q).
Proof.
  intros a b ta tb p q LT B.
  assert (T : forall (x : R) tx i, (N.of_nat i < 2 ^ 29)%N -> (hdr (append_rec x tx i) / 8 = N.of_nat i)%N).
  { intros x tx i Bi. unfold append_rec. cbn [hdr].
    set (h1 := if tx then h_set_tombstone true 0%N else 0%N).
    pose proof (set_visible_fields (h_set_timestamp (N.of_nat i) h1)) as V.
    pose proof (set_timestamp_fields (N.of_nat i) h1 Bi) as TT. cbv zeta in *.
    rewrite TT in V. apply (f_equal f_time) in V. cbn [f_time fields_of] in V. rewrite V.
    unfold h1. destruct tx; reflexivity. }
  unfold hless. pose proof (T a ta p ltac:(lia)) as T1. pose proof (T b tb q B) as T2.
  destruct (N.lt_ge_cases (hdr (append_rec a ta p)) (hdr (append_rec b tb q))); auto.
  apply (N.div_le_mono _ _ 8) in H; [|lia]. rewrite T1, T2 in H. lia.
Qed.

(** ** Shards *)

Lemma shard_of_word : forall l s, shard_of l = Ok s -> Forall nodel l -> StronglySorted hless l ->
  nii (wd l) = true -> red (wd l) (wd (s_data s)) /\ nf (wd (s_data s)) = true.
Proof.
  intros l s H N S NI. destruct (shard_of_cancel _ _ H N) as (_ & _).
  apply shard_of_ok in H as (evs & H1 & H2 & _).
  assert (NE : Forall nodel (emits evs)).
  { eapply nodel_in; [exact N|]. intros x Hx.
    apply (Permutation_in _ (Permutation_sym (wsort_perm l))).
    apply (Permutation_in _ (Permutation_sym (crun_perm _ _ H1))). apply in_app_iff. auto. }
  rewrite filter_keep_id in H2 by auto. rewrite H2, wd_mask3, <- (wsort_word l S).
  apply crun_word; auto.
  - apply sorted_wnlt_wle, wsort_sorted.
  - rewrite wsort_word; auto.
Qed.

Definition nfs (s : shard R) : Prop := nf (wd (s_data s)) = true.

Lemma sfs_word : forall m s, shard_from_shards by_version m = Ok s -> Forall nodel (sdata m) ->
  Forall shard_ok m -> Forall nfs m -> nii (wd (sdata m)) = true ->
  red (wd (sdata m)) (wd (s_data s)) /\ nfs s.
Proof.
  intros m s H N OK NF NI. destruct (sfs_ok by_version m s H) as (_ & evs & H1 & H2 & _).
  assert (NE : Forall nodel (emits evs)).
  { eapply nodel_in; [exact N|]. intros x Hx.
    apply (Permutation_in _ (Permutation_sym (mrun_perm _ _ _ H1))). apply in_app_iff. auto. }
  rewrite filter_keep_id in H2 by auto. unfold nfs. rewrite H2. apply mrun_word; auto.
  - apply Forall_map. eapply Forall_impl; [|exact OK]. intros x (_ & _ & K). auto.
  - apply Forall_map. auto.
Qed.

Lemma seg_steps_word : forall a b, seg_steps by_version a b -> Forall nodel (sdata a) ->
  Forall shard_ok a -> Forall nfs a -> nii (wd (sdata a)) = true ->
  red (wd (sdata a)) (wd (sdata b)) /\ Forall nfs b.
Proof.
  induction 1 as [a|a b c H SS IH]; intros N OK NF NI; [split; auto; apply rd_refl|].
  assert (K : red (wd (sdata a)) (wd (sdata b)) /\ Forall nfs b).
  { clear IH SS. inv H.
    - rewrite !sdata_app in *. change (s :: b0) with ([s] ++ b0). rewrite sdata_app.
      assert (ES : sdata [s] = s_data s) by (unfold sdata; simpl; apply app_nil_r).
      rewrite ES. rewrite !Forall_app in *. rewrite !wd_app in *.
      destruct (nii_app _ _ NI) as [_ N1]. destruct (nii_app _ _ N1) as [N2 _].
      destruct (sfs_word m s) as [W1 W2]; try tauto.
      split; [apply red_ctx; auto|]. split; [tauto|]. split; [constructor; auto|tauto].
    - rewrite !sdata_app, (sdata_empty m), !Forall_app in * by auto. simpl. split; [apply rd_refl|tauto]. }
  destruct K as [K1 K2]. destruct (red_keeps _ _ K1 NI) as [K3 _].
  destruct (IH (proj1 (seg_step_cancel by_version _ _ H N))) as [I1 I2]; auto.
  - eapply (seg_steps_ok by_version); [apply seg_steps_one; eauto|auto].
  - split; auto. eapply red_trans; eauto.
Qed.

(** ** Histories *)

Variable C : cfg.
Hypothesis V : valid_cfg C.

Local Lemma LW : 1 <= c_lwm C. Proof. destruct V as (? & ? & ? & ?). auto. Qed.
Local Lemma WM : c_lwm C <= c_hwm C. Proof. destruct V as (? & ? & ? & ?). auto. Qed.
Local Lemma SF : 1 <= c_sf C. Proof. destruct V as (? & ? & ? & ?). auto. Qed.

Lemma entries_sorted : forall ops p, (forall i j, i < j -> j < length ops ->
    posmod C (p + i) < posmod C (p + j)) -> (N.of_nat (2 * c_hwm C) <= 2 ^ 29)%N ->
  StronglySorted hless (entries C p ops).
Proof.
  induction ops as [|[x ts] ops IH]; simpl; intros p H B; constructor.
  - apply IH; auto. intros i j I J. specialize (H (S i) (S j)). 
    replace (S p + i) with (p + S i) by lia. replace (S p + j) with (p + S j) by lia. apply H; lia.
  - apply Forall_forall. intros w Hw. apply In_nth_error in Hw as (k & Hk).
    assert (NE : forall (l : list (R * bool)) q k w, nth_error (entries C q l) k = Some w ->
      k < length l /\ exists y t, w = append_rec y t (posmod C (q + k))).
    { clear. induction l as [|[y t] l IH]; simpl; intros q k w H; [destruct k; discriminate|].
      destruct k; simpl in H.
      - inv H. split; [lia|]. rewrite Nat.add_0_r. eauto.
      - apply IH in H as (L & y' & t' & ->). split; [lia|]. exists y', t'. do 2 f_equal. lia. }
    destruct (NE _ _ _ _ Hk) as (L & y & t & ->). apply append_rec_hless.
    + specialize (H 0 (S k)). rewrite Nat.add_0_r in H. replace (S p + k) with (p + S k) by lia.
      apply H; lia.
    + unfold posmod. pose proof LW. pose proof WM.
      pose proof (Nat.mod_upper_bound (S p + k) (2 * c_hwm C)). lia.
Qed.

Lemma no_wrap_pos : forall k n len i j, no_wrap C n -> len <= c_lwm C ->
  k * c_lwm C + len <= n -> i < j -> j < len ->
  posmod C (k * c_lwm C + i) < posmod C (k * c_lwm C + j).
Proof.
  intros k n len i j NW L B I J. unfold posmod. pose proof LW. pose proof WM.
  set (cap := 2 * c_hwm C) in *. assert (cap <> 0) by (unfold cap; lia).
  destruct NW as [(q & Q)|S].
  - assert (CAP : cap = q * c_lwm C) by auto.
    pose proof (Nat.div_mod (k * c_lwm C) cap H1) as D.
    set (m := (k * c_lwm C) mod cap) in *.
    assert (MB : m < cap) by (apply Nat.mod_upper_bound; auto).
    assert (MM : exists a, m = a * c_lwm C).
    { exists (k - q * (k * c_lwm C / cap)). rewrite Nat.mul_sub_distr_r. 
      replace (q * (k * c_lwm C / cap) * c_lwm C) with (cap * (k * c_lwm C / cap)) by (rewrite CAP; lia). lia. }
    destruct MM as (a & MA).
    assert (AQ : a < q) by (rewrite CAP, MA in MB; apply Nat.mul_lt_mono_pos_r in MB; auto).
    assert (R1 : forall x, x < len -> (k * c_lwm C + x) mod cap = m + x).
    { intros x Hx. unfold m. rewrite <- (Nat.mod_small (((k * c_lwm C) mod cap) + x) cap).
      - rewrite Nat.add_mod_idemp_l by auto. auto.
      - fold m. rewrite MA, CAP. assert ((a + 1) * c_lwm C <= q * c_lwm C) by (apply Nat.mul_le_mono_r; lia). lia. }
    rewrite !R1 by lia. lia.
  - rewrite !Nat.mod_small by lia. lia.
Qed.

Lemma hist_sorted_win : forall n ops ss win pos, hist by_version C ops ss win pos ->
  no_wrap C n -> length ops <= n -> (N.of_nat (2 * c_hwm C) <= 2 ^ 29)%N -> StronglySorted hless win.
Proof.
  intros n ops ss win pos H NW L B.
  destruct (hist_win by_version C SF LW WM _ _ _ _ H) as (E & LE & LL & (k & ->) & _).
  rewrite E. apply entries_sorted; auto. intros i j I J. rewrite skipn_length in J.
  apply (no_wrap_pos k n (length win)); auto; lia.
Qed.

Lemma hist_ok : forall ops ss win pos, hist by_version C ops ss win pos -> Forall shard_ok ss.
Proof.
  induction 1; auto. eapply (seg_steps_ok by_version); eauto. apply Forall_app. split; auto.
  constructor; auto. rewrite built_sorted in H1. apply shard_of_ok in H1 as (_ & _ & _ & ?). auto.
Qed.

Lemma hist_word : forall n ops ss win pos, hist by_version C ops ss win pos ->
  no_wrap C n -> length ops <= n -> (N.of_nat (2 * c_hwm C) <= 2 ^ 29)%N ->
  nii (wdo ops) = true ->
  red (wdo ops) (wd (sdata ss ++ win)) /\ Forall nfs ss.
Proof.
  induction 1 as [|ops ss win pos x ts H IH LT|ops ss win pos x ts s ss' H IH LE ES SS];
    intros NW L B NI.
  - split; [apply rd_refl|constructor].
  - rewrite app_length in L. simpl in L. rewrite wdo_app in NI. destruct (nii_app _ _ NI) as [N1 _].
    destruct IH as [I1 I2]; auto; [lia|]. split; auto.
    rewrite app_assoc, wd_app, wdo_app. apply red_app; auto.
    unfold wd. simpl. rewrite rt_append. apply rd_refl.
  - rewrite app_length in L. simpl in L. rewrite wdo_app in NI. destruct (nii_app _ _ NI) as [N1 _].
    destruct IH as [I1 I2]; auto; [lia|].
    destruct (hist_cancel by_version C _ _ _ _ H) as (N & _). apply Forall_app in N as [D1 D2].
    destruct (red_keeps _ _ I1 N1) as [K1 _]. rewrite wd_app in K1. destruct (nii_app _ _ K1) as [K2 K3].
    assert (SW : StronglySorted hless win) by (eapply hist_sorted_win; eauto; lia).
    rewrite built_sorted in ES. destruct (shard_of_word _ _ ES D2 SW K3) as [W1 W2].
    assert (E1 : sdata [s] = s_data s) by (unfold sdata; simpl; apply app_nil_r).
    assert (R1 : red (wdo ops) (wd (sdata (ss ++ [s])))).
    { eapply red_trans; [exact I1|]. rewrite sdata_app, E1, !wd_app. apply red_app; auto. apply rd_refl. }
    destruct (red_keeps _ _ R1 N1) as [K4 _].
    destruct (seg_steps_word _ _ SS) as [S1 S2]; auto.
    + rewrite sdata_app, E1. apply Forall_app. split; auto. apply (shard_of_cancel _ _ ES D2).
    + apply Forall_app. split; [eapply hist_ok; eauto|]. constructor; auto.
      apply shard_of_ok in ES as (_ & _ & _ & ?). auto.
    + apply Forall_app. split; auto.
    + split; auto. rewrite wd_app, wdo_app. apply red_app; [eapply red_trans; eauto|].
      unfold wd. simpl. rewrite rt_append. apply rd_refl.
Qed.

(** The live copies of [r] are the last letter of its word. *)
Lemma live_word : forall ops : list (op R), never_doubled ops ->
  nii (wdo (map oplog ops)) = true /\
  occ r (live ops) = if last (wdo (map oplog ops)) true then 0 else 1.
Proof.
  assert (LA : forall l b, nii l = true -> (b = true \/ last l true = true) -> nii (l ++ [b]) = true).
  { induction l as [|x l IH]; simpl; intros b N D; [destruct b; auto|].
    apply andb_true_iff in N as [N1 N2]. rewrite IH; auto.
    - rewrite andb_true_r. destruct x; auto. simpl in *. destruct l as [|y l]; simpl; auto.
      destruct b; auto. destruct D; congruence.
    - destruct D; auto. destruct l; auto. }
  induction ops as [|o ops IH] using rev_ind; intros ND; [auto|].
  assert (ND' : never_doubled ops).
  { intros pre x post E. apply (ND pre x (post ++ [o])). rewrite E, <- app_assoc. auto. }
  destruct (IH ND') as [N L]. rewrite map_app, wdo_app.
  assert (LI : live (ops ++ [o]) = match o with Ins x => live ops ++ [x]
                | Del x => filter (fun y => negb (req x y)) (live ops) end).
  { unfold live. rewrite fold_left_app. auto. }
  rewrite LI. destruct o as [x|x]; cbn [map oplog].
  - assert (Z : occ x (live ops) = 0) by (apply (ND ops x []); auto).
    unfold wdo at 2 4. simpl. unfold occ in *. rewrite countb_app. simpl.
    destruct (req r x) eqn:E; simpl.
    + assert (ZR : countb (req r) (live ops) = 0).
      { rewrite <- Z. apply countb_ext. intros y _. apply req_congr. auto. }
      rewrite ZR in *. rewrite last_last. split; auto. apply LA; auto. right.
      destruct (last _ true); auto. discriminate.
    + rewrite app_nil_r. split; auto. lia.
  - unfold wdo at 2 4. simpl. unfold occ in *. destruct (req r x) eqn:E; simpl.
    + rewrite last_last. split; [apply LA; auto|]. apply countb_false. intros y Hy.
      apply filter_In in Hy as [_ Hy]. apply negb_true_iff in Hy. rewrite <- Hy. apply req_congr. auto.
    + rewrite app_nil_r. split; auto. rewrite <- L, !countb_filter. f_equal.
      clear -E RL. induction (live ops) as [|y l IH]; simpl; auto.
      destruct (req x y) eqn:EX; simpl.
      * assert (req r y = false) by (rewrite <- E; symmetry; apply req_congr_r; auto).
        rewrite H. auto.
      * destruct (req r y); rewrite IH; auto.
Qed.

Lemma n_plain_word : forall l, n_plain r l = countb negb (wd l).
Proof.
  unfold n_plain. induction l as [|w l IH]; simpl; auto. rewrite wd_cons, IH.
  destruct (req r (wrec w)), (is_ts w); auto.
Qed.

Theorem static_live : forall ops e rs e' s, c_del C = TOMBSTONE ->
  bsm_safe by_version C ops ->
  never_doubled ops -> no_wrap C (length ops) -> (N.of_nat (2 * c_hwm C) <= 2 ^ 29)%N ->
  run_new by_version C ops = Ok (e, rs) ->
  create_static_structure by_version e = Ok (e', s) ->
  e' = e /\ n_plain r (s_data s) = occ r (live ops) /\ sorted (s_data s).
Proof.
  intros ops e rs e' s TB BM ND NW B H CS.
  destruct (run_facts by_version C V ops e rs (tomb_appends C _ TB) (safe_ok by_version C _ BM) H)
    as (st & win & pos & I & S & HH & _ & _).
  destruct (static_ok by_version C SF LW WM _ _ _ _ _ _ _ I S CS) as (-> & m & ss & EM & SS & FS & OK).
  split; auto. destruct (live_word ops ND) as [NI LV].
  assert (LO : length (map oplog ops) <= length ops) by (rewrite map_length; auto).
  destruct (hist_word _ _ _ _ _ HH NW LO B NI) as [R1 F1].
  destruct (hist_cancel by_version C _ _ _ _ HH) as (N & _). apply Forall_app in N as [D1 D2].
  destruct (red_keeps _ _ R1 NI) as [K1 K2]. rewrite wd_app in K1. destruct (nii_app _ _ K1) as [K3 K4].
  destruct (seg_steps_word _ _ SS D1 (s_ok _ _ S) F1 K3) as [S1 S2].
  pose proof (proj1 (seg_steps_cancel by_version _ _ SS D1)) as DS.
  pose proof (seg_steps_ok by_version _ _ SS (s_ok _ _ S)) as OS.
  assert (KM : red (wd (sdata (age st) ++ win)) (wd (sdata m)) /\ Forall nfs m /\ Forall nodel (sdata m) /\
    Forall shard_ok m).
  { rewrite EM, sdata_app, !wd_app. destruct win as [|w win'].
    - cbn [sdata concat map]. rewrite !app_nil_r. auto.
    - destruct (shard_of_total (w :: win')) as [b Eb]. rewrite Eb.
      assert (SW : StronglySorted hless (w :: win')) by (eapply hist_sorted_win; eauto).
      destruct (shard_of_word _ _ Eb D2 SW K4) as [W1 W2].
      assert (E1 : sdata [b] = s_data b) by (unfold sdata; simpl; apply app_nil_r).
      rewrite E1. split; [apply red_app; auto|]. rewrite !Forall_app.
      split; [split; auto|]. split; [split; auto; apply (shard_of_cancel _ _ Eb D2)|].
      split; auto. constructor; auto. apply shard_of_ok in Eb as (_ & _ & _ & ?). auto. }
  destruct KM as (R2 & F2 & D3 & OM).
  pose proof (red_trans _ _ _ R1 R2) as R3. destruct (red_keeps _ _ R3 NI) as [K5 K6].
  destruct (sfs_word _ _ FS D3 OM F2 K5) as [R4 F4].
  destruct (red_keeps _ _ R4 K5) as [K7 K8].
  split; [|apply OK].
  rewrite LV, <- K6, <- K8, <- nf_count by auto.
  apply n_plain_word.
Qed.

End WP.

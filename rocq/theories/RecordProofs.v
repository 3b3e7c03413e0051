(** Consequences of the record laws; the laws for the library's record types;
    header bit lemmas. *)
From Coq Require Import List Arith ZArith NArith Lia Bool Sorted.
From Verif Require Import Base RecordModel.
Import ListNotations.

Section Laws.
Context {R : Type} {RO : RecOps R} {RL : RecLaws R}.

Lemma req_refl : forall a, req a a = true.
Proof. intros. apply req_spec. split; apply rlt_irrefl. Qed.

Lemma req_sym : forall a b, req a b = req b a.
Proof.
  intros. destruct (req a b) eqn:E1, (req b a) eqn:E2; auto.
  - apply req_spec in E1 as [H1 H2]. rewrite <- E2. symmetry. apply req_spec. auto.
  - apply req_spec in E2 as [H1 H2]. rewrite <- E1. apply req_spec. auto.
Qed.

Lemma rlt_asym : forall a b, rlt a b = true -> rlt b a = false.
Proof.
  intros. destruct (rlt b a) eqn:E; auto.
  pose proof (rlt_trans _ _ _ H E) as K. rewrite rlt_irrefl in K. discriminate.
Qed.

Lemma rlt_not_req : forall a b, rlt a b = true -> req a b = false.
Proof.
  intros. destruct (req a b) eqn:E; auto. apply req_spec in E as [E _]. congruence.
Qed.

Lemma rtri : forall a b, rlt a b = true \/ req a b = true \/ rlt b a = true.
Proof.
  intros. destruct (rlt a b) eqn:E1; auto. destruct (rlt b a) eqn:E2; auto.
  right; left. apply req_spec. auto.
Qed.

Lemma rlt_req_l : forall a b c, req a b = true -> rlt b c = true -> rlt a c = true.
Proof.
  intros. destruct (rtri a c) as [H1|[H1|H1]]; auto.
  - rewrite req_sym in H. pose proof (req_trans _ _ _ H H1) as K.
    apply req_spec in K as [K _]. congruence.
  - pose proof (rlt_trans _ _ _ H0 H1) as K. apply req_spec in H as [_ H]. congruence.
Qed.

Lemma rlt_req_r : forall a b c, rlt a b = true -> req b c = true -> rlt a c = true.
Proof.
  intros. destruct (rtri a c) as [H1|[H1|H1]]; auto.
  - rewrite req_sym in H0. pose proof (req_trans _ _ _ H1 H0) as K.
    apply req_spec in K as [K _]. congruence.
  - pose proof (rlt_trans _ _ _ H1 H) as K. apply req_spec in H0 as [_ H0]. congruence.
Qed.

Lemma req_congr : forall a b c, req a b = true -> req a c = req b c.
Proof.
  intros. destruct (req a c) eqn:E1, (req b c) eqn:E2; auto.
  - rewrite req_sym in H. rewrite (req_trans _ _ _ H E1) in E2. discriminate.
  - rewrite (req_trans _ _ _ H E2) in E1. discriminate.
Qed.

Lemma req_congr_r : forall a b c, req a b = true -> req c a = req c b.
Proof. intros. rewrite (req_sym c a), (req_sym c b). apply req_congr; auto. Qed.

(** The non-strict record order. *)
Definition rle (a b : R) : Prop := rlt b a = false.

Lemma rle_refl : forall a, rle a a.
Proof. intros. apply rlt_irrefl. Qed.

Lemma rle_trans : forall a b c, rle a b -> rle b c -> rle a c.
Proof.
  unfold rle. intros. destruct (rlt c a) eqn:E; auto.
  destruct (rtri b c) as [H1|[H1|H1]]; try congruence.
  - rewrite (rlt_trans _ _ _ H1 E) in H. discriminate.
  - rewrite (rlt_req_l _ _ _ H1 E) in H. discriminate.
Qed.

Lemma rlt_rle : forall a b, rlt a b = true -> rle a b.
Proof. intros. apply rlt_asym. auto. Qed.

Lemma req_rle : forall a b, req a b = true -> rle a b.
Proof. intros. apply req_spec in H. tauto. Qed.

Lemma rle_cases : forall a b, rle a b -> rlt a b = true \/ req a b = true.
Proof. intros. destruct (rtri a b) as [H1|[H1|H1]]; auto. unfold rle in H. congruence. Qed.

Lemma rle_antisym : forall a b, rle a b -> rle b a -> req a b = true.
Proof. unfold rle. intros. apply req_spec. auto. Qed.

(** The order of wrapped records by record. *)
Definition wle (a b : wrapped R) : Prop := rle (wrec a) (wrec b).

Lemma wle_refl : forall a, wle a a.
Proof. intros. apply rle_refl. Qed.

Lemma wle_trans : forall a b c, wle a b -> wle b c -> wle a c.
Proof. unfold wle. intros. eapply rle_trans; eauto. Qed.

(** Wrapped::operator< is a strict weak order that refines the record order. *)
Lemma wlt_irrefl : forall a : wrapped R, wlt a a = false.
Proof. intros. unfold wlt. rewrite rlt_irrefl, N.ltb_irrefl, andb_false_r. auto. Qed.

Lemma wlt_cases : forall a b : wrapped R, wlt a b = true ->
  rlt (wrec a) (wrec b) = true \/ (req (wrec a) (wrec b) = true /\ (hdr a < hdr b)%N).
Proof.
  unfold wlt. intros. apply orb_true_iff in H as [H|H]; auto.
  apply andb_true_iff in H as [H1 H2]. apply N.ltb_lt in H2. auto.
Qed.

Lemma wlt_rec : forall a b : wrapped R, rlt (wrec a) (wrec b) = true -> wlt a b = true.
Proof. unfold wlt. intros. rewrite H. auto. Qed.

Lemma wlt_hdr : forall a b : wrapped R,
  req (wrec a) (wrec b) = true -> (hdr a < hdr b)%N -> wlt a b = true.
Proof. unfold wlt. intros. apply N.ltb_lt in H0. rewrite H, H0. apply orb_true_r. Qed.

Lemma wlt_trans : forall a b c : wrapped R, wlt a b = true -> wlt b c = true -> wlt a c = true.
Proof.
  intros. apply wlt_cases in H. apply wlt_cases in H0.
  destruct H as [H|[H H']], H0 as [H0|[H0 H0']].
  - apply wlt_rec. eapply rlt_trans; eauto.
  - apply wlt_rec. eapply rlt_req_r; eauto.
  - apply wlt_rec. eapply rlt_req_l; eauto.
  - apply wlt_hdr. eapply req_trans; eauto. lia.
Qed.

Lemma wlt_wle : forall a b : wrapped R, wlt a b = true -> wle a b.
Proof.
  intros. apply wlt_cases in H as [H|[H _]]; [apply rlt_rle | apply req_rle]; auto.
Qed.

Lemma not_wlt_wle : forall a b : wrapped R, wlt a b = false -> wle b a.
Proof.
  unfold wlt, wle, rle. intros. apply orb_false_iff in H. tauto.
Qed.

Lemma not_wlt_cases : forall a b : wrapped R, wlt a b = false ->
  rlt (wrec b) (wrec a) = true \/ (req (wrec a) (wrec b) = true /\ (hdr b <= hdr a)%N).
Proof.
  intros. destruct (rtri (wrec a) (wrec b)) as [H1|[H1|H1]]; auto.
  - rewrite (wlt_rec _ _ H1) in H. discriminate.
  - right. split; auto. destruct (N.lt_ge_cases (hdr a) (hdr b)); auto.
    rewrite (wlt_hdr _ _ H1 H0) in H. discriminate.
Qed.

End Laws.

(** ** Header lemmas *)

Lemma testbit_land_pow2 : forall h k, negb (N.land h (2 ^ k) =? 0)%N = N.testbit h k.
Proof.
  intros. destruct (N.testbit h k) eqn:E.
  - apply negb_true_iff. apply N.eqb_neq. intro H.
    assert (N.testbit (N.land h (2 ^ k)) k = true).
    { rewrite N.land_spec, E, N.pow2_bits_true. auto. }
    rewrite H, N.bits_0 in H0. discriminate.
  - apply negb_false_iff. apply N.eqb_eq. apply N.bits_inj. intro j.
    rewrite N.land_spec, N.bits_0, N.pow2_bits_eqb.
    destruct (N.eqb_spec k j); subst; [rewrite E|]; auto. apply andb_false_r.
Qed.

Lemma h_is_tombstone_bit : forall h, h_is_tombstone h = N.testbit h 0.
Proof. intros. unfold h_is_tombstone. apply (testbit_land_pow2 h 0). Qed.
Lemma h_is_deleted_bit : forall h, h_is_deleted h = N.testbit h 1.
Proof. intros. unfold h_is_deleted. apply (testbit_land_pow2 h 1). Qed.
Lemma h_is_visible_bit : forall h, h_is_visible h = N.testbit h 2.
Proof. intros. unfold h_is_visible. apply (testbit_land_pow2 h 2). Qed.

Lemma mask3_ts : forall {R} (w : wrapped R), is_ts (mask3 w) = is_ts w.
Proof.
  intros. unfold is_ts, mask3. simpl. rewrite !h_is_tombstone_bit, N.land_spec.
  change (N.testbit 3 0) with true. apply andb_true_r.
Qed.
Lemma mask3_del : forall {R} (w : wrapped R), is_del (mask3 w) = is_del w.
Proof.
  intros. unfold is_del, mask3. simpl. rewrite !h_is_deleted_bit, N.land_spec.
  change (N.testbit 3 1) with true. apply andb_true_r.
Qed.

(** ** The library's record types satisfy the laws *)

Ltac zb := repeat match goal with
  | H : (_ || _) = true |- _ => apply orb_true_iff in H
  | H : (_ && _) = true |- _ => apply andb_true_iff in H
  | H : (_ || _) = false |- _ => apply orb_false_iff in H
  | H : (_ && _) = false |- _ => apply andb_false_iff in H
  | H : _ /\ _ |- _ => destruct H
  | H : _ \/ _ |- _ => destruct H
  | H : (_ <? _)%Z = true |- _ => apply Z.ltb_lt in H
  | H : (_ <? _)%Z = false |- _ => apply Z.ltb_ge in H
  | H : (_ =? _)%Z = true |- _ => apply Z.eqb_eq in H
  | H : (_ =? _)%Z = false |- _ => apply Z.eqb_neq in H
  end.

#[global] Instance kv_laws : RecLaws kv.
Proof.
  constructor; unfold rlt, req, kv_ops, kv_lt, kv_eq.
  - intros. rewrite !Z.ltb_irrefl, andb_false_r. auto.
  - intros a b c H1 H2. zb; apply orb_true_iff; try (left; apply Z.ltb_lt; lia).
    right. apply andb_true_iff. split; [apply Z.eqb_eq | apply Z.ltb_lt]; lia.
  - intros. split; intro H.
    + zb. split; apply orb_false_iff; (split; [apply Z.ltb_ge; lia|]);
        apply andb_false_iff; right; apply Z.ltb_ge; lia.
    + destruct H as [H1 H2]. apply andb_true_iff. split; apply Z.eqb_eq; zb; lia.
  - intros. zb. apply andb_true_iff. split; apply Z.eqb_eq; lia.
Qed.

#[global] Instance kv_keylaws : KeyLaws kv.
Proof.
  constructor; unfold rlt, req, kv_ops, kv_lt, kv_eq, rkey, kv_key; intros; zb; lia.
Qed.

#[global] Instance wkv_laws : RecLaws wkv.
Proof.
  constructor; unfold rlt, req, wkv_ops, wkv_lt, wkv_eq.
  - intros. rewrite !Z.ltb_irrefl, andb_false_r. auto.
  - intros a b c H1 H2. zb; apply orb_true_iff; try (left; apply Z.ltb_lt; lia).
    right. apply andb_true_iff. split; [apply Z.eqb_eq | apply Z.ltb_lt]; lia.
  - intros. split; intro H.
    + zb. split; apply orb_false_iff; (split; [apply Z.ltb_ge; lia|]);
        apply andb_false_iff; right; apply Z.ltb_ge; lia.
    + destruct H as [H1 H2]. apply andb_true_iff. split; apply Z.eqb_eq; zb; lia.
  - intros. zb. apply andb_true_iff. split; apply Z.eqb_eq; lia.
Qed.

#[global] Instance wkv_keylaws : KeyLaws wkv.
Proof.
  constructor; unfold rlt, req, wkv_ops, wkv_lt, wkv_eq, rkey, wkv_key; intros; zb; lia.
Qed.

(** Record orders and header flags. *)
From Coq Require Import List Arith ZArith NArith Lia Bool.
From Verif Require Import Base ListLemmas RecordModel RecordProofs Spec.
Import ListNotations.

(** ** Orders *)

Lemma laws_swo : forall {R} {RO : RecOps R} {RL : RecLaws R}, strict_weak_order (rlt (R := R)) req.
Proof.
  intros. split; [apply rlt_irrefl|]. split; [apply rlt_trans|]. split; [apply req_spec|apply req_trans].
Qed.

(** Record<K,V> for any key and value type with lawful comparisons. *)
Lemma pair_swo : forall {K V} {KR : RecOps K} {KL : RecLaws K} {VR : RecOps V} {VL : RecLaws V},
  strict_weak_order (rec_lt (K := K) (V := V)) rec_eq.
Proof.
  intros. unfold strict_weak_order, rec_lt, rec_eq. split; [|split; [|split]].
  - intros [k v]. cbn [fst snd]. rewrite !rlt_irrefl, andb_false_r. auto.
  - intros [k1 v1] [k2 v2] [k3 v3]. cbn [fst snd]. intros H1 H2.
    apply orb_true_iff in H1. apply orb_true_iff in H2. apply orb_true_iff.
    rewrite !andb_true_iff in *.
    destruct H1 as [H1|[H1 H1']], H2 as [H2|[H2 H2']].
    + left. eapply rlt_trans; eauto.
    + left. eapply rlt_req_r; eauto.
    + left. eapply rlt_req_l; eauto.
    + right. split; [eapply req_trans; eauto|eapply rlt_trans; eauto].
  - intros [k1 v1] [k2 v2]. cbn [fst snd]. rewrite andb_true_iff. split.
    + intros [H1 H2]. pose proof H1 as H1'. apply req_spec in H1. apply req_spec in H2.
      destruct H1 as [-> ->], H2 as [-> ->]. rewrite !andb_false_r. auto.
    + intros [H1 H2]. apply orb_false_iff in H1 as [H1 H1']. apply orb_false_iff in H2 as [H2 H2'].
      assert (E : req k1 k2 = true) by (apply req_spec; auto). split; auto.
      rewrite (req_sym k2 k1), E in H2'. rewrite E in H1'. cbn [andb] in *. apply req_spec. auto.
  - intros [k1 v1] [k2 v2] [k3 v3]. cbn [fst snd]. rewrite !andb_true_iff. intros [H1 H2] [H3 H4].
    split; eapply req_trans; eauto.
Qed.

(** Points of equal dimension. *)
Lemma pt_eq_iff : forall a b, length a = length b -> (pt_eq a b = true <-> a = b).
Proof.
  induction a as [|x a IH]; destruct b as [|y b]; simpl; intros H; try discriminate; [tauto|].
  destruct (Z.eqb_spec x y); simpl.
  - subst. rewrite IH by congruence. split; congruence.
  - split; congruence.
Qed.
Lemma pt_lt_irrefl : forall a, pt_lt a a = false.
Proof. induction a as [|x a IH]; simpl; auto. rewrite Z.ltb_irrefl. auto. Qed.
Lemma pt_lt_trans : forall a b c, length a = length b -> length b = length c ->
  pt_lt a b = true -> pt_lt b c = true -> pt_lt a c = true.
Proof.
  induction a as [|x a IH]; destruct b as [|y b]; destruct c as [|z c]; simpl; intros; try discriminate.
  destruct (Z.ltb_spec x y), (Z.ltb_spec y x), (Z.ltb_spec y z), (Z.ltb_spec z y),
    (Z.ltb_spec x z), (Z.ltb_spec z x); auto; try lia; try discriminate.
  eapply IH; [| |eauto|eauto]; congruence.
Qed.
Lemma pt_lt_tri : forall a b, length a = length b ->
  (a = b <-> pt_lt a b = false /\ pt_lt b a = false).
Proof.
  induction a as [|x a IH]; destruct b as [|y b]; simpl; intros H; try discriminate; [tauto|].
  destruct (Z.ltb_spec x y), (Z.ltb_spec y x); try lia.
  - split; [intro E; inv E; lia|intros [? ?]; discriminate].
  - split; [intro E; inv E; lia|intros [? ?]; discriminate].
  - assert (x = y) by lia. subst. rewrite <- IH by congruence. split; congruence.
Qed.

(** A point type of dimension [d]. *)
Definition point (d : nat) : Type := { l : list Z | length l = d }.
Lemma point_swo : forall d, strict_weak_order (fun a b : point d => pt_lt (proj1_sig a) (proj1_sig b))
                                              (fun a b => pt_eq (proj1_sig a) (proj1_sig b)).
Proof.
  intros d. split; [|split; [|split]].
  - intros [a A]. apply pt_lt_irrefl.
  - intros [a A] [b B] [c C]. simpl. apply pt_lt_trans; congruence.
  - intros [a A] [b B]. simpl. rewrite pt_eq_iff by congruence. apply pt_lt_tri. congruence.
  - intros [a A] [b B] [c C]. simpl. rewrite !pt_eq_iff by congruence. congruence.
Qed.

(** C strings: [strncmp] of min(len)+1 characters is the full comparison. *)
Fixpoint scmp (a b : list N) : comparison :=
  match a, b with
  | [], [] => Eq | [], _ :: _ => Lt | _ :: _, [] => Gt
  | x :: a', y :: b' => match N.compare x y with Eq => scmp a' b' | c => c end
  end.
Lemma strncmp_full : forall a b n, min (length a) (length b) < n -> strncmp n a b = scmp a b.
Proof.
  induction a as [|x a IH]; destruct b as [|y b]; intros n H; destruct n; simpl in *; auto; try lia.
  destruct (N.compare x y); auto. apply IH. lia.
Qed.
Lemma scmp_eq : forall a b, scmp a b = Eq <-> a = b.
Proof.
  induction a as [|x a IH]; destruct b as [|y b]; simpl; try (split; congruence).
  destruct (N.compare_spec x y).
  - subst. rewrite IH. split; congruence.
  - split; [discriminate|]. intro E. inv E. lia.
  - split; [discriminate|]. intro E. inv E. lia.
Qed.
Lemma scmp_sym : forall a b, scmp b a = CompOpp (scmp a b).
Proof.
  induction a as [|x a IH]; destruct b as [|y b]; simpl; auto.
  rewrite N.compare_antisym. destruct (N.compare x y); simpl; auto.
Qed.
Lemma scmp_trans : forall a b c, scmp a b = Lt -> scmp b c = Lt -> scmp a c = Lt.
Proof.
  induction a as [|x a IH]; destruct b as [|y b]; destruct c as [|z c]; simpl; auto; try discriminate.
  destruct (N.compare_spec x y), (N.compare_spec y z), (N.compare_spec x z); subst;
    auto; try discriminate; try lia; eauto.
Qed.

(** String records whose length field is the string length. *)
Definition strrec : Type := { r : skv | sk_len r = length (sk_key r) }.
Lemma skv_cmp : forall a b : strrec,
  strncmp (Nat.min (sk_len (proj1_sig a)) (sk_len (proj1_sig b)) + 1)
          (sk_key (proj1_sig a)) (sk_key (proj1_sig b)) =
  scmp (sk_key (proj1_sig a)) (sk_key (proj1_sig b)).
Proof. intros [a A] [b B]. simpl. apply strncmp_full. lia. Qed.
Lemma strrec_swo : strict_weak_order (fun a b : strrec => skv_lt (proj1_sig a) (proj1_sig b))
                                     (fun a b => skv_eq (proj1_sig a) (proj1_sig b)).
Proof.
  unfold skv_lt, skv_eq. split; [|split; [|split]].
  - intros a. rewrite skv_cmp. rewrite (proj2 (scmp_eq _ _)); auto.
  - intros a b c. rewrite !skv_cmp. intros H1 H2.
    destruct (scmp (sk_key (proj1_sig a)) (sk_key (proj1_sig b))) eqn:E1; try discriminate.
    destruct (scmp (sk_key (proj1_sig b)) (sk_key (proj1_sig c))) eqn:E2; try discriminate.
    rewrite (scmp_trans _ _ _ E1 E2). auto.
  - intros a b. rewrite !skv_cmp. rewrite (scmp_sym (sk_key (proj1_sig a)) (sk_key (proj1_sig b))).
    destruct (scmp (sk_key (proj1_sig a)) (sk_key (proj1_sig b))); simpl; split; intuition congruence.
  - intros a b c. rewrite !skv_cmp. intros H1 H2.
    destruct (scmp (sk_key (proj1_sig a)) (sk_key (proj1_sig b))) eqn:E1; try discriminate.
    destruct (scmp (sk_key (proj1_sig b)) (sk_key (proj1_sig c))) eqn:E2; try discriminate.
    apply scmp_eq in E1. apply scmp_eq in E2. rewrite (proj2 (scmp_eq _ _)); congruence.
Qed.

(** The order of wrapped records. *)
Lemma wrapped_swo : forall {R} {RO : RecOps R} {RL : RecLaws R},
  strict_weak_order (wlt (R := R)) (fun a b => req (wrec a) (wrec b) && (hdr a =? hdr b)%N).
Proof.
  intros. split; [apply wlt_irrefl|]. split; [apply wlt_trans|]. split.
  - intros a b. rewrite andb_true_iff, N.eqb_eq. unfold wlt. split.
    + intros [E H]. rewrite H, !N.ltb_irrefl, !andb_false_r. apply req_spec in E. destruct E as [-> ->]. auto.
    + intros [H1 H2]. apply orb_false_iff in H1 as [H1 H1']. apply orb_false_iff in H2 as [H2 H2'].
      assert (E : req (wrec a) (wrec b) = true) by (apply req_spec; auto).
      rewrite (req_sym (wrec b)), E in H2'. rewrite E in H1'. cbn [andb] in *.
      apply N.ltb_ge in H1'. apply N.ltb_ge in H2'. split; auto. lia.
  - intros a b c. rewrite !andb_true_iff, !N.eqb_eq. intros [H1 H2] [H3 H4].
    split; [eapply req_trans; eauto|congruence].
Qed.

(** ** Header flags *)

Lemma fields_bits : forall h, fields_of h =
  Fields (N.testbit h 0) (N.testbit h 1) (N.testbit h 2) (N.shiftr h 3).
Proof. intros. unfold fields_of. rewrite N.shiftr_div_pow2. auto. Qed.

Lemma shiftr_lor_low : forall h c, N.shiftr c 3 = 0%N -> N.shiftr (N.lor h c) 3 = N.shiftr h 3.
Proof. intros. rewrite N.shiftr_lor, H, N.lor_0_r. auto. Qed.

Lemma set_delete_fields : forall h, let f := fields_of h in
  fields_of (h_set_delete h) = Fields (f_ts f) true (f_vis f) (f_time f).
Proof.
  intros. subst f. rewrite !fields_bits. unfold h_set_delete. rewrite shiftr_lor_low by reflexivity.
  rewrite !N.lor_spec. cbn [f_ts f_vis f_time].
  change (N.testbit 2 0) with false. change (N.testbit 2 1) with true. change (N.testbit 2 2) with false.
  rewrite !orb_false_r, orb_true_r. auto.
Qed.

Lemma set_visible_fields : forall h, let f := fields_of h in
  fields_of (h_set_visible h) = Fields (f_ts f) (f_del f) true (f_time f).
Proof.
  intros. subst f. rewrite !fields_bits. unfold h_set_visible. rewrite shiftr_lor_low by reflexivity.
  rewrite !N.lor_spec. cbn [f_ts f_del f_time].
  change (N.testbit 4 0) with false. change (N.testbit 4 1) with false. change (N.testbit 4 2) with true.
  rewrite !orb_false_r, orb_true_r. auto.
Qed.

Lemma set_tombstone_fields : forall h, let f := fields_of h in
  fields_of (h_set_tombstone true h) = Fields true (f_del f) (f_vis f) (f_time f).
Proof.
  intros. subst f. rewrite !fields_bits. unfold h_set_tombstone. rewrite shiftr_lor_low by reflexivity.
  rewrite !N.lor_spec. cbn [f_vis f_del f_time].
  change (N.testbit 1 0) with true. change (N.testbit 1 1) with false. change (N.testbit 1 2) with false.
  rewrite !orb_false_r, orb_true_r. auto.
Qed.

Lemma w32_shift : forall ts, (ts < 2 ^ 29)%N -> w32 (N.shiftl ts 3) = N.shiftl ts 3.
Proof.
  intros. unfold w32. apply N.mod_small. rewrite N.shiftl_mul_pow2.
  change (2 ^ 32)%N with (2 ^ 29 * 2 ^ 3)%N. nia.
Qed.

Lemma set_timestamp_fields : forall ts h, (ts < 2 ^ 29)%N -> let f := fields_of h in
  fields_of (h_set_timestamp ts h) = Fields (f_ts f) (f_del f) (f_vis f) (N.lor (f_time f) ts).
Proof.
  intros ts h H f. subst f. rewrite !fields_bits. unfold h_set_timestamp. rewrite w32_shift by auto.
  rewrite N.shiftr_lor, N.shiftr_shiftl_l by lia. rewrite N.sub_diag, N.shiftl_0_r.
  rewrite !N.lor_spec. cbn [f_vis f_del f_ts f_time].
  rewrite !N.shiftl_spec_low by lia. rewrite !orb_false_r. auto.
Qed.

Lemma clear_timestamp_fields : forall h, let f := fields_of h in
  fields_of (h_clear_timestamp h) = Fields (f_ts f) (f_del f) (f_vis f) 0.
Proof.
  intros. subst f. rewrite !fields_bits. unfold h_clear_timestamp.
  rewrite N.shiftr_land. change (N.shiftr 7 3) with 0%N. rewrite N.land_0_r.
  rewrite !N.land_spec. cbn [f_vis f_del f_ts].
  change (N.testbit 7 0) with true. change (N.testbit 7 1) with true. change (N.testbit 7 2) with true.
  rewrite !andb_true_r. auto.
Qed.

Lemma read_fields : forall h,
  h_is_tombstone h = f_ts (fields_of h) /\ h_is_deleted h = f_del (fields_of h) /\
  h_is_visible h = f_vis (fields_of h) /\ h_get_timestamp h = f_time (fields_of h).
Proof.
  intros. rewrite fields_bits. cbn [f_ts f_del f_vis f_time].
  rewrite h_is_tombstone_bit, h_is_deleted_bit, h_is_visible_bit. auto.
Qed.

(** No setter leaves 32 bits. *)
Lemma lor_32 : forall a b, (a < 2 ^ 32)%N -> (b < 2 ^ 32)%N -> (N.lor a b < 2 ^ 32)%N.
Proof.
  intros a b Ha Hb. destruct (N.eq_dec (N.lor a b) 0) as [->|NZ]; [reflexivity|].
  apply N.log2_lt_pow2; [lia|]. rewrite N.log2_lor.
  assert (L : forall x, (x < 2 ^ 32)%N -> (N.log2 x < 32)%N).
  { intros x Hx. destruct (N.eq_dec x 0) as [->|Nx]; [reflexivity|]. apply N.log2_lt_pow2; lia. }
  apply N.max_lub_lt; auto.
Qed.

Lemma setters_32 : forall h ts, (h < 2 ^ 32)%N ->
  (h_set_delete h < 2 ^ 32)%N /\ (h_set_visible h < 2 ^ 32)%N /\ (h_set_tombstone true h < 2 ^ 32)%N /\
  (h_set_timestamp ts h < 2 ^ 32)%N.
Proof.
  intros. repeat split; apply lor_32; auto; try reflexivity.
  unfold w32. apply N.mod_lt. discriminate.
Qed.

Lemma header_flags : forall h ts, (h < 2 ^ 32)%N -> (ts < 2 ^ 29)%N -> let f := fields_of h in
  (h_is_tombstone h = f_ts f /\ h_is_deleted h = f_del f /\ h_is_visible h = f_vis f /\
   h_get_timestamp h = f_time f) /\
  fields_of (h_set_delete h) = Fields (f_ts f) true (f_vis f) (f_time f) /\
  fields_of (h_set_visible h) = Fields (f_ts f) (f_del f) true (f_time f) /\
  fields_of (h_set_tombstone true h) = Fields true (f_del f) (f_vis f) (f_time f) /\
  (f_time f = 0%N -> fields_of (h_set_timestamp ts h) = Fields (f_ts f) (f_del f) (f_vis f) ts) /\
  fields_of (h_clear_timestamp h) = Fields (f_ts f) (f_del f) (f_vis f) 0 /\
  (h_set_delete h < 2 ^ 32 /\ h_set_visible h < 2 ^ 32 /\ h_set_tombstone true h < 2 ^ 32 /\
   h_set_timestamp ts h < 2 ^ 32)%N.
Proof.
  intros h ts Hh Ht f. split; [apply read_fields|]. split; [apply set_delete_fields|].
  split; [apply set_visible_fields|]. split; [apply set_tombstone_fields|].
  split; [|split; [apply clear_timestamp_fields|apply setters_32; auto]].
  intro E. rewrite set_timestamp_fields by auto. fold f. rewrite E. auto.
Qed.

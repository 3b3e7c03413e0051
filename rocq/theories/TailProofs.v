(** Which positions survive the conversion to int32_t. *)
From Coq Require Import List Arith ZArith NArith Lia Bool.
From Verif Require Import Base ListLemmas RecordModel RecordProofs BufferModel BufferProofs ContentProofs TailModel.
Import ListNotations.

Lemma slot_small : forall cap p, (cap <> 0)%N -> (p < 2 ^ 31)%N -> append_slot cap p = Some (p mod cap)%N.
Proof.
  intros cap p C H. unfold append_slot, to_i32, to_size_t.
  assert (HZ : (0 <= Z.of_N p < 2 ^ 31)%Z) by lia.
  rewrite (Z.mod_small (Z.of_N p)) by lia.
  destruct (Z.ltb_spec (Z.of_N p) (2 ^ 31)); [|lia].
  destruct (Z.eqb_spec (Z.of_N p) (-1)); [lia|].
  rewrite Z.mod_small by lia. rewrite N2Z.id. auto.
Qed.

Lemma slot_none : forall cap p, append_slot cap p = None <-> (p mod 2 ^ 32 = 2 ^ 32 - 1)%N.
Proof.
  intros cap p. unfold append_slot, to_i32.
  assert (E : (Z.of_N p mod 2 ^ 32 = Z.of_N (p mod 2 ^ 32))%Z) by (rewrite N2Z.inj_mod; auto).
  rewrite E. assert (L : (p mod 2 ^ 32 < 2 ^ 32)%N) by (apply N.mod_lt; discriminate).
  generalize dependent (p mod 2 ^ 32)%N. intros u _ L.
  change (2 ^ 32)%N with 4294967296%N in *. change (2 ^ 32)%Z with 4294967296%Z in *.
  change (2 ^ 31)%Z with 2147483648%Z in *.
  destruct (Z.ltb_spec (Z.of_N u) 2147483648).
  - destruct (Z.eqb_spec (Z.of_N u) (-1)); [lia|]. split; [discriminate|]. lia.
  - destruct (Z.eqb_spec (Z.of_N u - 4294967296) (-1)); split; intro; try discriminate; auto; lia.
Qed.

Lemma slot_pow2 : forall k p, (k <= 32)%N -> (p mod 2 ^ 32 <> 2 ^ 32 - 1)%N ->
  append_slot (2 ^ k) p = Some (p mod 2 ^ k)%N.
Proof.
  intros k p K H. destruct (append_slot (2 ^ k) p) as [s|] eqn:A.
  2:{ apply slot_none in A. contradiction. }
  f_equal. unfold append_slot in A. destruct (_ =? _)%Z; [discriminate|]. inversion A. clear A H1 s.
  apply N2Z.inj. unfold to_size_t.
  assert (P2 : (2 ^ k <> 0)%N) by (apply N.pow_nonzero; discriminate).
  rewrite !N2Z.inj_mod, N2Z.inj_pow by auto. rewrite Z2N.id by (apply Z.mod_pos_bound; lia).
  change (Z.of_N 2) with 2%Z.
  assert (KZ : (0 <= Z.of_N k <= 32)%Z) by lia.
  assert (PK : (0 < 2 ^ Z.of_N k)%Z) by lia.
  assert (D32 : (2 ^ 32 = 2 ^ Z.of_N k * 2 ^ (32 - Z.of_N k))%Z).
  { rewrite <- Z.pow_add_r by lia. f_equal. lia. }
  assert (D64 : (2 ^ 64 = 2 ^ Z.of_N k * 2 ^ (64 - Z.of_N k))%Z).
  { rewrite <- Z.pow_add_r by lia. f_equal. lia. }
  assert (MM : forall x q, (0 < q)%Z -> ((x mod (2 ^ Z.of_N k * q)) mod 2 ^ Z.of_N k = x mod 2 ^ Z.of_N k)%Z).
  { intros x q Q. rewrite Z.rem_mul_r by lia.
    rewrite Z.mul_comm, Z_mod_plus_full. apply Z.mod_mod. lia. }
  rewrite D64, MM by lia. unfold to_i32.
  assert (U : ((Z.of_N p mod 2 ^ 32) mod 2 ^ Z.of_N k = Z.of_N p mod 2 ^ Z.of_N k)%Z).
  { rewrite D32, MM by lia. auto. }
  destruct (_ <? _)%Z; auto. rewrite <- U.
  rewrite <- (Z_mod_plus_full (Z.of_N p mod 2 ^ 32 - 2 ^ 32) (2 ^ (32 - Z.of_N k)) (2 ^ Z.of_N k)).
  f_equal. lia.
Qed.

Section TP.
Context {R : Type} {RO : RecOps R}.

Lemma append_same : forall (b : buffer R) r ts,
  append_slot (N.of_nat (b_cap b)) (N.of_nat (b_tail b)) = Some (N.of_nat (b_tail b mod b_cap b)) ->
  buf_append32 b r ts = buf_append b r ts.
Proof.
  intros b r ts H. unfold buf_append32, buf_append. destruct (_ <=? _); auto.
  rewrite H, Nat2N.id. auto.
Qed.

Lemma append_rec_vis : forall (r : R) ts p, is_vis (append_rec r ts p) = true.
Proof.
  intros. unfold is_vis, append_rec. cbn [hdr]. rewrite h_is_visible_bit. unfold h_set_visible.
  rewrite N.lor_spec. apply orb_true_r.
Qed.

Lemma stores_same : forall (b : buffer R) r ts,
  length (b_data b) = b_cap b -> b_cap b <> 0 ->
  buf_append32 b r ts = buf_append b r ts -> append_stores b r ts.
Proof.
  intros b r ts L C E. unfold append_stores. rewrite E. unfold buf_append. cbv zeta.
  destruct (Nat.leb_spec (b_hwm b) (b_tail b - hidx (b_head b))); cbn [fst snd b_tail b_data]; [left; auto|right].
  split; [auto|]. split; [auto|]. split; [auto|]. split.
  - eexists. split; [apply nth_error_set_nth_eq; rewrite L; apply Nat.mod_upper_bound; auto|].
    rewrite append_rec_rec, append_rec_ts, append_rec_vis, append_rec_del. auto.
  - intros i I. apply nth_error_set_nth_neq. auto.
Qed.

Theorem append32_small : forall (b : buffer R) r ts, length (b_data b) = b_cap b ->
  b_cap b <> 0 -> (N.of_nat (b_tail b) < 2 ^ 31)%N -> append_stores b r ts.
Proof.
  intros. apply stores_same; auto. apply append_same. rewrite slot_small by lia. f_equal. symmetry. apply Nat2N.inj_mod.
Qed.

Theorem append32_pow2 : forall (b : buffer R) r ts k, length (b_data b) = b_cap b ->
  (k <= 32)%N -> N.of_nat (b_cap b) = (2 ^ k)%N ->
  (N.of_nat (b_tail b) mod 2 ^ 32 <> 2 ^ 32 - 1)%N -> append_stores b r ts.
Proof.
  intros b r ts k L K E H. apply stores_same; auto.
  { assert (2 ^ k <> 0)%N by (apply N.pow_nonzero; discriminate). lia. }
  apply append_same. rewrite E, slot_pow2 by auto. f_equal.
  rewrite <- E. symmetry. apply Nat2N.inj_mod.
Qed.

(** At position 2^32 - 1 (and every 2^32 later) the slot is reserved, the record
    dropped and failure reported. *)
Theorem append32_lost : forall (b : buffer R) r ts, b_tail b - hidx (b_head b) < b_hwm b ->
  (N.of_nat (b_tail b) mod 2 ^ 32 = 2 ^ 32 - 1)%N ->
  snd (buf_append32 b r ts) = 0 /\ b_tail (fst (buf_append32 b r ts)) = S (b_tail b) /\
  b_data (fst (buf_append32 b r ts)) = b_data b.
Proof.
  intros b r ts F H. unfold buf_append32. destruct (Nat.leb_spec (b_hwm b) (b_tail b - hidx (b_head b))); [lia|].
  rewrite (proj2 (slot_none _ _) H). auto.
Qed.

End TP.

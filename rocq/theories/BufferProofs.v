(** Facts about the ring buffer and its views. *)
From Coq Require Import List Arith ZArith NArith Lia Bool.
From Verif Require Import Base ListLemmas RecordModel RecordProofs BufferModel.
Import ListNotations.

Section BP.
Context {R : Type} {RO : RecOps R}.

Definition wzero : wrapped R := W 0 rzero.

(** The records at positions head, head+1, .., head+n-1 of the ring [d]. *)
Definition ring (d : list (wrapped R)) (head n : nat) : list (wrapped R) :=
  map (fun p => nth (p mod length d) d wzero) (seq head n).

Lemma ring_length : forall d h n, length (ring d h n) = n.
Proof. intros. unfold ring. rewrite map_length, seq_length. auto. Qed.

Lemma nth_error_seq : forall n s i, i < n -> nth_error (seq s n) i = Some (s + i).
Proof.
  induction n; simpl; intros; [lia|]. destruct i; simpl.
  - rewrite Nat.add_0_r. auto.
  - rewrite IHn by lia. f_equal. lia.
Qed.

Lemma nth_error_ring : forall d h n i, i < n ->
  nth_error (ring d h n) i = Some (nth ((h + i) mod length d) d wzero).
Proof.
  intros. unfold ring. rewrite nth_error_map, nth_error_seq by auto. auto.
Qed.

Lemma nth_error_ext : forall {A} (l m : list A),
  length l = length m -> (forall i, i < length l -> nth_error l i = nth_error m i) -> l = m.
Proof.
  induction l; destruct m; simpl; intros; auto; try discriminate.
  f_equal.
  - specialize (H0 0 ltac:(lia)). simpl in H0. congruence.
  - apply IHl; [lia|]. intros. apply (H0 (S i)). lia.
Qed.

Lemma nth_error_firstn : forall {A} n (l : list A) i, i < n -> nth_error (firstn n l) i = nth_error l i.
Proof. induction n; destruct l; destruct i; simpl; intros; auto; try lia. apply IHn. lia. Qed.

Lemma nth_error_skipn : forall {A} n (l : list A) i, nth_error (skipn n l) i = nth_error l (n + i).
Proof. induction n; destruct l; simpl; intros; auto. destruct i; auto. Qed.

Lemma nth_error_nth_some : forall {A} (l : list A) i d, i < length l -> nth_error l i = Some (nth i l d).
Proof. induction l; destruct i; simpl; intros; auto; try lia. apply IHl. lia. Qed.

(** Position arithmetic of a window shorter than the ring. *)
Lemma mod_window : forall cap h i, 0 < cap -> i < cap ->
  (h + i) mod cap = if cap <=? h mod cap + i then h mod cap + i - cap else h mod cap + i.
Proof.
  intros. rewrite <- Nat.add_mod_idemp_l by lia.
  assert (h mod cap < cap) by (apply Nat.mod_upper_bound; lia).
  destruct (Nat.leb_spec cap (h mod cap + i)).
  - replace (h mod cap + i) with (h mod cap + i - cap + 1 * cap) at 1 by lia.
    rewrite Nat.mod_add by lia. apply Nat.mod_small. lia.
  - apply Nat.mod_small. auto.
Qed.

Lemma v_to_idx_ok : forall v i, 0 < v_cap v -> i < v_cap v ->
  v_to_idx v i = Ok ((v_head v + i) mod v_cap v).
Proof.
  intros. unfold v_to_idx, v_start. rewrite mod_window by auto.
  assert (v_head v mod v_cap v < v_cap v) by (apply Nat.mod_upper_bound; lia).
  destruct (Nat.leb_spec (v_cap v) (v_head v mod v_cap v + i)).
  - replace (i - (v_cap v - v_head v mod v_cap v)) with (v_head v mod v_cap v + i - v_cap v) by lia.
    destruct (Nat.ltb_spec (v_head v mod v_cap v + i - v_cap v) (v_cap v)); auto. lia.
  - apply Nat.ltb_lt in H2. rewrite H2. auto.
Qed.

(** A view of fewer records than the capacity. *)
Definition vok (d : list (wrapped R)) (v : view) : Prop :=
  v_cap v = length d /\ v_head v <= v_tail v /\ v_tail v - v_head v < v_cap v.

Lemma v_records_ok : forall d v, vok d v ->
  v_records d v = Ok (ring d (v_head v) (v_count v)).
Proof.
  intros d v (Hc & Hh & Hn). unfold v_records, v_count in *.
  rewrite (map_res_total _ (fun i => nth ((v_head v + i) mod length d) d wzero)).
  - f_equal. apply nth_error_ext.
    + rewrite ring_length, map_length, seq_length. auto.
    + rewrite map_length, seq_length. intros.
      rewrite nth_error_map, nth_error_seq, nth_error_ring by auto. auto.
  - intros i Hi. apply in_seq in Hi. unfold v_get. rewrite v_to_idx_ok by lia. simpl.
    unfold nth_res. rewrite Hc. rewrite (nth_error_nth_some d _ wzero); auto.
    apply Nat.mod_upper_bound. lia.
Qed.

Lemma v_copy_ok : forall d v, vok d v ->
  v_copy d v = Ok (ring d (v_head v) (v_count v)).
Proof.
  intros d v (Hc & Hh & Hn). unfold v_copy, v_count, v_stop, v_start in *.
  set (h := v_head v) in *. set (n := v_tail v - h) in *.
  replace (v_tail v) with (h + n) by lia. rewrite Hc in *.
  assert (h mod length d < length d) by (apply Nat.mod_upper_bound; lia).
  rewrite mod_window by lia.
  assert (K : forall i, i < n -> (h + i) mod length d =
     if length d <=? h mod length d + i then h mod length d + i - length d else h mod length d + i).
  { intros. apply mod_window; lia. }
  set (s := h mod length d) in *.
  destruct (Nat.leb_spec (length d) (s + n)).
  - destruct (Nat.ltb_spec (s + n - length d) s); [|lia].
    unfold mem_read.
    destruct (Nat.leb_spec (s + (length d - s)) (length d)); [|lia]. simpl.
    destruct (Nat.leb_spec (s + n - length d) (length d)); [|lia]. simpl. f_equal.
    apply nth_error_ext.
    + rewrite app_length, !firstn_length, skipn_length, ring_length. lia.
    + intros i Hi. rewrite app_length, !firstn_length, skipn_length in Hi.
      rewrite nth_error_ring by lia. rewrite K by lia.
      destruct (Nat.leb_spec (length d) (s + i)).
      * rewrite nth_error_app2; rewrite firstn_length, skipn_length; [|lia].
        rewrite nth_error_firstn by lia.
        rewrite (nth_error_nth_some d _ wzero) by lia. do 2 f_equal. lia.
      * rewrite nth_error_app1; [|rewrite firstn_length, skipn_length; lia].
        rewrite nth_error_firstn, nth_error_skipn by lia.
        rewrite (nth_error_nth_some d _ wzero) by lia. auto.
  - destruct (Nat.ltb_spec (s + n) s); [lia|].
    unfold mem_read. destruct (Nat.leb_spec (s + n) (length d)); [|lia]. f_equal.
    apply nth_error_ext.
    + rewrite firstn_length, skipn_length, ring_length. lia.
    + intros i Hi. rewrite firstn_length, skipn_length in Hi.
      rewrite nth_error_firstn, nth_error_skipn, nth_error_ring by lia. rewrite K by lia.
      destruct (Nat.leb_spec (length d) (s + i)); [lia|].
      apply nth_error_nth_some. lia.
Qed.

(** Writing the next slot extends the window. *)
Lemma ring_snoc : forall d h n w, 0 < length d -> n < length d ->
  ring (set_nth ((h + n) mod length d) w d) h (S n) = ring d h n ++ [w].
Proof.
  intros. apply nth_error_ext.
  - rewrite app_length, !ring_length. simpl. lia.
  - rewrite ring_length. intros i Hi. rewrite nth_error_ring by auto. rewrite set_nth_length.
    assert (Hm : forall x, x mod length d < length d) by (intro; apply Nat.mod_upper_bound; lia).
    destruct (Nat.eq_dec i n).
    + subst. rewrite nth_error_app2; rewrite ring_length; auto. rewrite Nat.sub_diag. simpl.
      f_equal. apply nth_error_nth_default. apply nth_error_set_nth_eq. auto.
    + rewrite nth_error_app1 by (rewrite ring_length; lia).
      rewrite nth_error_ring by lia. f_equal.
      apply nth_error_nth_default. rewrite nth_error_set_nth_neq.
      * apply nth_error_nth_some. auto.
      * rewrite !mod_window by lia.
        assert (h mod length d < length d) by (apply Hm).
        destruct (Nat.leb_spec (length d) (h mod length d + n)),
                 (Nat.leb_spec (length d) (h mod length d + i)); lia.
Qed.

End BP.

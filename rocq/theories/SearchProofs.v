(** Proofs about the searches of SearchModel.v. *)
From Coq Require Import List Arith ZArith NArith Lia Bool Sorted.
From Verif Require Import Base ListLemmas RecordModel RecordProofs Spec ISAMModel ISAMProofs SearchModel.
Import ListNotations.

Section SP.
Context {R : Type} {RO : RecOps R} {RL : RecLaws R} {KO : KeyOps R} {KL : KeyLaws R}.
Variable d : list (wrapped R).
Hypothesis SD : sorted d.
Notation n := (length d).

(** Keys smaller than [k]; records smaller than [r]. *)
Notation below k := (countb (fun w => (rkey (wrec w) <? k)%Z) d).
Notation before r := (countb (fun w => rlt (wrec w) r) d).

Lemma below_iff : forall k i w, nth_error d i = Some w -> (i < below k <-> (rkey (wrec w) <? k)%Z = true).
Proof. intros k i w E. apply (prefixed_count _ _ (sorted_lt_key k d SD) i w E). Qed.
Lemma before_iff : forall r i w, nth_error d i = Some w -> (i < before r <-> rlt (wrec w) r = true).
Proof. intros r i w E. apply (prefixed_count _ _ (sorted_lt_rec r d SD) i w E). Qed.

Lemma bsearch_ok : forall k fuel lo hi, lo <= hi -> hi <= n -> hi < lo + fuel ->
  bsearch fuel lo hi d k = Ok (Nat.max lo (Nat.min (below k) hi)).
Proof.
  intros k. induction fuel as [|fuel IH]; intros lo hi LH HN FU; [lia|]. cbn [bsearch].
  destruct (Nat.ltb_spec lo hi); [|f_equal; lia].
  assert (M1 : lo <= (lo + hi) / 2) by (apply Nat.div_le_lower_bound; lia).
  assert (M2 : (lo + hi) / 2 < hi) by (apply Nat.div_lt_upper_bound; lia).
  set (mid := (lo + hi) / 2) in *. unfold nth_res.
  destruct (nth_error d mid) as [w|] eqn:E; [|apply nth_error_None in E; lia]. cbn [bind].
  pose proof (below_iff k mid w E) as B. destruct (rkey (wrec w) <? k)%Z.
  - assert (mid < below k) by (apply B; auto). rewrite IH by lia. f_equal. lia.
  - assert (below k <= mid). { destruct (Nat.lt_ge_cases mid (below k)) as [G|G]; auto. apply B in G. discriminate. }
    rewrite IH by lia. f_equal. lia.
Qed.

Lemma lscan_ok : forall k fuel lo hi, lo <= hi -> hi <= n -> hi < lo + fuel ->
  lscan fuel lo hi d k = Ok (Nat.max lo (Nat.min (below k) hi)).
Proof.
  intros k. induction fuel as [|fuel IH]; intros lo hi LH HN FU; [lia|]. cbn [lscan].
  destruct (Nat.ltb_spec lo hi); [|f_equal; lia]. unfold nth_res.
  destruct (nth_error d lo) as [w|] eqn:E; [|apply nth_error_None in E; lia]. cbn [bind].
  pose proof (below_iff k lo w E) as B. destruct (rkey (wrec w) <? k)%Z.
  - assert (lo < below k) by (apply B; auto). rewrite IH by lia. f_equal. lia.
  - assert (below k <= lo). { destruct (Nat.lt_ge_cases lo (below k)) as [G|G]; auto. apply B in G. discriminate. }
    f_equal. lia.
Qed.

Lemma bounded_ok : forall k lo hi, lo <= below k <= hi -> hi <= n -> bounded_search d (lo, hi) k = Ok (below k).
Proof.
  intros k lo hi B HN. unfold bounded_search.
  destruct (hi - lo <? 256); [rewrite lscan_ok by lia|rewrite bsearch_ok by lia]; f_equal; lia.
Qed.

Lemma roll_rec_ok : forall r fuel i stop, i <= stop -> stop <= n -> stop <= i + fuel -> i <= before r ->
  roll_rec fuel i stop d r = Ok (Nat.min (before r) stop).
Proof.
  intros r. induction fuel as [|fuel IH]; intros i stop IS SN FU IB; cbn [roll_rec];
    destruct (Nat.ltb_spec i stop); try (f_equal; lia).
  unfold nth_res. destruct (nth_error d i) as [w|] eqn:E; [|apply nth_error_None in E; lia]. cbn [bind].
  pose proof (before_iff r i w E) as B. destruct (rlt (wrec w) r).
  - assert (i < before r) by (apply B; auto). apply IH; lia.
  - assert (before r <= i). { destruct (Nat.lt_ge_cases i (before r)) as [G|G]; auto. apply B in G. discriminate. }
    f_equal. lia.
Qed.

Lemma below_before : forall r, below (rkey r) <= before r.
Proof. intros r. apply countb_mono. intros x _ X. apply Z.ltb_lt in X. apply key_lt_rlt. auto. Qed.

(** The record at [before r], if there is one, decides whether [r] is present. *)
Lemma decides : forall r w, nth_error d (before r) = Some w ->
  req (wrec w) r = false -> forall x, In x d -> req (wrec x) r = false.
Proof.
  intros r x E Q y Y. destruct (req (wrec y) r) eqn:RY; auto. exfalso.
  pose proof (before_iff r _ x E) as PX.
  assert (XR : rlt (wrec x) r = false).
  { destruct (rlt (wrec x) r); auto. destruct PX as [_ PX]. specialize (PX eq_refl). lia. }
  assert (RX : rlt r (wrec x) = true).
  { destruct (rlt r (wrec x)) eqn:G; auto. assert (req (wrec x) r = true) by (apply req_spec; auto). congruence. }
  apply In_nth_error in Y as [j J]. pose proof (before_iff r j y J) as PY.
  apply req_spec in RY as [RY1 RY2].
  assert (J1 : before r <= j). { destruct (Nat.lt_ge_cases j (before r)) as [G|G]; auto. apply PY in G. congruence. }
  assert (YX : rlt (wrec y) (wrec x) = true).
  { destruct (rlt (wrec y) (wrec x)) eqn:G; auto. destruct (rle_cases _ _ G) as [Z|Z].
    - assert (rlt r (wrec y) = true) by (eapply rlt_trans; eauto). congruence.
    - assert (EX : req (wrec x) r = true) by (eapply req_trans; [exact Z|apply req_spec; auto]). congruence. }
  destruct (Nat.eq_dec j (before r)) as [->|].
  - rewrite E in J. inversion J; subst. rewrite rlt_irrefl in YX. discriminate.
  - assert (ST : rlt (wrec y) (wrec x) = false) by (apply (sorted_nth d SD (before r) j); auto; lia). congruence.
Qed.

Lemma all_before : forall r, before r = n -> forall w, In w d -> req (wrec w) r = false.
Proof.
  intros r E w W. apply In_nth_error in W as [j J].
  assert (j < n) by (apply nth_error_Some; congruence).
  assert (RB : rlt (wrec w) r = true) by (apply (before_iff r j w J); lia).
  destruct (req (wrec w) r) eqn:Q; auto. apply req_spec in Q. destruct Q. congruence.
Qed.

(** ** Alias *)

Lemma alias_bound : forall k, d <> [] -> alias_lower_bound d k = Ok (Nat.min (below k) (n - 1)).
Proof.
  intros k NE. unfold alias_lower_bound. destruct (length d) as [|m] eqn:LN.
  { destruct d; [congruence|discriminate]. }
  rewrite bsearch_ok by lia. f_equal. lia.
Qed.

Lemma alias_lookup : forall bf r filter, d <> [] -> (filter = true -> bf = true) ->
  exists o, alias_point_lookup bf d r filter = Ok o /\ answers d r o.
Proof.
  intros bf r filter NE FB. unfold alias_point_lookup.
  assert (FN : filter && negb bf = false) by (destruct filter; [rewrite FB|]; auto). rewrite FN.
  rewrite alias_bound by auto. cbn [bind].
  assert (N0 : 0 < n) by (destruct d; [congruence|cbn; lia]).
  destruct (Nat.leb_spec n (Nat.min (below (rkey r)) (n - 1))); [lia|].
  pose proof (below_before r) as BB.
  rewrite roll_rec_ok by lia. cbn [bind]. unfold nth_res.
  destruct (nth_error d (Nat.min (before r) (n - 1))) as [w|] eqn:E; [|apply nth_error_None in E; lia]. cbn [bind].
  eexists. split; [reflexivity|]. destruct (req (wrec w) r) eqn:Q; cbn [answers]; [eauto|].
  destruct (Nat.lt_ge_cases (before r) n) as [G|G].
  - replace (Nat.min (before r) (n - 1)) with (before r) in E by lia. eapply decides; eauto.
  - apply all_before. pose proof (countb_le (fun w => rlt (wrec w) r) d). lia.
Qed.

(** ** PGM and TrieSpline *)

Lemma back_ok : forall k w (X : below k < n), nth_error d (below k) = Some w ->
  exists back, (if (k <? rkey (wrec w))%Z && (0 <? below k) then
     do p <- nth_res (below k - 1) d; Ok (rkey (wrec p) <=? k)%Z else Ok false) = Ok back.
Proof.
  intros k w X E. destruct ((k <? rkey (wrec w))%Z && (0 <? below k)); eauto. unfold nth_res.
  destruct (nth_error d (below k - 1)) as [p|] eqn:P; [cbn; eauto|]. apply nth_error_None in P. lia.
Qed.

Lemma pgm_ok : forall k b, brackets d b k -> exists i, pgm_lower_bound b d k = Ok i /\
  i <= below k /\ below k <= i + 1 /\ (below k = n -> i = n) /\
  (forall w, In w d -> rkey (wrec w) = k -> i = below k).
Proof.
  intros k [lo hi] [B1 B2]. cbn [fst snd] in *. unfold pgm_lower_bound. cbn [fst].
  destruct (Nat.leb_spec n lo). { exists n. split; auto. split; [lia|]. split; [lia|]. split; intros; lia. }
  rewrite bounded_ok by lia. cbn [bind]. destruct (Nat.eqb_spec (below k) n) as [Y|Y].
  - eexists. split; [reflexivity|]. split; auto. split; [lia|]. split; auto.
  - pose proof (countb_le (fun w => (rkey (wrec w) <? k)%Z) d) as CL. unfold nth_res at 1.
    destruct (nth_error d (below k)) as [w|] eqn:E; [|apply nth_error_None in E; lia]. cbn [bind].
    destruct (back_ok k w ltac:(lia) E) as (back & EB). rewrite EB. cbn [bind].
    assert (GE : (k <= rkey (wrec w))%Z).
    { pose proof (below_iff k _ w E) as Q. destruct (Z.ltb_spec (rkey (wrec w)) k); auto. destruct Q as [_ Q].
      specialize (Q eq_refl). lia. }
    destruct back.
    + exists (below k - 1). split; auto. split; [lia|]. split; [lia|]. split; [lia|].
      destruct (Z.ltb_spec k (rkey (wrec w))) as [G|G]; [|discriminate].
      intros x X KX. exfalso. apply In_nth_error in X as [j J]. pose proof (below_iff k j x J) as Q.
      rewrite KX, Z.ltb_irrefl in Q.
      assert (below k <= j). { destruct (Nat.lt_ge_cases j (below k)) as [V|V]; auto. apply Q in V. discriminate. }
      assert (LK : (rkey (wrec w) <= rkey (wrec x))%Z).
      { destruct (Nat.eq_dec j (below k)) as [->|]; [rewrite E in J; inversion J; lia|].
        apply QueryProofs.wle_key. apply (sorted_nth d SD (below k) j); auto. lia. }
      lia.
    + destruct (Z.leb_spec k (rkey (wrec w))); [|lia]. eexists. split; [reflexivity|].
      split; auto. split; [lia|]. split; [lia|]. auto.
Qed.

Lemma small_ok : forall k l i, (forall x, nth_error l x = nth_error d (i + x)) -> i <= below k -> i + length l = n ->
  small_scan i l k = below k.
Proof.
  intros k. induction l as [|w l IH]; intros i NT IB LN; cbn [small_scan length] in *.
  - pose proof (countb_le (fun w => (rkey (wrec w) <? k)%Z) d). lia.
  - pose proof (NT 0) as N0. rewrite Nat.add_0_r in N0. cbn in N0. symmetry in N0.
    pose proof (below_iff k i w N0) as B. rewrite Z.leb_antisym.
    destruct (rkey (wrec w) <? k)%Z; cbn [negb].
    + apply IH; [|apply B; auto|lia]. intros x. specialize (NT (S x)). cbn [nth_error] in NT. rewrite NT. f_equal. lia.
    + destruct (Nat.lt_ge_cases i (below k)) as [G|G]; [|lia]. apply B in G. discriminate.
Qed.

Lemma ts_ok : forall k ts, length d <> 50 -> (50 < n -> exists b, ts = Some b /\ brackets d b k) ->
  exists i, ts_lower_bound ts d k = Ok i /\
  i <= below k /\ below k <= i + 1 /\ (below k = n -> i = n).
Proof.
  intros k ts N50 HB. unfold ts_lower_bound. destruct (Nat.ltb_spec n 50).
  - eexists. split; [reflexivity|]. rewrite small_ok; try lia. intros. auto.
  - destruct (HB ltac:(lia)) as ([lo hi] & -> & [B1 B2]). cbn [fst snd] in *.
    destruct (Nat.leb_spec n lo). { exists n. split; auto. split; [lia|]. split; intros; lia. }
    rewrite bounded_ok by lia. cbn [bind]. destruct (Nat.eqb_spec (below k) n) as [Y|Y].
    + eexists. split; [reflexivity|]. split; auto. split; [lia|]. auto.
    + pose proof (countb_le (fun w => (rkey (wrec w) <? k)%Z) d) as CL. unfold nth_res at 1.
      destruct (nth_error d (below k)) as [w|] eqn:E; [|apply nth_error_None in E; lia]. cbn [bind].
      destruct (back_ok k w ltac:(lia) E) as (back & EB). rewrite EB. cbn [bind].
      eexists. split; [reflexivity|]. destruct back; split; try lia.
Qed.

(** A lookup from any lower bound that is not too far. *)
Lemma learned_lookup : forall r i lb, lb = Ok i -> i <= below (rkey r) -> (below (rkey r) = n -> i = n) ->
  ~ (below (rkey r) < n /\ before r = n) ->
  exists o, learned_point_lookup lb d r = Ok o /\ answers d r o.
Proof.
  intros r i lb -> I1 I2 NF. unfold learned_point_lookup. cbn [bind].
  pose proof (below_before r) as BB. pose proof (countb_le (fun w => rlt (wrec w) r) d) as CB.
  destruct (Nat.leb_spec n i).
  - exists None. split; auto. cbn. apply all_before. lia.
  - rewrite roll_rec_ok by lia. cbn [bind]. rewrite Nat.min_l by lia. unfold nth_res.
    assert (BL : below (rkey r) < n). { destruct (Nat.lt_ge_cases (below (rkey r)) n); auto.
      pose proof (countb_le (fun w => (rkey (wrec w) <? rkey r)%Z) d). lia. }
    destruct (nth_error d (before r)) as [w|] eqn:E; [|apply nth_error_None in E; lia]. cbn [bind].
    eexists. split; [reflexivity|]. destruct (req (wrec w) r) eqn:Q; cbn [answers]; [eauto|].
    eapply decides; eauto.
Qed.

Lemma learned_oob : forall r i lb, lb = Ok i -> i <= below (rkey r) -> below (rkey r) < n -> before r = n ->
  learned_point_lookup lb d r = Fail FOob.
Proof.
  intros r i lb -> I1 I2 NF. unfold learned_point_lookup. cbn [bind].
  destruct (Nat.leb_spec n i); [lia|]. rewrite roll_rec_ok by lia. cbn [bind].
  rewrite Nat.min_l by lia. unfold nth_res. rewrite (proj2 (nth_error_None d (before r))); auto. lia.
Qed.

End SP.

Section SC.
Context {R : Type} {RO : RecOps R} {RL : RecLaws R} {KO : KeyOps R} {KL : KeyLaws R}.

(** A test for concrete arrays. *)
Fixpoint sortedb (d : list (wrapped R)) : bool :=
  match d with
  | [] => true
  | w :: d' => forallb (fun x => negb (rlt (wrec x) (wrec w))) d' && sortedb d'
  end.
Lemma sortedb_ok : forall d, sortedb d = true -> sorted d.
Proof.
  induction d as [|w d IH]; cbn; intros H; constructor; apply andb_true_iff in H as [H1 H2]; [apply IH; auto|].
  apply Forall_forall. intros x X. rewrite forallb_forall in H1. apply negb_true_iff. auto.
Qed.

Lemma smaller_keys : forall (d : list (wrapped R)) k i, sorted d ->
  i <= countb (fun w => (rkey (wrec w) <? k)%Z) d -> forall w, In w (firstn i d) -> (rkey (wrec w) < k)%Z.
Proof.
  intros d k i SD I w W. apply In_nth_error in W as [j J].
  assert (JI : j < i). { assert (j < length (firstn i d)) by (apply nth_error_Some; congruence).
    rewrite firstn_length in H. lia. }
  assert (J' : nth_error d j = Some w).
  { rewrite <- (firstn_skipn i d). rewrite nth_error_app1; auto. apply nth_error_Some. congruence. }
  apply Z.ltb_lt. apply (below_iff d SD k j w J'). lia.
Qed.

Lemma pgm_sound : forall search : list (wrapped R) -> Z -> nat * nat,
  (forall d k, d <> [] -> sorted d -> brackets d (search d k) k) ->
  lb_sound (fun d k => pgm_lower_bound (search d k) d k).
Proof.
  intros search HB d k NE SD. destruct (pgm_ok d SD k _ (HB d k NE SD)) as (i & E & I1 & _).
  exists i. split; auto. split; [pose proof (countb_le (fun w => (rkey (wrec w) <? k)%Z) d); lia|].
  apply smaller_keys; auto.
Qed.

Lemma alias_sound : lb_sound (alias_lower_bound (R := R)).
Proof.
  intros d k NE SD. rewrite alias_bound by auto. eexists. split; [reflexivity|].
  split; [lia|]. apply smaller_keys; auto. lia.
Qed.

End SC.

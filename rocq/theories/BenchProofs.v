(** Proofs about the structures of the benchmarks. *)
From Coq Require Import List Arith ZArith NArith Lia Bool Permutation Sorted.
From Verif Require Import Base ListLemmas RecordModel RecordProofs MergeModel MergeProofs Spec VPModel VPSpec
  VPProofs KNNProofs ISAMProofs SearchModel SearchProofs LearnModel LearnSpec LearnProofs QueryProofs BenchModel BenchSpec.
Import ListNotations.

Section BVP.
Context {R : Type} {RO : RecOps R} {D : Type} {DO : DistOps D} {DL : DistLaws D}
  {MO : MetricOps R D} {ML : MetricLaws R D}.
Variable pop : R -> list (wrapped R) -> option (wrapped R * list (wrapped R)).
Context {PM : PQMax pop}.
Variable leafsz : nat.

Lemma bare_wrec : forall rs : list R, map wrec (bare rs) = rs.
Proof. intros. unfold bare. rewrite map_map. simpl. apply map_id. Qed.

Lemma drain_ok p : forall n q, length q = n -> Permutation (map wrec q) (drain pop n p q) /\
  farthest_first p (drain pop n p q).
Proof.
  induction n; intros q L; simpl.
  - destruct q; [|discriminate]. split; constructor.
  - destruct (pop_some (PQMax := PM) p q) as (m & q' & E & P & F). { destruct q; [discriminate|congruence]. }
    rewrite E. pose proof (Permutation_length P) as LP. simpl in LP.
    destruct (IHn q' ltac:(lia)) as (A & B). split.
    + rewrite P. simpl. now rewrite A.
    + constructor; auto. apply Forall_forall. intros x X. apply (Permutation_in x (Permutation_sym A)) in X.
      apply in_map_iff in X as (w & <- & W). apply F. rewrite P. now right.
Qed.

Lemma nearest_perm {A} (cl : A -> A -> bool) k all out out' : Permutation out out' ->
  nearest cl k all out -> nearest cl k all out'.
Proof.
  intros P (rest & Q & L & C). exists rest. split; [now rewrite <- P|].
  split; [rewrite <- L; symmetry; now apply Permutation_length|].
  intros x y X. apply C. apply (Permutation_in x (Permutation_sym P) X).
Qed.

Lemma drain_nearest p k q all : nearest (closer p) k all q ->
  nearest (near p) k (map wrec all) (drain pop (length q) p q) /\
  farthest_first p (drain pop (length q) p q).
Proof.
  intros N. destruct (drain_ok p (length q) q eq_refl) as (A & B). split; auto.
  apply (nearest_perm _ _ _ _ _ A). apply (nearest_map wrec (closer p)); auto.
Qed.

Lemma bvp_build_ok rng rs : exists t, bvp_build leafsz rng rs = Ok t /\ bvp_unbuild t = rs.
Proof.
  destruct (vp_build_keeps leafsz rng (bare rs)) as (t & E & Q). exists t. split; auto.
  unfold bvp_unbuild. now rewrite Q, bare_wrec.
Qed.

Lemma bvp_query_ok rng rs t p k : bvp_build leafsz rng rs = Ok t -> 0 < k \/ rs = [] ->
  exists out, bvp_query pop t (Some (p, k)) = Ok out /\ nearest (near p) k rs out /\ farthest_first p out.
Proof.
  intros B K. unfold bvp_build in B. destruct (vp_built leafsz rng _ t B) as (DT & OK).
  unfold bvp_query. rewrite DT. unfold bare at 1. rewrite map_length.
  destruct (Nat.leb_spec (length rs) k).
  - cbn [bind]. eexists. split; [reflexivity|]. rewrite <- (bare_wrec rs). apply drain_nearest.
    destruct OK as (PT & _). rewrite DT in PT. exists []. rewrite app_nil_r. split; [exact PT|].
    split. { pose proof (Permutation_length PT) as LP. unfold bare in *. rewrite map_length in LP. rewrite <- LP, map_length. lia. }
    intros x y _ [].
  - destruct K as [K| ->]; [|simpl in *; lia].
    destruct (vp_search_ok pop p k leafsz t K OK) as (q & E & N). rewrite E. cbn [bind].
    eexists. split; [reflexivity|]. rewrite DT in N. rewrite <- (bare_wrec rs). now apply drain_nearest.
Qed.

Lemma bvp_merge_ok p k rsa rsb : 0 < k ->
  exists out, bvp_merge pop p k rsa rsb = Ok out /\ nearest (near p) k (rsa ++ rsb) out /\ farthest_first p out.
Proof.
  intros K. unfold bvp_merge. destruct (offers_ok pop p k (bare (rsa ++ rsb)) K) as (q & E & N).
  rewrite E. cbn [bind]. eexists. split; [reflexivity|].
  rewrite <- (bare_wrec (rsa ++ rsb)). now apply drain_nearest.
Qed.

Lemma near_refl p x : near p x x = true. Proof. apply dle_refl. Qed.
Lemma near_trans p x y z : near p x y = true -> near p y z = true -> near p x z = true.
Proof. apply dle_trans. Qed.

Lemma bvp_merge_parts p k a b rsa rsb : 0 < k -> nearest (near p) k a rsa -> nearest (near p) k b rsb ->
  exists out, bvp_merge pop p k rsa rsb = Ok out /\ nearest (near p) k (a ++ b) out /\ farthest_first p out.
Proof.
  intros K A B. destruct (bvp_merge_ok p k rsa rsb K) as (out & E & N & F). exists out. split; auto. split; auto.
  replace (a ++ b) with (concat [a; b]) by (simpl; now rewrite app_nil_r).
  apply (nearest_parts (near p) (near_refl p) (near_trans p) k [a; b] [rsa; rsb]); [repeat constructor; auto|].
  simpl. now rewrite app_nil_r.
Qed.

Lemma bvp_answer_from p k : 0 < k -> forall ts rss all a, nearest (near p) k all a -> farthest_first p a ->
  Forall2 (fun t rs => exists rng, bvp_build leafsz rng rs = Ok t) ts rss ->
  exists out, fold_left (fun a t => do rsa <- a; do rsb <- bvp_query pop t (Some (p, k)); bvp_merge pop p k rsa rsb)
                ts (Ok a) = Ok out /\
    nearest (near p) k (all ++ concat rss) out /\ farthest_first p out.
Proof.
  intros K. induction ts as [|t ts IH]; intros rss all a N F B; inversion B; subst; cbn [fold_left concat bind].
  - exists a. now rewrite app_nil_r.
  - destruct H1 as (rng & E). destruct (bvp_query_ok rng y t p k E ltac:(auto)) as (rsb & Q & NB & _).
    rewrite Q. cbn [bind]. destruct (bvp_merge_parts p k all y a rsb K N NB) as (m & M & NM & FM).
    rewrite M. destruct (IH l' (all ++ y) m NM FM H3) as (out & O & NO & FO). exists out.
    split; auto. split; auto. now rewrite <- app_assoc in NO.
Qed.

Lemma bvp_answer_ok p k ts rss : 0 < k ->
  Forall2 (fun t rs => exists rng, bvp_build leafsz rng rs = Ok t) ts rss ->
  exists out, bvp_answer pop p k ts = Ok out /\ nearest (near p) k (concat rss) out /\ farthest_first p out.
Proof.
  intros K B. apply (bvp_answer_from p k K ts rss [] []); auto; [|constructor].
  exists []. split; [reflexivity|]. split; [simpl; lia|]. intros x y [].
Qed.

Lemma bvp_no_query (t : vptree R D) p k (a rsa : list R) : 0 < k -> nearest (near p) k a rsa ->
  exists rsb out, bvp_query pop t None = Ok rsb /\ bvp_merge pop p k rsa rsb = Ok out /\ Permutation rsa out.
Proof.
  intros K (rest & _ & L & _). destruct (bvp_merge_ok p k rsa [] K) as (out & E & (r & P & LO & _) & _).
  exists [], out. split; [reflexivity|]. split; auto. rewrite app_nil_r in *.
  pose proof (Permutation_length P) as LP. rewrite app_length in LP.
  assert (length r = 0) as Z by lia. apply length_zero_iff_nil in Z. subst r. now rewrite app_nil_r in P.
Qed.
End BVP.

Section BTS.
Context {R : Type} {RO : RecOps R} {RL : RecLaws R} {KO : KeyOps R} {KL : KeyLaws R}.
Variable search : list (wrapped R) -> Z -> nat * nat.
Hypothesis SB : forall d k, 50 <= length d -> sorted d -> brackets d (search d k) k.
Implicit Types d : list (wrapped R).

Lemma add_keys_ok : forall d b, StronglySorted Z.le (keys_of d) ->
  Forall (fun k => tb_min b <= k <= tb_max b)%Z (keys_of d) ->
  (forall p, hd_error (tb_keys b) = Some p -> Forall (fun k => p <= k)%Z (keys_of d)) ->
  exists b', add_keys d b = Ok b'.
Proof.
  induction d as [|w d IH]; intros b S F H; simpl; [eauto|].
  unfold keys_of in *. simpl in *. inversion S; subst. inversion F; subst.
  unfold add_key. destruct (Z.leb_spec (tb_min b) (wkey w)); [|lia]. destruct (Z.leb_spec (wkey w) (tb_max b)); [|lia].
  simpl. assert (match tb_keys b with [] => true | p :: _ => (p <=? wkey w)%Z end = true) as ->.
  { destruct (tb_keys b) as [|p l]; auto. specialize (H p eq_refl). inversion H; subst. now apply Z.leb_le. }
  cbn [bind]. apply IH; auto. simpl. intros p Q. injection Q as <-. auto.
Qed.

Lemma key_le_of d i j a b : sorted d -> i <= j -> nth_error d i = Some a -> nth_error d j = Some b ->
  (wkey a <= wkey b)%Z.
Proof.
  intros SD L A B. destruct (Nat.eq_dec i j) as [->|N]; [rewrite A in B; injection B as ->; lia|].
  apply wle_key. apply (sorted_nth d SD i j); auto. lia.
Qed.

Lemma sorted_wle_keys d : sorted d -> StronglySorted Z.le (keys_of d).
Proof.
  unfold keys_of. induction 1; simpl; constructor; auto. apply Forall_map. eapply Forall_impl; [|exact H0].
  intros b Hb. apply wle_key in Hb. exact Hb.
Qed.

Lemma bts_new_ok d : d <> [] -> sorted d -> bts_new d = Ok d.
Proof.
  intros NE SD. unfold bts_new.
  destruct (nth_some d 0) as (a & A). { destruct d; [congruence|simpl; lia]. }
  destruct (nth_some d (length d - 1)) as (z & Z). { destruct d; [congruence|simpl; lia]. }
  rewrite (nth_res_some _ _ _ A), (nth_res_some _ _ _ Z). cbn [bind].
  destruct (length d <? 50); auto.
  destruct (add_keys_ok d (TB (wkey a) (wkey z) [])) as (b & B).
  - now apply sorted_wle_keys.
  - apply Forall_map, Forall_forall. intros w W. apply In_nth_error in W as [j J]. simpl.
    pose proof (nth_lt _ _ _ J). split; [eapply (key_le_of d 0 j); eauto; lia|eapply (key_le_of d j (length d - 1)); eauto; lia].
  - discriminate.
  - rewrite B. reflexivity.
Qed.

Lemma wsort_sorted' (l : list (wrapped R)) : sorted (wsort l).
Proof. exact (sorted_wnlt_wle _ (wsort_sorted l)). Qed.

Lemma bts_build_ok rs : rs <> [] ->
  exists d, bts_build rs = Ok (Some d) /\ sorted d /\ Permutation rs (bts_unbuild d).
Proof.
  intros NE. unfold bts_build. destruct rs as [|r rs]; [congruence|]. clear NE.
  set (l := r :: rs). pose proof (wsort_perm (bare l)) as P.
  rewrite bts_new_ok; [|intros Q; rewrite Q in P; apply Permutation_length in P; discriminate|apply wsort_sorted'].
  cbn [bind]. eexists. split; [reflexivity|]. split; [apply wsort_sorted'|].
  unfold bts_unbuild. rewrite <- P. now rewrite bare_wrec.
Qed.

Lemma bts_presorted_ok rs : rs <> [] -> sorted (bare rs) ->
  exists d, bts_build_presorted rs = Ok (Some d) /\ sorted d /\ rs = bts_unbuild d.
Proof.
  intros NE S. unfold bts_build_presorted. destruct rs as [|r rs]; [congruence|].
  rewrite bts_new_ok; [|discriminate|auto]. cbn [bind]. eexists. split; [reflexivity|]. split; auto.
  unfold bts_unbuild. now rewrite bare_wrec.
Qed.

(** The index from which the query counts. *)
Definition steps_back d (k : Z) : Prop :=
  50 <= length d /\ (exists w, In w d /\ (rkey (wrec w) < k)%Z) /\ (exists w, In w d /\ (k < rkey (wrec w))%Z) /\
  (forall w, In w d -> rkey (wrec w) <> k).
Lemma steps_back_iff d k : steps_back d k <-> key_between k (map wrec d).
Proof.
  unfold steps_back, key_between. rewrite map_length. split; intros (A & (w & W1 & W2) & (x & X1 & X2) & N).
  - split; auto. split; [exists (wrec w); split; auto using in_map|]. split; [exists (wrec x); split; auto using in_map|].
    intros r I. apply in_map_iff in I as (y & <- & Y). auto.
  - apply in_map_iff in W1 as (w' & <- & W1). apply in_map_iff in X1 as (x' & <- & X1).
    split; auto. split; [eauto|]. split; [eauto|]. intros y Y. apply N. now apply in_map.
Qed.
Notation below d k := (countb (fun w => (rkey (wrec w) <? k)%Z) d).

Lemma below_pos d k : 0 < below d k <-> exists w, In w d /\ (rkey (wrec w) < k)%Z.
Proof.
  rewrite countb_pos. split; intros (w & W & B); exists w; split; auto; now apply Z.ltb_lt.
Qed.

Lemma bound_ok d k : d <> [] -> sorted d ->
  (bts_lower_bound search d k = Ok (below d k) /\ ~ steps_back d k) \/
  (bts_lower_bound search d k = Ok (below d k - 1) /\ steps_back d k).
Proof.
  intros NE SD. unfold bts_lower_bound.
  destruct (Nat.eqb_spec (length d) 0) as [Z0|_]; [destruct d; [congruence|discriminate]|].
  unfold ts_lower_bound. destruct (Nat.ltb_spec (length d) 50) as [L|L].
  { left. rewrite (small_ok d SD) by (auto; lia). split; auto. intros (A & _). lia. }
  destruct (SB d k L SD) as [B1 B2]. destruct (search d k) as [lo hi]. cbn [fst snd] in *.
  assert (FULL : below d k = length d -> ~ steps_back d k).
  { intros Q (_ & _ & (w & W & G) & _). apply In_nth_error in W as [j J].
    pose proof (proj1 (below_iff d SD k j w J)) as X. pose proof (nth_lt _ _ _ J). rewrite Q in X.
    specialize (X H). apply Z.ltb_lt in X. lia. }
  destruct (Nat.leb_spec (length d) lo). { left. split; [f_equal; lia|apply FULL; lia]. }
  rewrite (bounded_ok d SD) by lia. cbn [bind]. destruct (Nat.eqb_spec (below d k) (length d)) as [Y|Y].
  { left. split; auto. }
  pose proof (countb_le (fun w => (rkey (wrec w) <? k)%Z) d) as CL.
  destruct (nth_some d (below d k) ltac:(lia)) as (w & E). rewrite (nth_res_some _ _ _ E). cbn [bind].
  assert (GE : (k <= rkey (wrec w))%Z).
  { pose proof (below_iff d SD k _ w E) as Q. destruct (Z.ltb_spec (rkey (wrec w)) k); auto. destruct Q as [_ Q].
    specialize (Q eq_refl). lia. }
  destruct (Z.ltb_spec k (rkey (wrec w))) as [G|G]; cbn [andb].
  - destruct (Nat.ltb_spec 0 (below d k)) as [P|P].
    + destruct (nth_some d (below d k - 1) ltac:(lia)) as (v & V). rewrite (nth_res_some _ _ _ V). cbn [bind].
      assert (VL : (rkey (wrec v) < k)%Z) by (apply Z.ltb_lt, (below_iff d SD k _ v V); lia).
      destruct (Z.leb_spec (rkey (wrec v)) k); [|lia]. right. split; auto. split; auto.
      split; [now apply below_pos|]. split; [exists w; split; auto; now apply nth_error_In in E|].
      intros x X Q. apply In_nth_error in X as [j J]. pose proof (below_iff d SD k j x J) as I.
      rewrite Q, Z.ltb_irrefl in I.
      assert (below d k <= j). { destruct (Nat.lt_ge_cases j (below d k)) as [U|U]; auto. apply I in U. discriminate. }
      pose proof (key_le_of d (below d k) j w x SD H1 E J). unfold wkey in *. lia.
    + cbn [bind]. left. split; auto. intros (_ & W & _). apply below_pos in W. lia.
  - cbn [bind]. left. split; auto. intros (_ & _ & _ & N). apply (N w); [now apply nth_error_In in E|lia].
Qed.

Notation inside lo hi d := (countb (fun w => key_in lo hi (wrec w)) d).

Lemma run_after hi : forall d, StronglySorted Z.le (keys_of d) ->
  run_length d hi = Z.of_nat (countb (fun w => (rkey (wrec w) <=? hi)%Z) d).
Proof.
  induction d as [|w d IH]; intros S; [reflexivity|]. unfold keys_of in S. simpl in S. inversion S; subst.
  cbn [run_length countb]. unfold wkey at 1. destruct (Z.leb_spec (rkey (wrec w)) hi).
  - rewrite IH by auto. lia.
  - rewrite countb_false; auto. intros x X. apply Z.leb_gt. rewrite Forall_map, Forall_forall in H2.
    specialize (H2 x X). unfold wkey in *. lia.
Qed.

Lemma skipn_sorted : forall n d, StronglySorted Z.le (keys_of d) -> StronglySorted Z.le (keys_of (skipn n d)).
Proof. induction n; intros [|w d] S; simpl; auto. apply IHn. unfold keys_of in *. simpl in S. now inversion S. Qed.

Lemma run_exact lo hi d : sorted d -> run_length (skipn (below d lo) d) hi = Z.of_nat (inside lo hi d).
Proof.
  intros SD. rewrite run_after by (apply skipn_sorted, sorted_wle_keys; auto). f_equal.
  transitivity (inside lo hi (firstn (below d lo) d ++ skipn (below d lo) d)); [|now rewrite firstn_skipn].
  rewrite countb_app.
  rewrite (countb_false _ (firstn _ _)).
  2:{ intros w W. unfold key_in. pose proof (smaller_keys d lo (below d lo) SD (le_n _) w W).
      destruct (Z.leb_spec lo (rkey (wrec w))); auto. lia. }
  simpl. apply countb_ext. intros w W. unfold key_in.
  apply In_nth_error in W as [j J].
  assert (J' : nth_error d (below d lo + j) = Some w) by (rewrite <- J; symmetry; apply BufferProofs.nth_error_skipn).
  pose proof (below_iff d SD lo _ w J') as B. destruct (Z.leb_spec lo (rkey (wrec w))); auto.
  apply Z.ltb_lt in H. apply B in H. lia.
Qed.

Lemma skip_at {A} (l : list A) : forall n x, nth_error l n = Some x -> skipn n l = x :: skipn (S n) l.
Proof. induction l; intros [|n] x H; try discriminate; simpl in *; [injection H as ->; auto|apply IHl; auto]. Qed.

Lemma run_back lo hi d : sorted d -> 0 < below d lo -> (lo <= hi)%Z ->
  run_length (skipn (below d lo - 1) d) hi = (1 + Z.of_nat (inside lo hi d))%Z.
Proof.
  intros SD P LH. pose proof (countb_le (fun w => (rkey (wrec w) <? lo)%Z) d) as CL.
  destruct (nth_some d (below d lo - 1) ltac:(lia)) as (v & V). rewrite (skip_at d _ v V).
  replace (S (below d lo - 1)) with (below d lo) by lia. cbn [run_length].
  assert (rkey (wrec v) < lo)%Z by (apply Z.ltb_lt, (below_iff d SD lo _ v V); lia).
  unfold wkey. destruct (Z.leb_spec (rkey (wrec v)) hi); [|lia]. now rewrite run_exact.
Qed.

Lemma bts_query_ok d lo hi : d <> [] -> sorted d -> (lo <= hi)%Z ->
  (~ steps_back d lo -> bts_query search d (Some (lo, hi)) = Ok [Z.of_nat (inside lo hi d)]) /\
  (steps_back d lo -> bts_query search d (Some (lo, hi)) = Ok [(1 + Z.of_nat (inside lo hi d))%Z]).
Proof.
  intros NE SD LH. unfold bts_query.
  destruct (bound_ok d lo NE SD) as [(E & N)|(E & N)]; rewrite E; cbn [bind]; split; intros S; try tauto; f_equal; f_equal.
  - now apply run_exact.
  - apply run_back; auto. apply below_pos. apply N.
Qed.

Lemma bts_no_query (srch : list (wrapped R) -> Z -> nat * nat) (d : list (wrapped R)) n :
  exists rsb, bts_query srch d None = Ok rsb /\ bts_merge [n] rsb = Ok [n] /\ bts_merge [] rsb = Ok [0%Z].
Proof.
  exists [0%Z]. split; [reflexivity|]. split; [|reflexivity]. cbv -[Z.add]. now rewrite Z.add_0_r.
Qed.

Lemma bts_merge_one a b : bts_merge [a] [b] = Ok [(a + b)%Z].
Proof. reflexivity. Qed.

(** Blocks that step back. *)
Lemma bts_answer_from lo hi : (lo <= hi)%Z -> forall bs a, Forall (fun d => d <> [] /\ sorted d) bs ->
  exists c, fold_left (fun a d => do rsa <- a; do rsb <- bts_query search d (Some (lo, hi)); bts_merge rsa rsb) bs
              (Ok [a]) = Ok [c] /\
    (a + Z.of_nat (inside lo hi (concat bs)) <= c <= a + Z.of_nat (inside lo hi (concat bs)) + Z.of_nat (length bs))%Z /\
    ((forall d, In d bs -> ~ steps_back d lo) -> c = (a + Z.of_nat (inside lo hi (concat bs)))%Z).
Proof.
  intros LH. induction bs as [|d bs IH]; intros a F; cbn [fold_left concat bind length].
  - exists a. cbn [countb]. split; [reflexivity|]. split; [lia|]. lia.
  - inversion F as [|? ? [NE SD] F']; subst. destruct (bts_query_ok d lo hi NE SD LH) as (Q1 & Q2).
    rewrite countb_app.
    destruct (bound_ok d lo NE SD) as [(_ & N)|(_ & N)].
    + specialize (Q1 N). rewrite Q1. cbn [bind]. rewrite bts_merge_one.
      destruct (IH (a + Z.of_nat (inside lo hi d))%Z F') as (c & E & B & X). exists c. split; auto. split; [lia|].
      intros H. rewrite X by (intros; apply H; now right). lia.
    + specialize (Q2 N). rewrite Q2. cbn [bind]. rewrite bts_merge_one.
      destruct (IH (a + (1 + Z.of_nat (inside lo hi d)))%Z F') as (c & E & B & X). exists c. split; auto. split; [lia|].
      intros H. exfalso. apply (H d); auto. now left.
Qed.

Lemma bts_answer_ok lo hi bs : (lo <= hi)%Z -> bs <> [] -> Forall (fun d => d <> [] /\ sorted d) bs ->
  exists c, bts_answer search lo hi bs = Ok [c] /\
    (Z.of_nat (inside lo hi (concat bs)) <= c <= Z.of_nat (inside lo hi (concat bs)) + Z.of_nat (length bs))%Z /\
    ((forall d, In d bs -> ~ steps_back d lo) -> c = Z.of_nat (inside lo hi (concat bs))).
Proof.
  intros LH NE F. destruct (bts_answer_from lo hi LH bs 0%Z F) as (c & E & B & X). exists c.
  split; [|split; [lia|intros H; rewrite X; auto]].
  rewrite <- E. destruct bs as [|d bs]; [congruence|]. unfold bts_answer. cbn [fold_left]. f_equal.
Qed.

(** In terms of the records the blocks were built from. *)
Definition block_of (rs : list R) d : Prop := bts_build rs = Ok (Some d).

Lemma block_facts rs d : block_of rs d -> d <> [] /\ sorted d /\ Permutation rs (map wrec d).
Proof.
  intros B. assert (NE : rs <> []) by (intros ->; discriminate).
  destruct (bts_build_ok rs NE) as (d' & E & S & P). unfold block_of in B. rewrite E in B. injection B as ->.
  split; auto. intros ->. apply Permutation_sym, Permutation_nil in P. congruence.
Qed.

Lemma inside_perm lo hi rs d : Permutation rs (map wrec d) -> inside lo hi d = in_range lo hi rs.
Proof.
  intros P. unfold in_range. rewrite (countb_perm _ _ _ P). clear. induction d; simpl; auto.
Qed.

Lemma between_perm k rs rs' : Permutation rs rs' -> key_between k rs -> key_between k rs'.
Proof.
  intros P (A & (w & W1 & W2) & (x & X1 & X2) & N). pose proof (Permutation_length P).
  split; [lia|]. split; [exists w; split; auto; eapply Permutation_in; eauto|].
  split; [exists x; split; auto; eapply Permutation_in; eauto|].
  intros r I. apply N. eapply Permutation_in; [symmetry; eauto|auto].
Qed.

Lemma built_query rs d lo hi : block_of rs d -> (lo <= hi)%Z ->
  (~ key_between lo rs -> bts_query search d (Some (lo, hi)) = Ok [Z.of_nat (in_range lo hi rs)]) /\
  (key_between lo rs -> bts_query search d (Some (lo, hi)) = Ok [(1 + Z.of_nat (in_range lo hi rs))%Z]).
Proof.
  intros B LH. destruct (block_facts rs d B) as (NE & SD & P). rewrite <- (inside_perm lo hi rs d P).
  destruct (bts_query_ok d lo hi NE SD LH) as (Q1 & Q2).
  split; intros K; [apply Q1|apply Q2]; rewrite steps_back_iff.
  - intros X. apply K. eapply between_perm; [symmetry|]; eauto.
  - eapply between_perm; eauto.
Qed.

Lemma built_answer lo hi rss bs : (lo <= hi)%Z -> bs <> [] -> Forall2 block_of rss bs ->
  exists c, bts_answer search lo hi bs = Ok [c] /\
    (Z.of_nat (in_range lo hi (concat rss)) <= c <= Z.of_nat (in_range lo hi (concat rss)) + Z.of_nat (length bs))%Z /\
    ((forall rs, In rs rss -> ~ key_between lo rs) -> c = Z.of_nat (in_range lo hi (concat rss))).
Proof.
  intros LH NE F.
  assert (FS : Forall (fun d => d <> [] /\ sorted d) bs).
  { clear NE. induction F; constructor; auto. destruct (block_facts _ _ H) as (? & ? & _). auto. }
  assert (P : Permutation (concat rss) (map wrec (concat bs))).
  { clear NE FS. induction F; simpl; auto. rewrite map_app. destruct (block_facts _ _ H) as (_ & _ & P).
    now apply Permutation_app. }
  assert (SBK : (forall rs, In rs rss -> ~ key_between lo rs) -> forall d, In d bs -> ~ steps_back d lo).
  { clear NE FS P. induction F; intros H0 d I; [destruct I|]. destruct I as [<-|I].
    - rewrite steps_back_iff. intros X. apply (H0 x); [now left|]. destruct (block_facts _ _ H) as (_ & _ & P).
      eapply between_perm; [symmetry|]; eauto.
    - apply IHF; auto. intros rs I'. apply H0. now right. }
  destruct (bts_answer_ok lo hi bs LH NE FS) as (c & E & B & X).
  rewrite (inside_perm lo hi _ _ P) in *. exists c. split; auto.
Qed.

Lemma built_null rs : bts_build rs = Ok None <-> rs = [].
Proof.
  split; [|intros ->; reflexivity]. intros E. destruct rs as [|r rs]; auto.
  destruct (bts_build_ok (r :: rs)) as (d & E' & _); [discriminate|]. rewrite E in E'. discriminate.
Qed.
End BTS.

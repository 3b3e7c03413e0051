(** The search and the kNN query when the distance is any function: they return stored
    records, as many as they should. *)
From Coq Require Import List Arith Bool Lia Permutation.
From Verif Require Import Base RecordModel BufferModel ListLemmas BufferProofs VPModel VPSpec VPProofs KNNProofs.
Import ListNotations.

Section Any.
Context {R : Type} {RO : RecOps R} {D : Type} {DO : DistOps D} {DL : DistLaws D} {MO : MetricOps R D}.
Variable pop : R -> list (wrapped R) -> option (wrapped R * list (wrapped R)).
Context {PM : PQMax pop}.
Variable p : R.
Variable k : nat.
Hypothesis K : 0 < k.

(** The queue [q] and the bound [f] after the records [P]. *)
Definition kpart (P q : list (wrapped R)) (f : option D) : Prop :=
  exists dr, Permutation P (q ++ dr) /\ length q <= k /\ (length q < k -> dr = [] /\ f = None).

Lemma kpart_perm P P' q f : Permutation P P' -> kpart P q f -> kpart P' q f.
Proof. intros HP (dr & A & B). exists dr. split; auto. now rewrite <- HP. Qed.

Lemma kpart_drop P X q t : kpart P q (Some t) -> kpart (P ++ X) q (Some t).
Proof.
  intros (dr & A & B & C). exists (dr ++ X). split; [|split; [auto|]].
  - now rewrite A, app_assoc.
  - intros L. destruct (C L) as (_ & Q). discriminate.
Qed.

Lemma consider_part w P q f : kpart P q f ->
  exists q' f', consider pop p k w q f = Ok (q', f') /\ kpart (P ++ [w]) q' f'.
Proof.
  intros (dr & A & B & C). unfold consider.
  destruct (far_gt (dist p (wrec w)) f) eqn:F.
  - destruct (Nat.eqb_spec (length q) k) as [L|L].
    + destruct (pop_some p q) as (m & q1 & Pm & Hp & _). { intros ->. cbn in L. lia. }
      rewrite Pm. cbn [bind]. pose proof (Permutation_length Hp) as Lp. cbn in Lp.
      destruct (Nat.eqb_spec (length (w :: q1)) k) as [_|N]; [|cbn in N; lia].
      destruct (pop_some p (w :: q1)) as (m' & q2 & Pm' & _); [discriminate|]. rewrite Pm'.
      eexists. eexists. split; [reflexivity|]. exists (m :: dr). split; [|split; cbn; [lia|intros; lia]].
      rewrite A, Hp. cbn. rewrite <- app_assoc, (Permutation_app_comm dr [w]).
      transitivity (m :: w :: q1 ++ dr); [constructor; cbn; symmetry; apply Permutation_middle|].
      transitivity (w :: m :: q1 ++ dr); constructor. apply Permutation_middle.
    + destruct (C ltac:(lia)) as [-> ->]. cbn [bind]. rewrite app_nil_r in A.
      assert (PW : Permutation (P ++ [w]) ((w :: q) ++ [])).
      { rewrite app_nil_r, A. symmetry. apply Permutation_cons_append. }
      destruct (Nat.eqb_spec (length (w :: q)) k) as [Q|Q]; cbn in Q.
      * destruct (pop_some p (w :: q)) as (m' & q2 & Pm' & _); [discriminate|]. rewrite Pm'.
        eexists. eexists. split; [reflexivity|]. exists []. split; [exact PW|]. split; cbn; [lia|intros; lia].
      * eexists. eexists. split; [reflexivity|]. exists []. split; [exact PW|]. split; cbn; [lia|auto].
  - destruct f as [t|]; [|discriminate]. eexists. eexists. split; [reflexivity|]. apply kpart_drop. exists dr. auto.
Qed.

Section Tree.
Variable leafsz : nat.
Variable ps : list (wrapped R * D).
Notation ws := (map fst ps).

Lemma consider_all_part : forall n i P q f, i + n <= length ps -> kpart P q f ->
  exists q' f', consider_all pop p k n i ps q f = Ok (q', f') /\ kpart (P ++ sub i (i + n) ws) q' f'.
Proof.
  induction n as [|n IH]; intros i P q f L H; simpl.
  - exists q, f. split; auto. rewrite sub_nil by lia. now rewrite app_nil_r.
  - destruct (nth_some ps i ltac:(lia)) as (a & A). rewrite (nth_res_some _ _ _ A). cbn [bind].
    destruct (consider_part (fst a) P q f H) as (q1 & f1 & E1 & H1). rewrite E1. cbn [bind].
    destruct (IH (S i) (P ++ [fst a]) q1 f1 ltac:(lia) H1) as (q2 & f2 & E2 & H2).
    exists q2, f2. split; auto. rewrite (sub_cons i _ _ (fst a)) by (try lia; now rewrite nth_error_map, A).
    rewrite <- app_assoc in H2. simpl in H2. now replace (i + S n) with (S (i + n)) by lia.
Qed.

(** Whatever is pruned, the queue is full. *)
Lemma search_part : forall node a e P q f, tree_ok leafsz ws node a e -> e <= length ps -> kpart P q f ->
  exists q' f', internal_search pop p k ps node q f = Ok (q', f') /\ kpart (P ++ sub a e ws) q' f'.
Proof.
  induction node as [|s t|s r ni IHi no IHo]; intros a e P q f T L H.
  - simpl in *. exists q, f. split; auto. rewrite sub_nil by lia. now rewrite app_nil_r.
  - simpl in T. destruct T as (-> & <- & Hlt). cbn [internal_search].
    destruct (consider_all_part (t + 1 - a) a P q f ltac:(lia) H) as (q' & f' & E & H').
    exists q', f'. split; auto. now replace (a + (t + 1 - a)) with (t + 1) in H' by lia.
  - simpl in T. destruct T as (-> & v & m & V & _ & _ & M & Ti & To & _ & _). cbn [internal_search].
    rewrite nth_error_map in V. destruct (nth_error ps a) as [va|] eqn:A; [|discriminate].
    injection V as V. rewrite (nth_res_some _ _ _ A). cbn [bind]. rewrite V.
    destruct (consider_part v P q f H) as (q1 & f1 & E1 & H1). rewrite E1. cbn [bind].
    set (d := dist p (wrec v)).
    assert (Si : forall P' q' f', kpart P' q' f' -> exists q2 f2,
      (if in_reach d r f' then internal_search pop p k ps ni q' f' else Ok (q', f')) = Ok (q2, f2) /\
      kpart (P' ++ sub (a + 1) m ws) q2 f2).
    { intros P' q' f' H'. destruct (in_reach d r f') eqn:Q.
      - apply (IHi (a + 1) m); auto. lia.
      - destruct f' as [t|]; [|discriminate]. exists q', (Some t). split; auto. apply kpart_drop; auto. }
    assert (So : forall P' q' f', kpart P' q' f' -> exists q2 f2,
      (if out_reach d r f' then internal_search pop p k ps no q' f' else Ok (q', f')) = Ok (q2, f2) /\
      kpart (P' ++ sub m e ws) q2 f2).
    { intros P' q' f' H'. destruct (out_reach d r f') eqn:Q.
      - apply (IHo m e); auto.
      - destruct f' as [t|]; [|discriminate]. exists q', (Some t). split; auto. apply kpart_drop; auto. }
    assert (SUB : sub a e ws = [v] ++ sub (a + 1) m ws ++ sub m e ws).
    { rewrite <- sub_app by lia. rewrite Nat.add_1_r. apply sub_cons; [lia|].
      rewrite nth_error_map, A. simpl. now rewrite V. }
    rewrite SUB. destruct (dltb d r).
    + destruct (Si _ _ _ H1) as (q2 & f2 & E2 & H2). rewrite E2. cbn [bind].
      destruct (So _ _ _ H2) as (q3 & f3 & E3 & H3). exists q3, f3. split; auto.
      now rewrite <- !app_assoc in H3.
    + destruct (So _ _ _ H1) as (q2 & f2 & E2 & H2). rewrite E2. cbn [bind].
      destruct (Si _ _ _ H2) as (q3 & f3 & E3 & H3). exists q3, f3. split; auto.
      rewrite <- !app_assoc in H3. eapply kpart_perm; [|exact H3].
      apply Permutation_app_head, Permutation_app_head. apply Permutation_app_comm.
Qed.
End Tree.

Notation anyn := (nearest (fun _ _ : wrapped R => true) k).

Lemma kpart_any P q f : kpart P q f -> anyn P q.
Proof.
  intros (dr & A & B & C). exists dr. split; auto. split; [|auto].
  pose proof (Permutation_length A) as L. rewrite app_length in L.
  destruct (Nat.eq_dec (length q) k) as [Q|Q]; [lia|]. destruct (C ltac:(lia)) as [-> _]. cbn in L. lia.
Qed.

Lemma vp_search_any leafsz t : vp_ok leafsz t -> exists q, vp_search pop t p k = Ok q /\ anyn (vp_data t) q.
Proof.
  intros (HP & T). unfold vp_search.
  destruct (search_part leafsz (vp_ptrs t) (vp_root t) 0 (length (vp_ptrs t)) [] [] None T (le_n _)) as (q & f & E & H).
  - exists []. repeat split; auto; cbn; lia.
  - rewrite E. cbn [bind]. exists q. split; auto. apply (kpart_any _ _ f). eapply kpart_perm; [|exact H].
    simpl. rewrite <- (map_length fst), sub_all. now symmetry.
Qed.

Lemma offer_any w P q : kpart P q None ->
  exists q', offer pop p k w q = Ok q' /\ kpart (P ++ [w]) q' None.
Proof.
  intros (dr & A & B & C). unfold offer. destruct (Nat.ltb_spec (length q) k) as [L|L].
  - destruct (C L) as [-> _]. exists (w :: q). split; auto. exists []. split; [|split; [cbn; lia|auto]].
    rewrite A, !app_nil_r. symmetry. apply Permutation_cons_append.
  - destruct (pop_some p q) as (m & q1 & Pm & Hp & _). { intros ->. cbn in L. lia. }
    rewrite Pm. pose proof (Permutation_length Hp) as Lp. cbn in Lp. destruct (dltb _ _).
    + exists (w :: q1). split; auto. exists (m :: dr). split; [|split; cbn; [lia|intros; lia]].
      rewrite A, Hp. cbn. rewrite <- app_assoc, (Permutation_app_comm dr [w]).
      transitivity (m :: w :: q1 ++ dr); [constructor; cbn; symmetry; apply Permutation_middle|].
      transitivity (w :: m :: q1 ++ dr); constructor. apply Permutation_middle.
    + exists q. split; auto. exists (dr ++ [w]). split; [now rewrite A, app_assoc|]. split; auto. intros; lia.
Qed.

Lemma offers_any ws : exists q, offer_all pop p k ws [] = Ok q /\ anyn ws q.
Proof.
  assert (H : forall P q, kpart P q None -> exists q', offer_all pop p k ws q = Ok q' /\ kpart (P ++ ws) q' None).
  { induction ws as [|w ws' IH]; intros P q H; simpl.
    - exists q. now rewrite app_nil_r.
    - destruct (offer_any w P q H) as (q1 & E1 & H1). rewrite E1. cbn [bind].
      destruct (IH _ _ H1) as (q2 & E2 & H2). exists q2. split; auto. now rewrite <- app_assoc in H2. }
  destruct (H [] []) as (q & E & HQ).
  - exists []. repeat split; auto; cbn; lia.
  - exists q. split; auto. eapply kpart_any; eauto.
Qed.

Lemma knn_any_ok leafsz d v ws ts : v_records d v = Ok ws -> Forall (vp_ok leafsz) ts ->
  exists out, knn_query pop p k d v ts = Ok out /\
    nearest (fun _ _ => true) k (map wrec (filter (fun w => negb (is_del w)) ws ++ concat (map vp_data ts))) out.
Proof.
  intros V T. unfold knn_query, knn_local_buffer. rewrite V. cbn [bind].
  destruct (offers_any (filter (fun w => negb (is_del w)) ws)) as (bl & Eb & Nb). rewrite Eb. cbn [bind].
  assert (exists sl, map_res (fun t => vp_search pop t p k) ts = Ok sl /\
            Forall2 anyn (map vp_data ts) sl) as (sl & Es & Ns).
  { clear V Eb. induction T as [|t ts Ht T IH]; simpl.
    - exists []. split; auto.
    - destruct (vp_search_any leafsz t Ht) as (q & Eq & Nq). rewrite Eq. cbn [bind].
      destruct IH as (sl & -> & F). exists (q :: sl). split; auto. }
  rewrite Es. cbn [bind].
  destruct (offers_any (concat (bl :: sl))) as (q & Eq & Nq). rewrite Eq. cbn [bind].
  eexists. split; [reflexivity|]. eapply nearest_map with (cl := fun _ _ => true); [auto|].
  apply (nearest_parts (fun _ _ => true)) with (alls := filter (fun w => negb (is_del w)) ws :: map vp_data ts) in Nq; auto.
Qed.
End Any.

Section AnyExact.
Context {R : Type} {RO : RecOps R} {D : Type} {DO : DistOps D} {DL : DistLaws D} {MO : MetricOps R D}.

Theorem vp_search_stored pop (PM : PQMax pop) leafsz rng (ws : list (wrapped R)) t p k : 0 < k ->
  vp_build leafsz rng ws = Ok t ->
  exists q rest, vp_search pop t p k = Ok q /\ Permutation ws (q ++ rest) /\ length q = min k (length ws).
Proof.
  intros K B. destruct (vp_built leafsz rng ws t B) as (<- & H).
  destruct (vp_search_any pop p k K leafsz t H) as (q & E & rest & P & L & _). eauto 6.
Qed.

Theorem knn_stored pop (PM : PQMax pop) leafsz p k d v (ws : list (wrapped R)) ts : 0 < k ->
  v_records d v = Ok ws -> (forall t, In t ts -> exists rng ws', vp_build leafsz rng ws' = Ok t) ->
  let all := map wrec (filter (fun w => negb (is_del w)) ws ++ concat (map vp_data ts)) in
  exists out rest, knn_query pop p k d v ts = Ok out /\ Permutation all (out ++ rest) /\ length out = min k (length all).
Proof.
  intros K V T. destruct (knn_any_ok pop p k K leafsz d v ws ts V) as (out & E & rest & P & L & _).
  - apply Forall_forall. intros t Ht. destruct (T t Ht) as (rng & ws' & B). now apply vp_built in B.
  - exists out, rest. auto.
Qed.
End AnyExact.

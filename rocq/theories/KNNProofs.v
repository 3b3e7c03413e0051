(** Proofs about the search of a VPTree, its lookups and the kNN query. *)
From Coq Require Import List Arith Bool Lia Permutation.
From Verif Require Import Base RecordModel BufferModel ListLemmas BufferProofs VPModel VPSpec VPProofs.
Import ListNotations.

Section Search.
Context {R : Type} {RO : RecOps R} {D : Type} {DO : DistOps D} {DL : DistLaws D}
  {MO : MetricOps R D} {ML : MetricLaws R D}.
Variable pop : R -> list (wrapped R) -> option (wrapped R * list (wrapped R)).
Context {PM : PQMax pop}.
Variable p : R.
Variable k : nat.
Notation dw x := (dist p (wrec x)).

Definition closer (x y : wrapped R) : bool := dleb (dw x) (dw y).

(** The queue [q] and the bound [f] after the records [P]. *)
Definition knear (P q : list (wrapped R)) (f : option D) : Prop :=
  exists dr, Permutation P (q ++ dr) /\ length q <= k /\
    (length q < k -> dr = [] /\ f = None) /\
    (length q = k -> exists t, f = Some t /\ (forall x, In x q -> dleb (dw x) t = true) /\
       (exists x, In x q /\ dleb t (dw x) = true) /\ forall y, In y dr -> dleb t (dw y) = true).

Lemma knear_perm P P' q f : Permutation P P' -> knear P q f -> knear P' q f.
Proof. intros HP (dr & A & B). exists dr. split; auto. now rewrite <- HP. Qed.

Lemma knear_drop P X q t : knear P q (Some t) -> (forall x, In x X -> dleb t (dw x) = true) ->
  knear (P ++ X) q (Some t).
Proof.
  intros (dr & A & B & C & E) H. exists (dr ++ X). split; [|split; [auto|split]].
  - now rewrite A, app_assoc.
  - intros L. destruct (C L) as (_ & Q). discriminate.
  - intros L. destruct (E L) as (t' & Q & F & G & K). injection Q as <-. exists t. repeat split; auto.
    intros y Y. apply in_app_or in Y. destruct Y; auto.
Qed.

Lemma pop_ok q : q <> [] -> exists m q', pop p q = Some (m, q') /\ Permutation q (m :: q') /\
  forall x, In x q -> closer x m = true.
Proof. apply pop_some. Qed.

Lemma consider_ok w P q f : 0 < k -> knear P q f ->
  exists q' f', consider pop p k w q f = Ok (q', f') /\ knear (P ++ [w]) q' f'.
Proof.
  intros K (dr & A & B & C & E). unfold consider.
  destruct (Nat.eq_dec (length q) k) as [L|L].
  - destruct (E L) as (t & -> & F & (z & Z & Zt) & G). simpl far_gt.
    destruct (dltb (dw w) t) eqn:W.
    + destruct (Nat.eqb_spec (length q) k) as [_|]; [|lia].
      destruct (pop_ok q) as (m & q1 & Pm & Hp & Hm). { intros ->. destruct Z. }
      rewrite Pm. cbn [bind].
      pose proof (Permutation_length Hp) as Lp. simpl in Lp.
      destruct (Nat.eqb_spec (length (w :: q1)) k) as [_|N]; [|simpl in N; lia].
      destruct (pop_ok (w :: q1)) as (m' & q2 & Pm' & Hp' & Hm'); [discriminate|]. rewrite Pm'.
      exists (w :: q1), (Some (dw m')). split; auto.
      assert (Im' : In m' (w :: q1)) by (rewrite Hp'; left; auto).
      assert (Tm : dleb t (dw m) = true) by (eapply dle_trans; [exact Zt|apply Hm; auto]).
      assert (Tm' : dleb (dw m') t = true).
      { destruct Im' as [<-|I]; [now apply dlt_dle|]. apply F. rewrite Hp. now right. }
      exists (m :: dr). split; [|split; [simpl; lia|split]].
      * rewrite A, Hp. simpl. rewrite <- app_assoc.
        rewrite (Permutation_app_comm dr [w]).
        transitivity (m :: w :: q1 ++ dr).
        { constructor. simpl. symmetry. apply Permutation_middle. }
        transitivity (w :: m :: q1 ++ dr); [constructor|]. constructor. apply Permutation_middle.
      * simpl; lia.
      * intros _. exists (dw m'). split; auto. split; [exact Hm'|]. split.
        -- exists m'. split; auto. apply dle_refl.
        -- intros y [<-|Y]; (eapply dle_trans; [exact Tm'|]); auto.
    + exists q, (Some t). split; auto. apply knear_drop.
      * exists dr. split; auto.
      * intros x [<-|[]]. now apply dle_lt.
  - destruct (C ltac:(lia)) as (-> & ->). simpl far_gt. cbn iota.
    destruct (Nat.eqb_spec (length q) k) as [|_]; [lia|]. cbn [bind].
    destruct (Nat.eqb_spec (length (w :: q)) k) as [Q|Q]; simpl in Q.
    + destruct (pop_ok (w :: q)) as (m' & q2 & Pm' & Hp' & Hm'); [discriminate|]. rewrite Pm'.
      exists (w :: q), (Some (dw m')). split; auto. exists []. split; [|split; [simpl; lia|split]].
      * rewrite A, !app_nil_r. symmetry. apply Permutation_cons_append.
      * simpl. lia.
      * intros _. exists (dw m'). split; auto. split; [exact Hm'|]. split; [|intros y []].
        exists m'. split; [rewrite Hp'; left; auto|apply dle_refl].
    + exists (w :: q), None. split; auto. exists []. split; [|split; [simpl; lia|split]].
      * rewrite A, !app_nil_r. symmetry. apply Permutation_cons_append.
      * auto.
      * simpl. lia.
Qed.

(** The records [a .. e). *)
Definition sub (a e : nat) (ws : list (wrapped R)) : list (wrapped R) := firstn (e - a) (skipn a ws).

Lemma sub_nil a e ws : e <= a -> sub a e ws = [].
Proof. intros. unfold sub. now replace (e - a) with 0 by lia. Qed.
Lemma sub_cons a e ws v : a < e -> nth_error ws a = Some v -> sub a e ws = v :: sub (S a) e ws.
Proof.
  intros H V. unfold sub. replace (e - a) with (S (e - S a)) by lia.
  assert (skipn a ws = v :: skipn (S a) ws) as ->; auto.
  clear H. revert ws V. induction a as [|a IH]; intros [|x ws] V; try discriminate.
  - injection V as ->. reflexivity.
  - apply (IH ws V).
Qed.
Lemma firstn_add {A} (l : list A) : forall n m, firstn (n + m) l = firstn n l ++ firstn m (skipn n l).
Proof. induction l; intros [|n] m; simpl; auto. - now rewrite firstn_nil. - f_equal. apply IHl. Qed.
Lemma skip_add {A} (l : list A) : forall n m, skipn n (skipn m l) = skipn (m + n) l.
Proof. induction l; intros n [|m]; simpl; auto. now rewrite skipn_nil. Qed.
Lemma sub_app a m e ws : a <= m <= e -> sub a e ws = sub a m ws ++ sub m e ws.
Proof.
  intros H. unfold sub. replace (e - a) with ((m - a) + (e - m)) by lia.
  rewrite firstn_add, skip_add. now replace (a + (m - a)) with m by lia.
Qed.
Lemma sub_in a e ws x : In x (sub a e ws) -> exists n, a <= n < e /\ nth_error ws n = Some x.
Proof.
  intros H. apply In_nth_error in H. destruct H as (i & H). unfold sub in H.
  assert (i < e - a).
  { pose proof (nth_lt _ _ _ H) as L. rewrite firstn_length in L. lia. }
  exists (a + i). split; [lia|]. revert H0 H. generalize (e - a) as n. intros n Hn.
  revert ws i n Hn. induction a as [|a IH]; intros ws i n Hn H; simpl in *.
  - revert i n Hn H. induction ws as [|y ws IH]; intros i n Hn H.
    + rewrite firstn_nil in H. destruct i; discriminate.
    + destruct n; [lia|]. destruct i; simpl in *; auto. apply (IH i n); auto. lia.
  - destruct ws as [|y ws].
    + rewrite firstn_nil in H. destruct i; discriminate.
    + apply (IH ws i n Hn H).
Qed.
Lemma sub_all ws : sub 0 (length ws) ws = ws.
Proof. unfold sub. simpl. now rewrite Nat.sub_0_r, firstn_all. Qed.

Section Tree.
Variable leafsz : nat.
Variable ps : list (wrapped R * D).
Notation ws := (map fst ps).

Lemma consider_all_ok : 0 < k -> forall n i P q f, i + n <= length ps -> knear P q f ->
  exists q' f', consider_all pop p k n i ps q f = Ok (q', f') /\ knear (P ++ sub i (i + n) ws) q' f'.
Proof.
  intros K. induction n as [|n IH]; intros i P q f L H; simpl.
  - exists q, f. split; auto. rewrite sub_nil by lia. now rewrite app_nil_r.
  - destruct (nth_some ps i ltac:(lia)) as (a & A). rewrite (nth_res_some _ _ _ A). cbn [bind].
    destruct (consider_ok (fst a) P q f K H) as (q1 & f1 & E1 & H1). rewrite E1. cbn [bind].
    destruct (IH (S i) (P ++ [fst a]) q1 f1 ltac:(lia) H1) as (q2 & f2 & E2 & H2).
    exists q2, f2. split; auto. rewrite (sub_cons i _ _ (fst a)) by (try lia; now rewrite nth_error_map, A).
    rewrite <- app_assoc in H2. simpl in H2. now replace (i + S n) with (S (i + n)) by lia.
Qed.

(** The triangle inequality makes the pruned records too far. *)
Lemma prune_in v x r t : dleb (dist v x) r = true -> dleb (dsub (dist p v) t) r = false ->
  dleb t (dist p x) = true.
Proof.
  intros H Q. unfold dleb in Q. apply negb_false_iff in Q. rewrite dlt_sub in Q.
  pose proof (dist_tri p x v) as T. apply dlt_dle.
  rewrite (dadd_mono _ _ r), (dadd_comm t r). eapply dlt_dle_trans; [exact Q|].
  eapply dle_trans; [exact T|]. rewrite (dadd_comm (dist p x)), (dadd_comm (dist p x)), dle_add.
  now rewrite dist_sym.
Qed.
Lemma prune_out v x r t : dleb r (dist v x) = true -> dleb r (dadd (dist p v) t) = false ->
  dleb t (dist p x) = true.
Proof.
  intros H Q. unfold dleb in Q. apply negb_false_iff in Q.
  pose proof (dist_tri v p x) as T. apply dlt_dle.
  rewrite (dadd_mono _ _ (dist p v)), (dadd_comm t). eapply dlt_dle_trans; [exact Q|].
  eapply dle_trans; [exact H|]. eapply dle_trans; [exact T|].
  rewrite (dist_sym v p), dadd_comm. apply dle_refl.
Qed.

Lemma search_ok : 0 < k -> forall node a e P q f, tree_ok leafsz ws node a e -> e <= length ps -> knear P q f ->
  exists q' f', internal_search pop p k ps node q f = Ok (q', f') /\ knear (P ++ sub a e ws) q' f'.
Proof.
  intros K. induction node as [|s t|s r ni IHi no IHo]; intros a e P q f T L H.
  - simpl in *. exists q, f. split; auto. rewrite sub_nil by lia. now rewrite app_nil_r.
  - simpl in T. destruct T as (-> & <- & Hlt). cbn [internal_search].
    destruct (consider_all_ok K (t + 1 - a) a P q f ltac:(lia) H) as (q' & f' & E & H').
    exists q', f'. split; auto. now replace (a + (t + 1 - a)) with (t + 1) in H' by lia.
  - simpl in T. destruct T as (-> & v & m & V & _ & _ & M & Ti & To & Bi & Bo). cbn [internal_search].
    rewrite nth_error_map in V. destruct (nth_error ps a) as [va|] eqn:A; [|discriminate].
    injection V as V. rewrite (nth_res_some _ _ _ A). cbn [bind]. rewrite V.
    destruct (consider_ok v P q f K H) as (q1 & f1 & E1 & H1). rewrite E1. cbn [bind].
    assert (Si : forall P' q' f', knear P' q' f' -> exists q2 f2,
      (if in_reach (dw v) r f' then internal_search pop p k ps ni q' f' else Ok (q', f')) = Ok (q2, f2) /\
      knear (P' ++ sub (a + 1) m ws) q2 f2).
    { intros P' q' f' H'. destruct (in_reach (dw v) r f') eqn:Q.
      - apply (IHi (a + 1) m); auto. lia.
      - destruct f' as [t|]; [|discriminate]. exists q', (Some t). split; auto. apply knear_drop; auto.
        intros x X. apply sub_in in X. destruct X as (n & Hn & X).
        eapply prune_in; [apply (Bi n x); auto|exact Q]. }
    assert (So : forall P' q' f', knear P' q' f' -> exists q2 f2,
      (if out_reach (dw v) r f' then internal_search pop p k ps no q' f' else Ok (q', f')) = Ok (q2, f2) /\
      knear (P' ++ sub m e ws) q2 f2).
    { intros P' q' f' H'. destruct (out_reach (dw v) r f') eqn:Q.
      - apply (IHo m e); auto.
      - destruct f' as [t|]; [|discriminate]. exists q', (Some t). split; auto. apply knear_drop; auto.
        intros x X. apply sub_in in X. destruct X as (n & Hn & X).
        eapply prune_out; [apply (Bo n x); auto|exact Q]. }
    assert (SUB : sub a e ws = [v] ++ sub (a + 1) m ws ++ sub m e ws).
    { rewrite <- sub_app by lia. rewrite Nat.add_1_r. apply sub_cons; [lia|].
      rewrite nth_error_map, A. simpl. now rewrite V. }
    rewrite SUB. destruct (dltb (dw v) r).
    + destruct (Si _ _ _ H1) as (q2 & f2 & E2 & H2). rewrite E2. cbn [bind].
      destruct (So _ _ _ H2) as (q3 & f3 & E3 & H3). exists q3, f3. split; auto.
      now rewrite <- !app_assoc in H3.
    + destruct (So _ _ _ H1) as (q2 & f2 & E2 & H2). rewrite E2. cbn [bind].
      destruct (Si _ _ _ H2) as (q3 & f3 & E3 & H3). exists q3, f3. split; auto.
      rewrite <- !app_assoc in H3. eapply knear_perm; [|exact H3].
      apply Permutation_app_head, Permutation_app_head. apply Permutation_app_comm.
Qed.
End Tree.

Lemma knear_nearest P q f : knear P q f -> nearest closer k P q.
Proof.
  intros (dr & A & B & C & E). exists dr. split; auto.
  pose proof (Permutation_length A) as L. rewrite app_length in L.
  destruct (Nat.eq_dec (length q) k) as [Q|Q].
  - split; [lia|]. destruct (E Q) as (t & _ & F & _ & G). intros x y X Y. unfold closer.
    eapply dle_trans; eauto.
  - destruct (C ltac:(lia)) as (-> & _). simpl in L. split; [lia|]. intros x y _ [].
Qed.

Lemma vp_search_ok leafsz t : 0 < k -> vp_ok leafsz t ->
  exists q, vp_search pop t p k = Ok q /\ nearest closer k (vp_data t) q.
Proof.
  intros K (HP & T). unfold vp_search.
  destruct (search_ok leafsz (vp_ptrs t) K (vp_root t) 0 (length (vp_ptrs t)) [] [] None T (le_n _)) as (q & f & E & H).
  - exists []. repeat split; auto; simpl; lia.
  - rewrite E. cbn [bind]. exists q. split; auto. apply (knear_nearest _ _ f). eapply knear_perm; [|exact H].
    simpl. rewrite <- (map_length fst), sub_all. now symmetry.
Qed.

(** ** The queue of the query *)
Definition kept (P q : list (wrapped R)) : Prop :=
  exists dr, Permutation P (q ++ dr) /\ length q <= k /\ (length q < k -> dr = []) /\
    forall x y, In x q -> In y dr -> closer x y = true.

Lemma offer_ok w P q : 0 < k -> kept P q ->
  exists q', offer pop p k w q = Ok q' /\ kept (P ++ [w]) q'.
Proof.
  intros K (dr & A & B & C & E). unfold offer. destruct (Nat.ltb_spec (length q) k) as [L|L].
  - rewrite (C L) in *. exists (w :: q). split; auto. exists []. split; [|split; [simpl; lia|split]]; auto.
    + rewrite A, !app_nil_r. symmetry. apply Permutation_cons_append.
  - destruct (pop_ok q) as (m & q1 & Pm & Hp & Hm). { intros ->. simpl in L. lia. }
    rewrite Pm. rewrite (dist_sym (wrec w) p), (dist_sym (wrec m) p).
    pose proof (Permutation_length Hp) as Lp. simpl in Lp.
    assert (Im : In m q) by (rewrite Hp; now left).
    destruct (dltb (dw w) (dw m)) eqn:W.
    + exists (w :: q1). split; auto. exists (m :: dr). split; [|split; [simpl; lia|split]].
      * rewrite A, Hp. simpl. rewrite <- app_assoc.
        rewrite (Permutation_app_comm dr [w]).
        transitivity (m :: w :: q1 ++ dr).
        { constructor. simpl. symmetry. apply Permutation_middle. }
        transitivity (w :: m :: q1 ++ dr); [constructor|]. constructor. apply Permutation_middle.
      * simpl. lia.
      * intros x y X Y. assert (dleb (dw x) (dw m) = true).
        { destruct X as [<-|X]; [now apply dlt_dle|]. apply Hm. rewrite Hp. now right. }
        destruct Y as [<-|Y]; auto. unfold closer. eapply dle_trans; [exact H|]. now apply E.
    + exists q. split; auto. exists (dr ++ [w]). split; [now rewrite A, app_assoc|].
      split; auto. split; [lia|]. intros x y X Y. apply in_app_or in Y. destruct Y as [Y|[<-|[]]]; auto.
      unfold closer. eapply dle_trans; [now apply Hm|]. now apply dle_lt.
Qed.

Lemma offer_all_ok : 0 < k -> forall ws P q, kept P q ->
  exists q', offer_all pop p k ws q = Ok q' /\ kept (P ++ ws) q'.
Proof.
  intros K. induction ws as [|w ws IH]; intros P q H; simpl.
  - exists q. now rewrite app_nil_r.
  - destruct (offer_ok w P q K H) as (q1 & E1 & H1). rewrite E1. cbn [bind].
    destruct (IH _ _ H1) as (q2 & E2 & H2). exists q2. split; auto. now rewrite <- app_assoc in H2.
Qed.

Lemma kept_nearest P q : kept P q -> nearest closer k P q.
Proof.
  intros (dr & A & B & C & E). exists dr. split; auto. split; auto.
  pose proof (Permutation_length A) as L. rewrite app_length in L.
  destruct (Nat.eq_dec (length q) k) as [Q|Q]; [lia|]. rewrite (C ltac:(lia)) in L. simpl in L. lia.
Qed.

Lemma offers_ok ws : 0 < k -> exists q, offer_all pop p k ws [] = Ok q /\ nearest closer k ws q.
Proof.
  intros K. destruct (offer_all_ok K ws [] []) as (q & E & H).
  - exists []. repeat split; auto; simpl; try lia.
  - exists q. split; auto. now apply kept_nearest.
Qed.
End Search.

(** ** Local results *)
Section Parts.
Context {A : Type}.
Variable cl : A -> A -> bool.
Hypothesis cl_refl : forall x, cl x x = true.
Hypothesis cl_trans : forall x y z, cl x y = true -> cl y z = true -> cl x z = true.

Lemma parts_split k : forall alls outs, Forall2 (nearest cl k) alls outs ->
  exists dr, Permutation (concat alls) (concat outs ++ dr) /\
    forall y, In y dr -> exists o, length o = k /\ (forall x, In x o -> cl x y = true) /\
      forall f, countb f o <= countb f (concat outs).
Proof.
  induction 1 as [|a o alls outs (rest & P & L & C) F (dr & PD & HD)].
  - exists []. split; auto. intros y [].
  - exists (rest ++ dr). split.
    + simpl. rewrite P, PD, <- !app_assoc. apply Permutation_app_head.
      rewrite !app_assoc. apply Permutation_app_tail, Permutation_app_comm.
    + intros y Y. apply in_app_or in Y. destruct Y as [Y|Y].
      * exists o. split; [|split].
        -- pose proof (Permutation_length P) as Q. rewrite app_length in Q.
           destruct rest; [destruct Y|]. simpl in Q. lia.
        -- intros x X. now apply C.
        -- intros f. simpl. rewrite countb_app. lia.
      * destruct (HD y Y) as (o' & Lo & Co & Fo). exists o'. split; auto. split; auto.
        intros f. simpl. rewrite countb_app. specialize (Fo f). lia.
Qed.

Lemma nearest_parts k alls outs out : Forall2 (nearest cl k) alls outs ->
  nearest cl k (concat outs) out -> nearest cl k (concat alls) out.
Proof.
  intros F (rest & P & L & C). destruct (parts_split k alls outs F) as (dr & PD & HD).
  exists (rest ++ dr). split; [|split].
  - rewrite PD, P. now rewrite app_assoc.
  - pose proof (Permutation_length PD) as Q. rewrite app_length in Q. rewrite L.
    destruct dr as [|y dr]; [simpl in Q; lia|].
    destruct (HD y) as (o & Lo & _ & Fo); [now left|]. specialize (Fo (fun _ => true)).
    rewrite !countb_true in Fo by auto. lia.
  - intros x y X Y. apply in_app_or in Y. destruct Y as [Y|Y]; [now apply C|].
    destruct (cl x y) eqn:E; auto. exfalso. destruct (HD y Y) as (o & Lo & Co & Fo).
    specialize (Fo (fun z => negb (cl x z))). rewrite (countb_perm _ _ _ P), countb_app in Fo.
    rewrite countb_true in Fo.
    2:{ intros z Z. destruct (cl x z) eqn:Q; auto. rewrite (cl_trans x z y) in E; auto. }
    rewrite (countb_false _ rest) in Fo by (intros z Z; now rewrite (C x z)).
    assert (countb (fun z => negb (cl x z)) out < length out); [|lia].
    clear - X cl_refl. induction out as [|z out IH]; [destruct X|]. simpl. destruct X as [->|X].
    + rewrite cl_refl. simpl. pose proof (countb_le (fun z => negb (cl x z)) out). lia.
    + specialize (IH X). destruct (negb (cl x z)); lia.
Qed.
End Parts.

Lemma nearest_map {A B} (g : A -> B) (cl : A -> A -> bool) (cl' : B -> B -> bool) k all out :
  (forall x y, cl x y = true -> cl' (g x) (g y) = true) ->
  nearest cl k all out -> nearest cl' k (map g all) (map g out).
Proof.
  intros H (rest & P & L & C). exists (map g rest). split; [|split].
  - rewrite <- map_app. now apply Permutation_map.
  - now rewrite !map_length.
  - intros x y X Y. apply in_map_iff in X, Y. destruct X as (a & <- & X), Y as (b & <- & Y). auto.
Qed.

(** ** The query *)
Section Query.
Context {R : Type} {RO : RecOps R} {D : Type} {DO : DistOps D} {DL : DistLaws D}
  {MO : MetricOps R D} {ML : MetricLaws R D}.
Variable pop : R -> list (wrapped R) -> option (wrapped R * list (wrapped R)).
Context {PM : PQMax pop}.

Definition closer_rec (p x y : R) : bool := dleb (dist p x) (dist p y).

Lemma knn_query_ok leafsz p k d v ws ts : 0 < k -> v_records d v = Ok ws -> Forall (vp_ok leafsz) ts ->
  exists out, knn_query pop p k d v ts = Ok out /\
    nearest (closer_rec p) k
      (map wrec (filter (fun w => negb (is_del w)) ws ++ concat (map vp_data ts))) out.
Proof.
  intros K V T. unfold knn_query, knn_local_buffer. rewrite V. cbn [bind].
  destruct (offers_ok pop p k (filter (fun w => negb (is_del w)) ws) K) as (bl & Eb & Nb). rewrite Eb. cbn [bind].
  assert (exists sl, map_res (fun t => vp_search pop t p k) ts = Ok sl /\
            Forall2 (nearest (closer p) k) (map vp_data ts) sl) as (sl & Es & Ns).
  { clear V Eb. induction T as [|t ts Ht T IH]; simpl.
    - exists []. split; auto.
    - destruct (vp_search_ok pop p k leafsz t K Ht) as (q & Eq & Nq). rewrite Eq. cbn [bind].
      destruct IH as (sl & -> & F). exists (q :: sl). split; auto. }
  rewrite Es. cbn [bind].
  destruct (offers_ok pop p k (concat (bl :: sl)) K) as (q & Eq & Nq). rewrite Eq. cbn [bind].
  eexists. split; [reflexivity|]. eapply nearest_map with (cl := closer p); [auto|].
  apply (nearest_parts (closer p)) with (alls := filter (fun w => negb (is_del w)) ws :: map vp_data ts) in Nq.
  - exact Nq.
  - intros x. apply dle_refl.
  - intros x y z. apply dle_trans.
  - constructor; auto.
Qed.
End Query.

(** ** Point lookups *)
Section Lookup.
Context {R : Type} {RO : RecOps R} {D : Type} {DO : DistOps D} {DL : DistLaws D}
  {MO : MetricOps R D}.
Variable leafsz : nat.
Variable ps : list (wrapped R * D).
Notation ws := (map fst ps).

Definition hit (r : R) (o : option nat) : Prop :=
  forall i, o = Some i -> exists w, nth_error ws i = Some w /\ req (wrec w) r = true.

Lemma scan_leaf_ok r : forall n i, i + n <= length ps ->
  exists o, scan_leaf n i ps r = Ok o /\ hit r o /\
    (o = None -> forall m w, i <= m < i + n -> nth_error ws m = Some w -> req (wrec w) r = false).
Proof.
  induction n as [|n IH]; intros i L; simpl.
  - exists None. split; auto. split; [discriminate|]. intros; lia.
  - destruct (nth_some ps i ltac:(lia)) as (a & A). rewrite (nth_res_some _ _ _ A). cbn [bind].
    destruct (req (wrec (fst a)) r) eqn:E.
    + exists (Some i). split; auto. split; [|discriminate]. intros j [= <-].
      exists (fst a). now rewrite nth_error_map, A.
    + destruct (IH (S i) ltac:(lia)) as (o & Eo & H & C). exists o. split; auto. split; auto.
      intros -> m w Hm W. destruct (Nat.eq_dec m i) as [->|].
      * rewrite nth_error_map, A in W. injection W as <-. auto.
      * apply (C eq_refl m w); auto. lia.
Qed.

Lemma vp_lookup_ok r : 2 <= leafsz -> forall node a e, tree_ok leafsz ws node a e -> a < e <= length ps ->
  exists o, vp_lookup ps node r = Ok o /\ hit r o.
Proof.
  intros HL. induction node as [|s t|s rd ni IHi no IHo]; intros a e T L; cbn [vp_lookup].
  - simpl in T. lia.
  - destruct T as (-> & <- & _). destruct (scan_leaf_ok r (t + 1 - a) a ltac:(lia)) as (o & E & H & _).
    now exists o.
  - destruct T as (-> & v & m & V & Em & El & M & Ti & To & _).
    destruct (nth_some ps a ltac:(lia)) as (va & A). rewrite (nth_res_some _ _ _ A). cbn [bind].
    destruct (req (wrec (fst va)) r).
    + destruct (scan_leaf_ok r (0 + 1 - a) a ltac:(lia)) as (o & E & H & _). now exists o.
    + assert (a + 1 < m).
      { pose proof (Nat.div_mod (a + e) 2 ltac:(lia)). pose proof (Nat.mod_upper_bound (a + e) 2 ltac:(lia)). lia. }
      destruct (dleb rd (dist r (wrec (fst va)))).
      * apply (IHo m e); auto. lia.
      * apply (IHi (a + 1) m); auto. lia.
Qed.
End Lookup.

Section Lookup2.
Context {R : Type} {RO : RecOps R} {D : Type} {DO : DistOps D} {DL : DistLaws D}
  {MO : MetricOps R D}.

Lemma vp_point_lookup_ok leafsz rng ws r t : 2 <= leafsz -> ws <> [] -> vp_build leafsz rng ws = Ok t ->
  exists o, vp_point_lookup t r = Ok o /\
    (forall i, o = Some i -> exists w, nth_error (map fst (vp_ptrs t)) i = Some w /\ In w ws /\
                             req (wrec w) r = true) /\
    (length ws <= leafsz + 1 -> (exists w, In w ws /\ req (wrec w) r = true) -> o <> None).
Proof.
  intros HL NE B. destruct (vp_build_ok leafsz rng ws) as (t' & B' & Dt & P & T).
  rewrite B in B'. injection B' as <-. rewrite Dt in P.
  assert (LP : length (vp_ptrs t) = length ws).
  { rewrite <- (map_length fst). symmetry. now apply Permutation_length. }
  assert (0 < length ws) by (destruct ws; [congruence|simpl; lia]).
  unfold vp_point_lookup.
  destruct (vp_lookup_ok leafsz (vp_ptrs t) r HL (vp_root t) 0 _ T ltac:(lia)) as (o & E & H').
  exists o. split; auto. split.
  - intros i Hi. destruct (H' i Hi) as (w & W & Q). exists w. split; auto. split; auto.
    eapply Permutation_in; [symmetry; exact P|]. eapply nth_error_In; eauto.
  - intros Hs (w & W & Q) ->. destruct (vp_root t) as [|s e|s rd ni no].
    + simpl in T. lia.
    + destruct T as (-> & T & _). cbn [vp_lookup] in E.
      destruct (scan_leaf_ok (vp_ptrs t) r (e + 1 - 0) 0 ltac:(lia)) as (o & E' & _ & C).
      rewrite E' in E. injection E as ->. rewrite P in W. apply In_nth_error in W. destruct W as (m & W).
      pose proof (nth_lt _ _ _ W) as LM. rewrite map_length in LM.
      rewrite (C eq_refl m w) in Q; [discriminate| |auto]. lia.
    + destruct T as (_ & v & m & _ & _ & T & _). lia.
Qed.

Lemma first_copy_ok r : forall ws i,
  match first_copy i ws r with
  | Some j => exists w, i <= j /\ nth_error ws (j - i) = Some w /\ req (wrec w) r = true
  | None => forall w, In w ws -> req (wrec w) r = false
  end.
Proof.
  induction ws as [|w ws IH]; intros i; simpl; [intros ? []|].
  destruct (req (wrec w) r) eqn:E.
  - exists w. rewrite Nat.sub_diag. auto.
  - specialize (IH (S i)). destruct (first_copy (S i) ws r) as [j|].
    + destruct IH as (x & L & N & Q). exists x. split; [lia|]. split; auto.
      replace (j - i) with (S (j - S i)) by lia. auto.
    + intros x [<-|X]; auto.
Qed.
End Lookup2.

(** ** Constructors *)
Section Ctor.
Context {R : Type} {RO : RecOps R} {D : Type} {DO : DistOps D} {DL : DistLaws D}
  {MO : MetricOps R D}.

Lemma vp_from_view_ok leafsz rng d v ws : v_records d v = Ok ws ->
  exists t, vp_from_view leafsz rng d v = Ok t /\ vp_ok leafsz t /\
    vp_data t = map mask3 (filter (fun w => negb (is_del w)) ws).
Proof.
  intros V. unfold vp_from_view. rewrite V. cbn [bind].
  destruct (vp_build_ok leafsz rng (map mask3 (filter (fun w => negb (is_del w)) ws))) as (t & E & Q & H).
  now exists t.
Qed.
Lemma vp_from_shards_ok leafsz rng ts :
  exists t, vp_from_shards leafsz rng ts = Ok t /\ vp_ok leafsz t /\
    vp_data t = filter (fun w => negb (is_del w)) (concat (map vp_data ts)).
Proof.
  unfold vp_from_shards.
  destruct (vp_build_ok leafsz rng (filter (fun w => negb (is_del w)) (concat (map vp_data ts)))) as (t & E & Q & H).
  now exists t.
Qed.

Lemma vp_from_view_recs leafsz rng d v ws : v_records d v = Ok ws ->
  exists t, vp_from_view leafsz rng d v = Ok t /\
    map wrec (vp_data t) = map wrec (filter (fun w => negb (is_del w)) ws).
Proof.
  intros V. destruct (vp_from_view_ok leafsz rng d v ws V) as (t & E & _ & Q).
  exists t. split; auto. rewrite Q, map_map. reflexivity.
Qed.
Lemma vp_from_shards_recs leafsz rng ts :
  exists t, vp_from_shards leafsz rng ts = Ok t /\
    map wrec (vp_data t) = map wrec (filter (fun w => negb (is_del w)) (concat (map vp_data ts))).
Proof.
  destruct (vp_from_shards_ok leafsz rng ts) as (t & E & _ & Q). exists t. split; auto. now rewrite Q.
Qed.

Lemma vp_built leafsz rng ws t : vp_build leafsz rng ws = Ok t -> vp_data t = ws /\ vp_ok leafsz t.
Proof.
  intros B. destruct (vp_build_ok leafsz rng ws) as (t' & B' & Q). rewrite B in B'. now injection B' as <-.
Qed.
End Ctor.

Section Exact.
Context {R : Type} {RO : RecOps R} {D : Type} {DO : DistOps D} {DL : DistLaws D}
  {MO : MetricOps R D}.

Lemma vp_build_keeps leafsz rng (ws : list (wrapped R)) :
  exists t, vp_build leafsz rng ws = Ok t /\ vp_data t = ws.
Proof. destruct (vp_build_ok leafsz rng ws) as (t & E & Q & _). now exists t. Qed.

Lemma vp_search_exact {ML : MetricLaws R D} pop (PM : PQMax pop) leafsz rng ws t p k : 0 < k ->
  vp_build leafsz rng ws = Ok t ->
  exists q, vp_search pop t p k = Ok q /\ nearest (closer p) k ws q.
Proof. intros K B. destruct (vp_built leafsz rng ws t B) as (<- & H). now apply vp_search_ok with leafsz. Qed.

Lemma knn_exact {ML : MetricLaws R D} pop (PM : PQMax pop) leafsz p k d v ws ts : 0 < k ->
  v_records d v = Ok ws -> (forall t, In t ts -> exists rng ws', vp_build leafsz rng ws' = Ok t) ->
  exists out, knn_query pop p k d v ts = Ok out /\
    nearest (closer_rec p) k
      (map wrec (filter (fun w => negb (is_del w)) ws ++ concat (map vp_data ts))) out.
Proof.
  intros K V T. apply knn_query_ok with leafsz; auto. apply Forall_forall. intros t Ht.
  destruct (T t Ht) as (rng & ws' & B). now apply vp_built in B.
Qed.

Lemma vp_map_lookup_ok (t : vptree R D) r :
  match vp_map_lookup t r with
  | Some i => exists w, nth_error (vp_data t) i = Some w /\ req (wrec w) r = true
  | None => forall w, In w (vp_data t) -> req (wrec w) r = false
  end.
Proof.
  unfold vp_map_lookup. pose proof (first_copy_ok r (vp_data t) 0) as H.
  destruct (first_copy 0 (vp_data t) r); auto. destruct H as (w & _ & H & Q). exists w.
  now rewrite Nat.sub_0_r in H.
Qed.
End Exact.

(** ** An instance: integer distances between keys *)
Require Import ZArith.
Global Instance z_dist : DistOps Z :=
  {| dltb := Z.ltb; dadd := Z.add; dsub := Z.sub; dzero := 0%Z |}.
Global Instance z_dist_laws : DistLaws Z.
Proof.
  constructor; cbn; intros.
  - apply Z.ltb_irrefl.
  - rewrite Z.ltb_lt in *. lia.
  - rewrite Z.ltb_ge in *. lia.
  - lia.
  - destruct (Z.ltb_spec a b), (Z.ltb_spec (a + c) (b + c)); auto; lia.
  - lia.
Qed.
Global Instance kv_metric : MetricOps kv Z := {| dist := fun a b => Z.abs (rkey a - rkey b) |}.
Global Instance kv_metric_laws : MetricLaws kv Z.
Proof.
  constructor; cbn; intros.
  - lia.
  - apply dle_lt. cbn. apply Z.ltb_ge. lia.
Qed.

(** A queue that pops the first of the farthest entries. *)
Section Pop.
Context {R : Type} {D : Type} {DO : DistOps D} {DL : DistLaws D} {MO : MetricOps R D}.
Fixpoint pop_far (p : R) (l : list (wrapped R)) : option (wrapped R * list (wrapped R)) :=
  match l with
  | [] => None
  | w :: l' =>
      match pop_far p l' with
      | None => Some (w, [])
      | Some (m, r) => if dltb (dist p (wrec w)) (dist p (wrec m)) then Some (m, w :: r) else Some (w, l')
      end
  end.
Global Instance pop_far_max : PQMax pop_far.
Proof.
  constructor; auto. intros p. induction l as [|w l IH]; [congruence|]. intros _. simpl.
  destruct l as [|w' l].
  - simpl. exists w, []. repeat split; auto. intros x [<-|[]]. apply dle_refl.
  - destruct IH as (m & r & E & P & M); [discriminate|]. rewrite E.
    destruct (dltb (dist p (wrec w)) (dist p (wrec m))) eqn:Q.
    + exists m, (w :: r). split; auto. split.
      * rewrite P. constructor.
      * intros x [<-|X]; [now apply dlt_dle|auto].
    + exists w, (w' :: l). split; auto. split; auto.
      intros x [<-|X]; [apply dle_refl|]. eapply dle_trans; [now apply M|]. now apply dle_lt.
Qed.
End Pop.

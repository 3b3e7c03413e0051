(** The distribution of the samples. *)
From Coq Require Import List Arith ZArith NArith Lia Bool Sorted Permutation FinFun.
From Verif Require Import Base RecordModel RecordProofs ListLemmas BufferProofs Spec ISAMModel ISAMProofs SampleModel SampleSpec
  SampleProofs.
Import ListNotations.

(** ** Counting *)

Lemma countb_map {A B} (f : A -> B) p : forall l, countb p (map f l) = countb (fun x => p (f x)) l.
Proof. induction l; simpl; auto. Qed.

Lemma outcomes_sum X Y f : outcomes X Y f = sum_list (map (fun x => countb (f x) (seq 0 Y)) (seq 0 X)).
Proof.
  unfold outcomes. induction (seq 0 X) as [|x l IH]; simpl; auto.
  rewrite countb_app, IH, countb_map. reflexivity.
Qed.

Lemma seq_shift_n a n : seq a n = map (fun i => a + i) (seq 0 n).
Proof.
  revert a. induction n as [|n IH]; intros a; simpl; auto.
  rewrite Nat.add_0_r. f_equal. rewrite IH, (IH 1), map_map. apply map_ext. intros; lia.
Qed.

Lemma countb_mod n P q : 0 < n -> countb (fun y => P (y mod n)) (seq 0 (q * n)) = q * countb P (seq 0 n).
Proof.
  intros N. induction q as [|q IH]; simpl; auto.
  replace (n + q * n) with (q * n + n) by lia. rewrite seq_app, countb_app, IH. simpl.
  rewrite (seq_shift_n (q * n) n), countb_map.
  rewrite (countb_ext (fun x => P ((q * n + x) mod n)) P); [lia|]. intros i I. apply in_seq in I.
  rewrite Nat.add_comm, Nat.mod_add, Nat.mod_small by lia. auto.
Qed.

Lemma countb_nth {A} (d : A) P : forall l, countb (fun i => P (nth i l d)) (seq 0 (length l)) = countb P l.
Proof.
  induction l as [|x l IH]; simpl; auto. rewrite (seq_shift_n 1), countb_map. f_equal. exact IH.
Qed.

Lemma sum_app l m : sum_list (l ++ m) = sum_list l + sum_list m.
Proof. induction l; simpl; auto. unfold sum_list in *. simpl. lia. Qed.
Lemma sum_const {A} (k : nat) : forall l : list A, sum_list (map (fun _ => k) l) = length l * k.
Proof. induction l; simpl; auto. Qed.

Lemma pick_lt ws x : x < sum_list ws -> exists n, nth_error ws (pick ws x) = Some n /\ 0 < n.
Proof.
  revert x. induction ws as [|w ws IH]; intros x H; unfold sum_list in H; simpl in H; [lia|]. simpl.
  destruct (Nat.ltb_spec x w).
  - exists w. split; auto. lia.
  - apply IH. unfold sum_list. lia.
Qed.

Lemma pick_sum ws g : sum_list (map (fun x => g (pick ws x)) (seq 0 (sum_list ws))) =
  sum_list (map (fun i => nth i ws 0 * g i) (seq 0 (length ws))).
Proof.
  revert g. induction ws as [|w ws IH]; intros g; auto.
  change (sum_list (w :: ws)) with (w + sum_list ws). rewrite seq_app, map_app, sum_app.
  cbn [length]. replace (S (length ws)) with (1 + length ws) by lia. rewrite (seq_app 1), map_app, sum_app.
  f_equal.
  - rewrite (map_ext_in _ (fun _ => g 0)).
    + rewrite sum_const, seq_length. unfold sum_list. simpl. lia.
    + intros x X. apply in_seq in X. simpl. destruct (Nat.ltb_spec x w); [auto|lia].
  - rewrite (seq_shift_n (0 + w)), (seq_shift_n (0 + 1)), !map_map.
    transitivity (sum_list (map (fun x => g (S (pick ws x))) (seq 0 (sum_list ws)))); [|apply (IH (fun i => g (S i)))].
    f_equal. apply map_ext. intros x. simpl.
    destruct (Nat.ltb_spec (w + x) w); [lia|]. do 3 f_equal. lia.
Qed.

(** Each element of each of the sources is drawn equally often. *)
Lemma sources_count {A} (d : A) (P : A -> bool) (srcs : list (list A)) M :
  divisible M (length (concat srcs)) ->
  outcomes (sum_list (map (@length A) srcs)) M
    (fun x y => let s := nth (pick (map (@length A) srcs) x) srcs [] in P (nth (y mod length s) s d))
  = M * countb P (concat srcs).
Proof.
  intros DV. rewrite outcomes_sum.
  set (ls := map (@length A) srcs). cbv zeta.
  rewrite (pick_sum ls (fun i => countb (fun y => P (nth (y mod length (nth i srcs [])) (nth i srcs []) d)) (seq 0 M))).
  unfold ls. rewrite map_length.
  rewrite (map_ext_in _ (fun i => M * countb P (nth i srcs []))).
  - clear. induction srcs as [|s srcs IH]; simpl; auto.
    unfold sum_list in *. simpl. rewrite (seq_shift_n 1), map_map, countb_app.
    rewrite Nat.mul_add_distr_l. f_equal. exact IH.
  - intros i I. apply in_seq in I. set (s := nth i srcs []).
    assert (E : nth i (map (@length A) srcs) 0 = length s).
    { change 0 with (length (@nil A)). rewrite map_nth. auto. }
    rewrite E. destruct s as [|a s'] eqn:Es; [simpl; lia|]. rewrite <- Es.
    assert (L : 0 < length s) by (rewrite Es; simpl; lia).
    destruct (DV (length s)) as (q & ->).
    { split; auto. unfold s. clear -I. revert i I. induction srcs as [|t srcs IH]; intros i I; simpl in *; [lia|].
      rewrite app_length. destruct i as [|i]; [lia|]. specialize (IH i). lia. }
    rewrite (countb_mod (length s) (fun i => P (nth i s d)) q L), countb_nth. lia.
Qed.

(** ** Range sampling *)

(** The sources that the sizes amount to, in order. *)
Fixpoint expand (i : nat) (sizes : list nat) : list nat :=
  match sizes with
  | [] => []
  | n :: r => repeat i n ++ expand (S i) r
  end.

Lemma expand_length sizes : forall i, length (expand i sizes) = sum_list sizes.
Proof.
  induction sizes as [|n r IH]; intros i; simpl; auto. rewrite app_length, repeat_length, IH. reflexivity.
Qed.

Lemma repeat_count a b n : count_occ Nat.eq_dec (repeat a n) b = if Nat.eq_dec a b then n else 0.
Proof. induction n; simpl; [destruct (Nat.eq_dec a b); auto|]. destruct (Nat.eq_dec a b); auto. Qed.

Lemma expand_count sizes : forall i j,
  count_occ Nat.eq_dec (expand i sizes) j = if j <? i then 0 else nth (j - i) sizes 0.
Proof.
  induction sizes as [|n r IH]; intros i j; simpl.
  - destruct (j <? i); destruct (j - i); auto.
  - rewrite count_occ_app, repeat_count, IH.
    destruct (Nat.eq_dec i j), (Nat.ltb_spec j i), (Nat.ltb_spec j (S i)); try lia.
    + subst. rewrite Nat.sub_diag. lia.
    + destruct (j - i) eqn:E; [lia|]. replace (j - S i) with n1 by lia. auto.
Qed.

Section Spread.
Variable rng : nat -> nat.
Variable weights : list nat.
Hypothesis T : sum_list weights <> 0.
Definition chosen c s := map (fun k => pick weights (rng k mod sum_list weights)) (seq c s).

Lemma nth_set_nth : forall (l : list nat) i x j,
  nth j (set_nth i x l) 0 = if (j =? i) && (i <? length l) then x else nth j l 0.
Proof.
  induction l as [|y l IH]; intros i x j; simpl.
  - rewrite andb_false_r. destruct i, j; auto.
  - destruct i as [|i], j as [|j]; simpl; auto. rewrite IH. auto.
Qed.
Lemma set_nth_len : forall (l : list nat) i x, length (set_nth i x l) = length l.
Proof. induction l; intros [|i] x; simpl; auto. Qed.

Lemma spread_count : forall s c sizes, length sizes = length weights ->
  exists sizes', spread (exact_alias rng) s c weights sizes = Ok sizes' /\ length sizes' = length weights /\
    forall j, nth j sizes' 0 = nth j sizes 0 + count_occ Nat.eq_dec (chosen c s) j.
Proof.
  induction s as [|s IH]; intros c sizes L; cbn [spread].
  - exists sizes. repeat split; auto.
  - set (i := exact_alias rng weights c).
    assert (B : rng c mod sum_list weights < sum_list weights) by (apply Nat.mod_upper_bound; auto).
    destruct (pick_lt weights _ B) as (n & N & _). fold (exact_alias rng weights c) in N. fold i in N.
    assert (I : i < length sizes) by (rewrite L; apply nth_error_Some; congruence).
    unfold nth_res. rewrite (nth_error_nth' sizes 0 I). cbn [bind].
    destruct (IH (S c) (set_nth i (S (nth i sizes 0)) sizes)) as (z & E & Lz & C).
    { rewrite set_nth_len. auto. }
    exists z. split; auto. split; auto. intros j. rewrite C, nth_set_nth.
    unfold chosen. cbn [seq map count_occ]. fold (exact_alias rng weights c). fold i.
    destruct (Nat.ltb_spec i (length sizes)); [|lia]. rewrite andb_true_r.
    destruct (Nat.eqb_spec j i), (Nat.eq_dec i j); subst; try lia.
Qed.

Lemma spread_perm s c : exists sizes,
  spread (exact_alias rng) s c weights (repeat 0 (length weights)) = Ok sizes /\
  length sizes = length weights /\ Permutation (expand 0 sizes) (chosen c s) /\
  sizes = map (count_occ Nat.eq_dec (chosen c s)) (seq 0 (length weights)).
Proof.
  destruct (spread_count s c (repeat 0 (length weights)) (repeat_length _ _)) as (z & E & L & C).
  assert (Z : forall n j, nth j (repeat 0 n) 0 = 0) by (induction n; intros [|k]; simpl; auto).
  exists z. split; auto. split; auto. split.
  - apply (Permutation_count_occ Nat.eq_dec). intros j.
    rewrite expand_count. simpl. rewrite Nat.sub_0_r, C, Z. auto.
  - apply nth_ext with 0 0; [rewrite map_length, seq_length; auto|]. intros j J. rewrite C, Z.
    rewrite (nth_indep _ 0 (count_occ Nat.eq_dec (chosen c s) 0)) by (rewrite map_length, seq_length; lia).
    rewrite map_nth, seq_nth by lia. auto.
Qed.
End Spread.

Lemma exact_ok rng : alias_contract (exact_alias rng).
Proof. intros ws c H. apply pick_lt. apply Nat.mod_upper_bound. auto. Qed.

Section IRS.
Context {R : Type} {RO : RecOps R} {RL : RecLaws R} {KO : KeyOps R} {KL : KeyLaws R}.
Variables lbf ubf : list (wrapped R) -> Z -> res nat.
Hypothesis BE : bounds_exact lbf ubf.
Variables l u : Z.
Hypothesis LU : (l <= u)%Z.
Notation cl d := (countb (fun w => (rkey (wrec w) <? l)%Z) d).
Notation cu d := (countb (fun w => (rkey (wrec w) <=? u)%Z) d).
Notation pre := (pre l u).

Definition dflt : wrapped R := W 0%N rzero.
Definition seg (d : list (wrapped R)) := filter (in_range l u) d.

Lemma filter_none {A} (p : A -> bool) : forall l, (forall x, In x l -> p x = false) -> filter p l = [].
Proof. induction l0 as [|x l0 IH]; intros H; simpl; auto. rewrite H by (simpl; auto). apply IH. intros; apply H; simpl; auto. Qed.

Lemma slice {A} (p q : A -> bool) : forall d, prefixed p d -> prefixed q d ->
  filter (fun w => negb (p w) && q w) d = firstn (countb q d - countb p d) (skipn (countb p d) d).
Proof.
  induction d as [|a d IH]; intros P Q; [reflexivity|]. inversion P as [|? ? P1 P2]; inversion Q as [|? ? Q1 Q2]; subst.
  rewrite Forall_forall in P2, Q2.
  assert (ZP : p a = false -> forall x, In x d -> p x = false).
  { intros F x X. destruct (p x) eqn:E; auto. rewrite (P2 x X E) in F. discriminate. }
  assert (ZQ : q a = false -> forall x, In x d -> q x = false).
  { intros F x X. destruct (q x) eqn:E; auto. rewrite (Q2 x X E) in F. discriminate. }
  specialize (IH P1 Q1). cbn [filter countb].
  destruct (p a) eqn:Ea, (q a) eqn:Eq; cbn [negb andb].
  - simpl. exact IH.
  - rewrite (countb_false _ _ (ZQ eq_refl)). simpl. apply filter_none. intros x X. rewrite (ZQ eq_refl x X). apply andb_false_r.
  - rewrite IH, (countb_false _ _ (ZP eq_refl)). simpl. rewrite Nat.sub_0_r. auto.
  - rewrite (countb_false _ _ (ZQ eq_refl)). simpl. apply filter_none. intros x X. rewrite (ZQ eq_refl x X). apply andb_false_r.
Qed.

Lemma seg_slice d : sorted d -> seg d = firstn (cu d - cl d) (skipn (cl d) d).
Proof.
  intros S. rewrite <- (slice _ _ d (sorted_lt_key l d S) (sorted_le_key u d S)). apply filter_ext. intros w.
  unfold in_range. f_equal. rewrite Z.ltb_antisym, negb_involutive. auto.
Qed.

Lemma seg_length d : sorted d -> length (seg d) = cu d - cl d.
Proof.
  intros S. rewrite (seg_slice d S), firstn_length, skipn_length.
  pose proof (countb_le (fun w => (rkey (wrec w) <=? u)%Z) d). lia.
Qed.

Lemma seg_weight d : sorted d -> il_weight (pre d) = length (seg d).
Proof.
  intros S. simpl. rewrite (seg_length d S). destruct (Nat.eqb_spec (cl d) (length d)); auto.
  pose proof (countb_le (fun w => (rkey (wrec w) <=? u)%Z) d). lia.
Qed.

Lemma seg_nth d i : sorted d -> i < length (seg d) -> nth_error d (cl d + i) = Some (nth i (seg d) dflt).
Proof.
  intros S I. rewrite <- (nth_error_nth' (seg d) dflt I).
  rewrite (seg_length d S) in I. rewrite (seg_slice d S).
  rewrite nth_error_firstn by lia. rewrite nth_error_skipn. auto.
Qed.

Section Draws.
Variable rng : nat -> nat.

Lemma local_raw d n c : shard_ok d -> (length (seg d) = 0 -> n = 0) ->
  irs_local_query rng n c d (pre d) =
  Ok (map (fun k => nth (rng k mod length (seg d)) (seg d) dflt) (seq c n)).
Proof.
  intros (NE & S) Z. unfold irs_local_query. destruct (Nat.eqb_spec n 0) as [->|N]; [reflexivity|]. cbn [orb].
  pose proof (seg_length d S) as LS. pose proof (countb_le (fun w => (rkey (wrec w) <=? u)%Z) d) as CU.
  cbn [il_lower SampleProofs.pre]. destruct (Nat.eqb_spec (cl d) (length d)) as [Q|Q]; [lia|].
  assert (P : 0 < length (seg d)) by lia. clear Z N.
  revert c. induction n as [|n IH]; intros c; [reflexivity|]. cbn [irs_draws seq map il_upper il_lower SampleProofs.pre].
  rewrite <- LS. destruct (Nat.ltb_spec 0 (length (seg d))) as [_|]; [|lia].
  unfold draw. destruct (Nat.eqb_spec (length (seg d)) 0); [lia|]. cbn [bind].
  rewrite (seg_nth d _ S) by (apply Nat.mod_upper_bound; lia).
  fold (pre d). rewrite IH. reflexivity.
Qed.

Variable V : nat -> nat -> wrapped R.
Fixpoint drawn (is : list nat) (c : nat) : list (wrapped R) :=
  match is with
  | [] => []
  | i :: r => V i (rng c) :: drawn r (S c)
  end.
Lemma drawn_app a : forall b c, drawn (a ++ b) c = drawn a c ++ drawn b (c + length a).
Proof.
  induction a as [|i a IH]; intros b c; simpl; [f_equal; lia|]. rewrite IH. do 3 f_equal. lia.
Qed.
Lemma drawn_repeat i n : forall c, drawn (repeat i n) c = map (fun k => V i (rng k)) (seq c n).
Proof. induction n as [|n IH]; intros c; simpl; auto. rewrite IH. auto. Qed.
Lemma drawn_length is : forall c, length (drawn is c) = length is.
Proof. induction is; intros; simpl; auto. Qed.
Lemma drawn_nth is : forall c j i, nth_error is j = Some i -> nth_error (drawn is c) j = Some (V i (rng (c + j))).
Proof.
  induction is as [|i is IH]; intros c [|j] x H; try discriminate; simpl in *.
  - inversion H. rewrite Nat.add_0_r. auto.
  - rewrite (IH (S c) j x H). do 3 f_equal. lia.
Qed.

Lemma shards_raw : forall ds i0 sizes c, Forall shard_ok ds ->
  (forall j y, j < length ds -> let s := seg (nth j ds []) in V (i0 + j) y = nth (y mod length s) s dflt) ->
  sizes_for (map (@length _) (map seg ds)) sizes ->
  irs_shards rng sizes c ds (map pre ds) = Ok (drawn (expand i0 sizes) c).
Proof.
  induction ds as [|d ds IH]; intros i0 [|n sizes] c F HV (L & Z); try discriminate; [reflexivity|].
  inversion F; subst. cbn [map irs_shards expand].
  rewrite local_raw; auto.
  2: { intros Q. specialize (Z 0). simpl in Z. specialize (Z (f_equal Some Q)). congruence. }
  cbn [bind]. rewrite (IH (S i0) sizes (c + n)); auto.
  - cbn [bind]. rewrite drawn_app, drawn_repeat, repeat_length. do 2 f_equal. apply map_ext. intros k.
    assert (J : 0 < length (d :: ds)) by (simpl; lia). specialize (HV 0 (rng k) J). rewrite Nat.add_0_r in HV. symmetry. exact HV.
  - intros j y J. assert (J' : S j < length (d :: ds)) by (simpl; lia). specialize (HV (S j) y J').
    replace (S i0 + j) with (i0 + S j) by lia. exact HV.
  - simpl in L. split; [lia|]. intros j J. apply (Z (S j)). auto.
Qed.

Lemma buffer_raw pool : forall n c, (length pool = 0 -> n = 0) ->
  irs_buffer_query rng n c l u pool =
  Ok (filter (in_range l u) (map (fun k => nth (rng k mod length pool) pool dflt) (seq c n))).
Proof.
  induction n as [|n IH]; intros c H; [reflexivity|]. cbn [irs_buffer_query seq map filter].
  assert (P : length pool <> 0) by lia. unfold draw. destruct (Nat.eqb_spec (length pool) 0); [lia|]. cbn [bind].
  unfold nth_res. rewrite (nth_error_nth' pool dflt) by (apply Nat.mod_upper_bound; lia). cbn [bind].
  rewrite IH by lia. reflexivity.
Qed.
End Draws.

Variable ws : list (wrapped R).
Variable ds : list (list (wrapped R)).
Hypothesis DO : Forall shard_ok ds.
Variable rej : bool.
Notation pool := (irs_pool rej l u ws).
Definition sources : list (list (wrapped R)) := pool :: map seg ds.
Definition val (i y : nat) : wrapped R := let s := nth i sources [] in nth (y mod length s) s dflt.
Notation wts := (map (@length (wrapped R)) sources).
Notation T := (sum_list wts).

Lemma weights_eq : length pool :: map il_weight (map pre ds) = wts.
Proof.
  unfold sources. cbn [map]. f_equal. rewrite !map_map. apply map_ext_in. intros d D.
  rewrite Forall_forall in DO. apply seg_weight. apply DO. auto.
Qed.

Lemma val_in i y n : nth_error wts i = Some n -> 0 < n -> exists s, nth_error sources i = Some s /\ In (val i y) s.
Proof.
  intros E N. rewrite nth_error_map in E. destruct (nth_error sources i) as [s|] eqn:Es; [|discriminate].
  inversion E; subst. exists s. split; auto. unfold val. rewrite (nth_error_nth _ _ _ Es). apply nth_In.
  apply Nat.mod_upper_bound. lia.
Qed.

Lemma round_raw rng sizes c : sizes_for wts sizes ->
  irs_round rng sizes c l u pool ds (map pre ds) = Ok (filter (in_range l u) (drawn rng val (expand 0 sizes) c)).
Proof.
  intros (L & Z). destruct sizes as [|n sizes]; [discriminate|]. unfold irs_round.
  rewrite buffer_raw.
  2: { intros Q. specialize (Z 0). simpl in Z. rewrite Q in Z. specialize (Z eq_refl). congruence. }
  assert (Z' : sizes_for (map (@length _) (map seg ds)) sizes).
  { simpl in L. split; [lia|]. intros j J. apply (Z (S j)). auto. }
  cbn [bind]. rewrite (shards_raw rng val ds 1 sizes (c + n)); auto.
  - cbn [bind expand]. rewrite drawn_app, drawn_repeat, repeat_length, filter_app. do 2 f_equal.
    symmetry. assert (G : forall j i, nth_error (expand 1 sizes) j = Some i ->
      forall y, in_range l u (val i y) = true).
    { intros j i J y. apply nth_error_In in J. apply (count_occ_In Nat.eq_dec) in J. rewrite expand_count in J.
      destruct (Nat.ltb_spec i 1) as [|I]; [lia|]. destruct i as [|i]; [lia|]. replace (S i - 1) with i in J by lia.
      assert (I' : i < length sizes). { destruct (Nat.lt_ge_cases i (length sizes)); auto. rewrite nth_overflow in J by auto. lia. }
      destruct (nth_error (map (@length _) (map seg ds)) i) as [m|] eqn:M.
      2: { apply nth_error_None in M. destruct Z'. lia. }
      assert (0 < m). { destruct m; [|lia]. apply Z' in M. rewrite (nth_error_nth _ _ _ M) in J. lia. }
      destruct (val_in (S i) y m) as (s & S1 & S2); auto. simpl in S1. rewrite nth_error_map in S1.
      destruct (nth_error ds i); inversion S1; subst. apply filter_In in S2. tauto. }
    revert G. generalize (expand 1 sizes) (c + n). clear. intros is. induction is as [|i is IH]; intros c G; simpl; auto.
    rewrite (G 0 i eq_refl). f_equal. apply IH. intros j x J. apply (G (S j) x J).
  - intros j y J s. unfold val, sources. simpl. unfold s. f_equal.
    + change (@nil (wrapped R)) with (seg []) at 1. rewrite map_nth. auto.
    + change (@nil (wrapped R)) with (seg []) at 1. rewrite map_nth. auto.
Qed.

(** The draws, sorted by source. *)
Definition arranged (ch : list nat) : list nat :=
  expand 0 (map (count_occ Nat.eq_dec ch) (seq 0 (length wts))).

Lemma arranged_perm rng s : T <> 0 -> Permutation (arranged (chosen rng wts 0 s)) (chosen rng wts 0 s).
Proof. intros HT. destruct (spread_perm rng wts HT s 0) as (sizes & _ & _ & P & E). unfold arranged. rewrite <- E. auto. Qed.

Lemma first_round rng s fuel : T <> 0 ->
  irs_query rng (exact_alias rng) lbf ubf (S fuel) rej s l u ws ds =
  let out := filter (in_range l u) (drawn rng val (arranged (chosen rng wts 0 s)) s) in
  if length out <? s then
    do o <- (do sizes' <- irs_distribute (exact_alias rng) (s - length out) (s + s) wts;
             irs_loop rng (exact_alias rng) fuel (s - length out) (s + s + (s - length out)) sizes' wts l u pool ds
               (map pre ds) out);
    Ok (map wrec o)
  else Ok (map wrec out).
Proof.
  intros HT. destruct (spread_perm rng wts HT s 0) as (sizes & E & L & P & Q). unfold arranged. rewrite <- Q.
  unfold irs_query. rewrite (preprocs_ok lbf ubf BE l u LU ds DO). cbn [bind]. cbv zeta. rewrite weights_eq.
  assert (D : irs_distribute (exact_alias rng) s 0 wts = Ok sizes).
  { unfold irs_distribute. destruct (Nat.eqb_spec T 0); [lia|]. auto. }
  destruct (distribute_ok (exact_alias rng) (exact_ok rng) s 0 wts) as (sz & D' & SF & _).
  rewrite D in D'. inversion D'; subst sz. rewrite D. cbn [bind irs_loop].
  rewrite (round_raw rng sizes s SF). cbn [bind]. rewrite app_nil_l.
  assert (Es : sum_list sizes = s).
  { rewrite <- (expand_length sizes 0), (Permutation_length P). unfold chosen. rewrite map_length, seq_length. auto. }
  rewrite Es. destruct (_ <? s); reflexivity.
Qed.

(** One sample is one draw; outside the range it is rejected. *)
Lemma one_sample x y : T <> 0 ->
  irs_query (stream [x; y]) (exact_alias (stream [x; y])) lbf ubf 1 rej 1 l u ws ds =
  let w := val (pick wts (x mod T)) y in
  if in_range l u w then Ok [wrec w] else Fail FFuel.
Proof.
  intros HT. rewrite (first_round (stream [x; y]) 1 0 HT).
  pose proof (arranged_perm (stream [x; y]) 1 HT) as P. revert P.
  generalize (arranged (chosen (stream [x; y]) wts 0 1)). intros is P. unfold chosen in P. cbn [seq map] in P. change (stream [x; y] 0) with x in P.
  apply Permutation_length_1_inv in P || (apply Permutation_sym in P; apply Permutation_length_1_inv in P).
  subst is. cbn [drawn]. change (stream [x; y] 1) with y. cbv zeta. cbn [filter].
  destruct (in_range l u _); [reflexivity|]. cbn [length Nat.ltb Nat.leb Nat.sub].
  destruct (distribute_ok (exact_alias (stream [x; y])) (exact_ok _) 1 (1 + 1) wts) as (sz & -> & _). reflexivity.
Qed.

Lemma filter_twice {A} (p : A -> bool) l0 : filter p (filter p l0) = filter p l0.
Proof. induction l0 as [|x l0 IH]; simpl; auto. destruct (p x) eqn:E; simpl; rewrite ?E, IH; auto. Qed.

Lemma countb_filter_in p l0 : countb (fun w => in_range l u w && p w) (filter (in_range l u) l0) =
  countb (fun w : wrapped R => in_range l u w && p w) l0.
Proof. induction l0 as [|x l0 IH]; simpl; auto. destruct (in_range l u x) eqn:E; simpl; rewrite ?E, IH; auto. Qed.

Lemma countb_sources p : countb (fun w => in_range l u w && p w) (concat sources) =
  countb (fun w => in_range l u w && p w) (ws ++ concat ds).
Proof.
  unfold sources. cbn [concat]. rewrite !countb_app. f_equal.
  - unfold irs_pool. destruct rej; auto. apply countb_filter_in.
  - clear DO. induction ds as [|d ds' IH]; simpl; auto. rewrite !countb_app, IH. f_equal. apply countb_filter_in.
Qed.

Lemma concat_length_sum {A} (ll : list (list A)) : length (concat ll) = sum_list (map (@length A) ll).
Proof. induction ll; simpl; auto. rewrite app_length, IHll. auto. Qed.

Lemma sources_length : length (concat sources) =
  (if rej then length ws else countb (in_range l u) ws) + countb (in_range l u) (concat ds).
Proof.
  unfold sources. cbn [concat]. rewrite app_length. f_equal.
  - unfold irs_pool. destruct rej; auto. symmetry. apply countb_filter.
  - clear DO. induction ds as [|d ds' IH]; simpl; auto. rewrite app_length, countb_app, IH. f_equal. symmetry. apply countb_filter.
Qed.

Lemma countb_bound {A} (p : A -> bool) l0 : countb p l0 <= length l0.
Proof. apply countb_le. Qed.

Theorem irs_uniform M P : divisible M (length (ws ++ concat ds)) ->
  let total := (if rej then length ws else countb (in_range l u) ws) + countb (in_range l u) (concat ds) in
  outcomes total M (fun x y => one_of P
    (irs_query (stream [x; y]) (exact_alias (stream [x; y])) lbf ubf 1 rej 1 l u ws ds))
  = M * countb (fun w => in_range l u w && P (wrec w)) (ws ++ concat ds).
Proof.
  intros DV total. rewrite <- (countb_sources (fun w => P (wrec w))).
  assert (ET : total = T) by (unfold total; rewrite <- sources_length; apply concat_length_sum).
  rewrite ET.
  rewrite <- (sources_count dflt (fun w => in_range l u w && P (wrec w)) sources M).
  2: { intros k K. apply DV. rewrite sources_length in K. rewrite app_length.
       pose proof (countb_bound (in_range l u) ws). pose proof (countb_bound (in_range l u) (concat ds)).
       destruct rej; lia. }
  unfold outcomes. apply countb_ext. intros (x & y) I. apply in_prod_iff in I as (X & Y). cbn [fst snd].
  apply in_seq in X. rewrite one_sample by lia. rewrite Nat.mod_small by lia. cbv zeta.
  unfold val. destruct (in_range l u _) eqn:E; cbn [one_of andb]; auto.
Qed.

(** [s] samples are [s] draws of one, each with its own pair of random numbers. *)
Theorem irs_independent s xs : all_fit ws rej -> (exists r, stored_in_range l u ws ds r) -> length xs = s ->
  exists p, (forall k, k < s -> p k < s) /\ (forall j k, j < s -> k < s -> p j = p k -> j = k) /\
  forall ys fuel, length ys = s -> 0 < fuel -> exists out,
    irs_query (stream (xs ++ ys)) (exact_alias (stream (xs ++ ys))) lbf ubf fuel rej s l u ws ds = Ok out /\
    length out = s /\
    forall k x y, nth_error xs k = Some x -> nth_error ys (p k) = Some y -> exists r,
      nth_error out (p k) = Some r /\
      irs_query (stream [x; y]) (exact_alias (stream [x; y])) lbf ubf 1 rej 1 l u ws ds = Ok [r].
Proof.
  intros AF EX LX.
  assert (HT : T <> 0) by (rewrite <- weights_eq; apply weight_pos; auto).
  set (ch := map (fun x => pick wts (x mod T)) xs).
  assert (CH : forall ys, chosen (stream (xs ++ ys)) wts 0 s = ch).
  { intros ys. unfold chosen, ch. rewrite <- LX. clear. unfold stream.
    rewrite <- (map_map (fun k => nth k (xs ++ ys) 0) (fun v => pick wts (v mod T))). f_equal.
    apply nth_ext with 0 0; [rewrite map_length, seq_length; auto|].
    intros n N. rewrite map_length, seq_length in N.
    rewrite (nth_indep _ 0 (nth 0 (xs ++ ys) 0)) by (rewrite map_length, seq_length; auto).
    rewrite (map_nth (fun k => nth k (xs ++ ys) 0)), seq_nth by auto. apply app_nth1. auto. }
  assert (P : Permutation (arranged ch) ch).
  { rewrite <- (CH []). apply arranged_perm. auto. }
  assert (LC : length ch = s) by (unfold ch; rewrite map_length; auto).
  pose proof (Permutation_length P) as LA. rewrite LC in LA.
  assert (IN : forall i y, In i (arranged ch) -> in_range l u (val i y) = true).
  { intros i y I. apply (Permutation_in _ P) in I. unfold ch in I. apply in_map_iff in I as (x & <- & _).
    assert (B : x mod T < T) by (apply Nat.mod_upper_bound; auto). destruct (pick_lt wts _ B) as (n & N & N0).
    destruct (val_in _ y n N N0) as (src & S1 & S2). apply nth_error_In in S1. destruct S1 as [<-|S1].
    - destruct AF as [AF|AF].
      + unfold irs_pool in S2. rewrite AF in S2. apply filter_In in S2. tauto.
      + apply pool_in in S2. rewrite AF in S2. destruct S2.
    - apply in_map_iff in S1 as (d & <- & _). apply filter_In in S2. tauto. }
  apply Permutation_nth_error in P as (_ & p & INJ & NP).
  exists p. split.
  { intros k K. rewrite <- LA. apply nth_error_Some. rewrite <- NP. apply nth_error_Some. lia. }
  split; [intros; apply INJ; auto|].
  intros ys fuel LY HF. destruct fuel as [|fuel]; [lia|].
  rewrite (first_round (stream (xs ++ ys)) s fuel HT), CH. cbv zeta.
  assert (FA : filter (in_range l u) (drawn (stream (xs ++ ys)) val (arranged ch) s) =
               drawn (stream (xs ++ ys)) val (arranged ch) s).
  { generalize s. revert IN. generalize (arranged ch). clear. induction l0 as [|i is IH]; intros IN c; simpl; auto.
    rewrite IN by (simpl; auto). f_equal. apply IH. intros; apply IN; simpl; auto. }
  rewrite FA, drawn_length, LA, Nat.ltb_irrefl. eexists. split; [reflexivity|].
  split; [rewrite map_length, drawn_length; auto|].
  intros k x y X Y. assert (N : nth_error (arranged ch) (p k) = Some (pick wts (x mod T))).
  { rewrite <- NP. unfold ch. rewrite nth_error_map, X. auto. }
  assert (SY : stream (xs ++ ys) (s + p k) = y).
  { unfold stream. rewrite <- LX, app_nth2_plus. apply nth_error_nth. auto. }
  exists (wrec (val (pick wts (x mod T)) y)). split.
  - rewrite nth_error_map, (drawn_nth _ _ _ _ _ _ N), SY. auto.
  - rewrite one_sample by auto. cbv zeta. rewrite IN; auto. eapply nth_error_In; eauto.
Qed.
End IRS.

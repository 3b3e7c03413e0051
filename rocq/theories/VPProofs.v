(** Proofs about the VPTree: construction and search. *)
From Coq Require Import List Arith Bool Lia Permutation FinFun.
From Verif Require Import Base RecordModel BufferModel ListLemmas VPModel VPSpec.
Import ListNotations.

(** ** Order *)
Section Order.
Context {D : Type} {DO : DistOps D} {DL : DistLaws D}.

Lemma dle_refl a : dleb a a = true.
Proof. unfold dleb. now rewrite dlt_irrefl. Qed.
Lemma dle_lt a b : dleb a b = true <-> dltb b a = false.
Proof. unfold dleb. rewrite negb_true_iff. tauto. Qed.
Lemma dle_trans a b c : dleb a b = true -> dleb b c = true -> dleb a c = true.
Proof. rewrite !dle_lt. intros. eapply dlt_weak; eauto. Qed.
Lemma dlt_asym a b : dltb a b = true -> dltb b a = false.
Proof.
  intros H. destruct (dltb b a) eqn:E; auto. pose proof (dlt_trans _ _ _ H E) as Q.
  rewrite dlt_irrefl in Q. discriminate.
Qed.
Lemma dlt_dle a b : dltb a b = true -> dleb a b = true.
Proof. intros. apply dle_lt. now apply dlt_asym. Qed.
Lemma dlt_dle_trans a b c : dltb a b = true -> dleb b c = true -> dltb a c = true.
Proof.
  intros H G. destruct (dltb a c) eqn:E; auto. apply dle_lt in G.
  rewrite (dlt_weak _ _ _ E G) in H. discriminate.
Qed.
Lemma dle_dlt_trans a b c : dleb a b = true -> dltb b c = true -> dltb a c = true.
Proof.
  intros H G. destruct (dltb a c) eqn:E; auto. apply dle_lt in H.
  rewrite (dlt_weak _ _ _ H E) in G. discriminate.
Qed.
Lemma dle_add a b c : dleb (dadd a c) (dadd b c) = dleb a b.
Proof. unfold dleb. now rewrite <- dadd_mono. Qed.
Lemma dlt_sub a b c : dltb a (dsub b c) = dltb (dadd a c) b.
Proof. now rewrite (dadd_mono a (dsub b c) c), dsub_add. Qed.
End Order.

(** ** Permutations of a part of a list *)
Section Seg.
Context {A : Type}.
Implicit Types l : list A.

Definition seg_perm (a e : nat) l l' : Prop :=
  length l' = length l /\
  exists f, Injective f /\ (forall n, nth_error l' n = nth_error l (f n)) /\
            forall n, n < a \/ e <= n -> f n = n.

Lemma seg_refl a e l : seg_perm a e l l.
Proof. split; auto. exists (fun n => n). repeat split; auto. now intros ? ?. Qed.
Lemma seg_trans a e l1 l2 l3 : seg_perm a e l1 l2 -> seg_perm a e l2 l3 -> seg_perm a e l1 l3.
Proof.
  intros (L1 & f & If & F & Of) (L2 & g & Ig & G & Og). split; [congruence|].
  exists (fun n => f (g n)). split; [|split].
  - intros x y H. apply Ig, If, H.
  - intros n. now rewrite G, F.
  - intros n H. now rewrite Og, Of by auto.
Qed.
Lemma seg_widen a e a' e' l l' : a' <= a -> e <= e' -> seg_perm a e l l' -> seg_perm a' e' l l'.
Proof. intros ? ? (L & f & I & F & O'). split; auto. exists f. repeat split; auto. intros. apply O'. lia. Qed.
Lemma seg_out a e l l' n : seg_perm a e l l' -> n < a \/ e <= n -> nth_error l' n = nth_error l n.
Proof. intros (L & f & I & F & O') H. now rewrite F, O'. Qed.
Lemma seg_in a e l l' n x : seg_perm a e l l' -> a <= n < e -> nth_error l' n = Some x ->
  exists m, a <= m < e /\ nth_error l m = Some x.
Proof.
  intros (L & f & I & F & O') H N. exists (f n). rewrite <- F. split; auto.
  destruct (Nat.lt_ge_cases (f n) a) as [Q|Q].
  - assert (f (f n) = f n) by (apply O'; lia). apply I in H0. lia.
  - destruct (Nat.lt_ge_cases (f n) e) as [Q'|Q']; [lia|].
    assert (f (f n) = f n) by (apply O'; lia). apply I in H0. lia.
Qed.
Lemma seg_length a e l l' : seg_perm a e l l' -> length l' = length l.
Proof. now intros []. Qed.
Lemma seg_permutation a e l l' : seg_perm a e l l' -> Permutation l l'.
Proof. intros (L & f & I & F & _). apply Permutation_nth_error. split; auto. now exists f. Qed.
Lemma nth_some l n : n < length l -> exists x, nth_error l n = Some x.
Proof. intros H. destruct (nth_error l n) eqn:E; eauto. apply nth_error_None in E. lia. Qed.
Lemma nth_lt l n x : nth_error l n = Some x -> n < length l.
Proof. intros H. apply nth_error_Some. congruence. Qed.
Lemma nth_res_some l n x : nth_error l n = Some x -> nth_res n l = Ok x.
Proof. unfold nth_res. now intros ->. Qed.

Lemma set_nth_length i x l : length (set_nth i x l) = length l.
Proof. revert i. induction l; destruct i; simpl; auto. Qed.
Lemma set_nth_at i x l n : nth_error (set_nth i x l) n =
  if (n =? i) && (n <? length l) then Some x else nth_error l n.
Proof.
  revert i n. induction l as [|y l IH]; intros [|i] [|n]; simpl; auto.
  - now destruct (n =? i).
  - rewrite IH. reflexivity.
Qed.
End Seg.

Lemma nth_ext_eq {A} : forall l l' : list A, (forall n, nth_error l n = nth_error l' n) -> l = l'.
Proof.
  induction l as [|x l IH]; intros [|y l'] H; auto.
  - specialize (H 0). discriminate.
  - specialize (H 0). discriminate.
  - f_equal; [specialize (H 0); simpl in H; congruence|]. apply IH. intros n. apply (H (S n)).
Qed.

Lemma seg_map {A B} (g : A -> B) a e l l' : seg_perm a e l l' -> seg_perm a e (map g l) (map g l').
Proof.
  intros (L & f & I & F & O'). split; [now rewrite !map_length|].
  exists f. repeat split; auto. intros n. now rewrite !nth_error_map, F.
Qed.

(** ** Construction *)
Section Build.
Context {R : Type} {RO : RecOps R} {D : Type} {DO : DistOps D} {DL : DistLaws D}
  {MO : MetricOps R D}.
Variable leafsz : nat.
Variable rng : nat -> nat.
Implicit Types ps : list (wrapped R * D).

Lemma vswap_ok i j ps a e : i < length ps -> j < length ps -> a <= i < e -> a <= j < e ->
  exists ps', vswap i j ps = Ok ps' /\ seg_perm a e ps ps' /\
    forall n, nth_error ps' n = nth_error ps (if n =? i then j else if n =? j then i else n).
Proof.
  intros Hi Hj Ii Ij. destruct (nth_some ps i Hi) as (x & X), (nth_some ps j Hj) as (y & Y).
  unfold vswap. rewrite (nth_res_some _ _ _ X), (nth_res_some _ _ _ Y). cbn [bind].
  eexists. split; [reflexivity|].
  assert (N : forall n, nth_error (set_nth j x (set_nth i y ps)) n =
              nth_error ps (if n =? i then j else if n =? j then i else n)).
  { intros n. rewrite !set_nth_at, set_nth_length.
    destruct (Nat.eqb_spec n j) as [->|Nj]; simpl.
    - destruct (Nat.ltb_spec j (length ps)); [|lia]. destruct (Nat.eqb_spec j i) as [->|]; congruence.
    - destruct (Nat.eqb_spec n i) as [->|Ni]; simpl; auto.
      destruct (Nat.ltb_spec i (length ps)); [|lia]. congruence. }
  split; auto. split; [now rewrite !set_nth_length|].
  exists (fun n => if n =? i then j else if n =? j then i else n). split; [|split]; auto.
  - intros u v. destruct (Nat.eqb_spec u i), (Nat.eqb_spec u j), (Nat.eqb_spec v i), (Nat.eqb_spec v j); lia.
  - intros n H. destruct (Nat.eqb_spec n i), (Nat.eqb_spec n j); lia.
Qed.

Definition below (a e : nat) (d : D) ps : Prop :=
  forall n x, a <= n < e -> nth_error ps n = Some x -> dltb (snd x) d = true.
Definition above (a e : nat) (d : D) ps : Prop :=
  forall n x, a <= n < e -> nth_error ps n = Some x -> dltb (snd x) d = false.

Lemma part_loop_ok a stop p : forall k i j ps, nth_error ps stop = Some p -> i + k = stop ->
  a <= j <= i -> below a j (snd p) ps -> above j i (snd p) ps ->
  exists j' ps', part_loop k i stop j ps = Ok (j', ps') /\ seg_perm a stop ps ps' /\ a <= j' <= stop /\
    below a j' (snd p) ps' /\ above j' stop (snd p) ps'.
Proof.
  induction k as [|k IH]; intros i j ps P K J B V; simpl.
  - exists j, ps. assert (i = stop) by lia. subst i. split; [auto|split; [apply seg_refl|auto]].
  - pose proof (nth_lt _ _ _ P) as L. destruct (nth_some ps i ltac:(lia)) as (x & X).
    rewrite (nth_res_some _ _ _ X), (nth_res_some _ _ _ P). cbn [bind].
    destruct (dltb (snd x) (snd p)) eqn:E.
    + destruct (vswap_ok j i ps a stop ltac:(lia) ltac:(lia) ltac:(lia) ltac:(lia)) as (ps1 & S1 & G1 & N1).
      rewrite S1. cbn [bind].
      destruct (IH (S i) (S j) ps1) as (j' & ps' & E' & G' & J' & B' & V').
      * rewrite (seg_out _ _ _ _ stop G1) by lia. auto.
      * lia.
      * lia.
      * intros n y Hn Y. rewrite N1 in Y. destruct (Nat.eqb_spec n j) as [->|].
        -- congruence.
        -- destruct (Nat.eqb_spec n i); [lia|]. apply (B n y); auto. lia.
      * intros n y Hn Y. rewrite N1 in Y. destruct (Nat.eqb_spec n j) as [->|]; [lia|].
        destruct (Nat.eqb_spec n i) as [->|].
        -- apply (V j y); auto. lia.
        -- apply (V n y); auto. lia.
      * exists j', ps'. split; auto. split; [eapply seg_trans; eauto|auto].
    + destruct (IH (S i) j ps P ltac:(lia) ltac:(lia) B) as (j' & ps' & Q).
      * intros n y Hn Y. destruct (Nat.eq_dec n i) as [->|]; [congruence|]. apply (V n y); auto. lia.
      * now exists j', ps'.
Qed.

Lemma partition_ok a stop c ps : a < stop < length ps ->
  exists j ps', partition rng a stop c ps = Ok (j, ps') /\ seg_perm a (S stop) ps ps' /\ a <= j <= stop /\
    forall p, nth_error ps' j = Some p -> below a j (snd p) ps' /\ above j (S stop) (snd p) ps'.
Proof.
  intros H. unfold partition, uniform. destruct (Nat.eqb_spec (stop - a) 0) as [Z0|Z0]; [lia|]. cbn [bind].
  set (x := rng c mod (stop - a)). assert (x < stop - a) by (apply Nat.mod_upper_bound; lia).
  destruct (vswap_ok (a + x) stop ps a (S stop)) as (ps1 & S1 & G1 & _); try lia.
  rewrite S1. cbn [bind]. pose proof (seg_length _ _ _ _ G1) as L1.
  destruct (nth_some ps1 stop ltac:(lia)) as (p & P).
  destruct (part_loop_ok a stop p (stop - a) a a ps1 P) as (j & ps2 & S2 & G2 & J & B & V); try lia.
  { intros ? ? ?; lia. } { intros ? ? ?; lia. }
  rewrite S2. cbn [bind]. pose proof (seg_length _ _ _ _ G2) as L2.
  destruct (vswap_ok j stop ps2 a (S stop)) as (ps3 & S3 & G3 & N3); try lia.
  rewrite S3. cbn [bind]. exists j, ps3. split; auto. split; [|split; [lia|]].
  - eapply seg_trans; [exact G1|]. eapply seg_trans; [|exact G3]. eapply seg_widen; [| |exact G2]; lia.
  - assert (P2 : nth_error ps2 stop = Some p) by (rewrite (seg_out _ _ _ _ stop G2) by lia; auto).
    intros p' P'. rewrite N3, Nat.eqb_refl, P2 in P'. injection P' as <-. split.
    + intros n y Hn Y. rewrite N3 in Y. destruct (Nat.eqb_spec n j); [lia|].
      destruct (Nat.eqb_spec n stop); [lia|]. eapply B; eauto.
    + intros n y Hn Y. rewrite N3 in Y. destruct (Nat.eqb_spec n j).
      * rewrite P2 in Y. injection Y as <-. apply dlt_irrefl.
      * destruct (Nat.eqb_spec n stop).
        -- apply (V j y); auto. lia.
        -- apply (V n y); auto. lia.
Qed.

(** After the selection no entry before [k] is farther than the one at [k], and none
    after it is closer. *)
Definition split_by (a e k : nat) ps : Prop :=
  forall p, nth_error ps k = Some p ->
  (forall n x, a <= n < k -> nth_error ps n = Some x -> dleb (snd x) (snd p) = true) /\
  (forall n x, k <= n < e -> nth_error ps n = Some x -> dleb (snd p) (snd x) = true).

Lemma quickselect_ok k : forall fuel a stop c ps, a <= k <= stop -> stop < length ps -> stop - a <= fuel ->
  exists c' ps', quickselect rng fuel a stop k c ps = Ok (c', ps') /\ seg_perm a (S stop) ps ps' /\
    split_by a (S stop) k ps'.
Proof.
  induction fuel as [|fuel IH]; intros a stop c ps K L F; simpl.
  - destruct (Nat.eqb_spec a stop) as [->|]; [|lia]. exists c, ps. split; auto. split; [apply seg_refl|].
    intros p P. split; intros n x Hn X; [lia|]. replace n with k in X by lia.
    replace x with p by congruence. apply dle_refl.
  - destruct (Nat.eqb_spec a stop) as [->|Na].
    { exists c, ps. split; auto. split; [apply seg_refl|].
      intros p P. split; intros n x Hn X; [lia|]. replace n with k in X by lia.
      replace x with p by congruence. apply dle_refl. }
    destruct (partition_ok a stop c ps ltac:(lia)) as (j & ps1 & S1 & G1 & J & SP).
    rewrite S1. cbn [bind]. pose proof (seg_length _ _ _ _ G1) as L1.
    destruct (nth_some ps1 j ltac:(lia)) as (q & Q). destruct (SP q Q) as (B & V).
    destruct (Nat.ltb_spec k j) as [Kj|Kj].
    + destruct (IH a (j - 1) (S c) ps1) as (c' & ps' & S' & G' & SB); try lia.
      rewrite S'. replace (S (j - 1)) with j in * by lia.
      exists c', ps'. split; auto. split; [eapply seg_trans; [exact G1|eapply seg_widen; [| |exact G']; lia]|].
      intros p P. destruct (SB p P) as (B1 & V1). split; auto. intros n x Hn X.
      destruct (Nat.lt_ge_cases n j) as [Nj|Nj]; [apply (V1 n x); auto; lia|].
      destruct (seg_in _ _ _ _ k p G' ltac:(lia) P) as (m & Hm & M).
      rewrite (seg_out _ _ _ _ n G') in X by lia.
      eapply dle_trans; [apply dlt_dle, (B m p); auto|]. apply dle_lt. apply (V n x); auto. lia.
    + destruct (Nat.ltb_spec j k) as [Jk|Jk].
      * destruct (IH (j + 1) stop (S c) ps1) as (c' & ps' & S' & G' & SB); try lia.
        rewrite S'. exists c', ps'. split; auto.
        split; [eapply seg_trans; [exact G1|eapply seg_widen; [| |exact G']; lia]|].
        intros p P. destruct (SB p P) as (B1 & V1). split; auto. intros n x Hn X.
        destruct (Nat.lt_ge_cases j n) as [Nj|Nj]; [apply (B1 n x); auto; lia|].
        destruct (seg_in _ _ _ _ k p G' ltac:(lia) P) as (m & Hm & M).
        rewrite (seg_out _ _ _ _ n G') in X by lia.
        assert (dleb (snd q) (snd p) = true) by (apply dle_lt; apply (V m p); auto; lia).
        destruct (Nat.eq_dec n j) as [->|]; [congruence|].
        eapply dle_trans; [|exact H]. apply dlt_dle, (B n x); auto. lia.
      * assert (k = j) by lia. subst k. eexists _, ps1. split; [reflexivity|]. split; auto.
        intros p P. replace q with p in * by congruence. split; intros n x Hn X.
        -- apply dlt_dle, (B n x); auto.
        -- apply dle_lt, (V n x); auto.
Qed.

Lemma set_dists_ok v : forall k i ps, i + k <= length ps ->
  exists ps', set_dists k i v ps = Ok ps' /\ map fst ps' = map fst ps /\
    (forall n x, i <= n < i + k -> nth_error ps' n = Some x -> snd x = dist v (wrec (fst x))) /\
    forall n, n < i -> nth_error ps' n = nth_error ps n.
Proof.
  induction k as [|k IH]; intros i ps L; simpl.
  - exists ps. repeat split; auto. intros; lia.
  - destruct (nth_some ps i ltac:(lia)) as (x & X). rewrite (nth_res_some _ _ _ X). cbn [bind].
    destruct (IH (S i) (set_nth i (fst x, dist v (wrec (fst x))) ps)) as (ps' & S' & M & A & B).
    { rewrite set_nth_length. lia. }
    rewrite S'. exists ps'. split; auto. split; [|split].
    + rewrite M. apply nth_ext_eq. intros n. rewrite !nth_error_map, set_nth_at.
      destruct (Nat.eqb_spec n i) as [->|]; simpl; auto.
      destruct (Nat.ltb_spec i (length ps)); [|lia]. symmetry. exact (f_equal (option_map fst) X).
    + intros n y Hn Y. destruct (Nat.eq_dec n i) as [->|].
      * rewrite B, set_nth_at, Nat.eqb_refl in Y by lia. simpl in Y.
        destruct (Nat.ltb_spec i (length ps)); [|lia]. injection Y as <-. reflexivity.
      * apply (A n y); auto. lia.
    + intros n Hn. rewrite B, set_nth_at by lia. destruct (Nat.eqb_spec n i); [lia|]. reflexivity.
Qed.

(** A subtree over the records [a .. e). *)
Fixpoint tree_ok (ws : list (wrapped R)) (node : vpnode D) (a e : nat) : Prop :=
  match node with
  | VNull => e <= a
  | VLeaf s t => s = a /\ t + 1 = e /\ a < e
  | VNode s r i o => s = a /\ exists v m, nth_error ws a = Some v /\
      m = (a + e) / 2 /\ leafsz < e - 1 - a /\ a < m < e /\
      tree_ok ws i (a + 1) m /\ tree_ok ws o m e /\
      (forall n x, a + 1 <= n < m -> nth_error ws n = Some x -> dleb (dist (wrec v) (wrec x)) r = true) /\
      (forall n x, m <= n < e -> nth_error ws n = Some x -> dleb r (dist (wrec v) (wrec x)) = true)
  end.

Lemma tree_ok_ext ws ws' : forall node a e, (forall n, a <= n < e -> nth_error ws' n = nth_error ws n) ->
  tree_ok ws node a e -> tree_ok ws' node a e.
Proof.
  induction node as [|s t|s r i IHi o IHo]; intros a e H T; simpl in *; auto.
  destruct T as (-> & v & m & V & Em & El & M & Ti & To & Bi & Bo). split; auto. exists v, m.
  split; [rewrite H; auto; lia|]. split; auto. split; auto. split; auto. split; [|split; [|split]].
  - apply IHi; auto. intros. apply H. lia.
  - apply IHo; auto. intros. apply H. lia.
  - intros n x Hn X. rewrite H in X by lia. eapply Bi; eauto.
  - intros n x Hn X. rewrite H in X by lia. eapply Bo; eauto.
Qed.

Lemma build_subtree_ok : forall fuel a stop c ps, stop < length ps -> S stop - a <= fuel ->
  exists node c' ps', build_subtree leafsz rng fuel a stop c ps = Ok (node, c', ps') /\
    seg_perm a (S stop) (map fst ps) (map fst ps') /\ tree_ok (map fst ps') node a (S stop).
Proof.
  induction fuel as [|fuel IH]; intros a stop c ps L F; cbn [build_subtree].
  { destruct (Nat.ltb_spec stop a); [|lia]. eexists _, _, _. split; [reflexivity|].
    split; [apply seg_refl|]. simpl. lia. }
  destruct (Nat.ltb_spec stop a) as [Hlt|Hge].
  { eexists _, _, _. split; [reflexivity|]. split; [apply seg_refl|]. simpl. lia. }
  destruct (Nat.leb_spec (stop - a) leafsz) as [Hle|Hgt].
  { eexists _, _, _. split; [reflexivity|]. split; [apply seg_refl|]. simpl. lia. }
  unfold uniform at 1. destruct (Nat.eqb_spec (stop - a + 1) 0) as [Z0|Z0]; [lia|]. cbn [bind].
  set (x := rng c mod (stop - a + 1)). assert (x < stop - a + 1) by (apply Nat.mod_upper_bound; lia).
  destruct (vswap_ok a (a + x) ps a (S stop)) as (ps1 & S1 & G1 & _); try lia.
  rewrite S1. cbn [bind]. pose proof (seg_length _ _ _ _ G1) as L1.
  destruct (nth_some ps1 a ltac:(lia)) as (v & V). rewrite (nth_res_some _ _ _ V). cbn [bind].
  destruct (set_dists_ok (wrec (fst v)) (stop - a) (S a) ps1 ltac:(lia)) as (ps2 & S2 & M2 & D2 & O2).
  rewrite S2. cbn [bind]. set (mid := (a + 1 + stop) / 2).
  assert (Hm : a + 1 <= mid <= stop).
  { unfold mid. pose proof (Nat.div_mod (a + 1 + stop) 2 ltac:(lia)).
    pose proof (Nat.mod_upper_bound (a + 1 + stop) 2 ltac:(lia)). lia. }
  assert (L2 : length ps2 = length ps1) by (rewrite <- (map_length fst ps2), M2; apply map_length).
  destruct (quickselect_ok mid (S (stop - a)) (a + 1) stop (S c) ps2) as (c3 & ps3 & S3 & G3 & SB); try lia.
  rewrite S3. cbn [bind]. pose proof (seg_length _ _ _ _ G3) as L3.
  destruct (nth_some ps3 mid ltac:(lia)) as (m & M). rewrite (nth_res_some _ _ _ M). cbn [bind].
  set (r := dist (wrec (fst v)) (wrec (fst m))).
  assert (D3 : forall n y, a + 1 <= n < S stop -> nth_error ps3 n = Some y ->
                snd y = dist (wrec (fst v)) (wrec (fst y))).
  { intros n y Hn Y. destruct (seg_in _ _ _ _ n y G3 Hn Y) as (n' & Hn' & Y').
    eapply D2; [|exact Y']. lia. }
  assert (V3 : nth_error ps3 a = Some v).
  { rewrite (seg_out _ _ _ _ a G3) by lia. rewrite O2 by lia. auto. }
  set (ps4 := set_nth a (fst v, r) ps3).
  assert (M4 : map fst ps4 = map fst ps3).
  { apply nth_ext_eq. intros n. unfold ps4. rewrite !nth_error_map, set_nth_at.
    destruct (Nat.eqb_spec n a) as [->|]; simpl; auto.
    destruct (Nat.ltb_spec a (length ps3)); [|lia]. symmetry. exact (f_equal (option_map fst) V3). }
  assert (L4 : length ps4 = length ps3) by apply set_nth_length.
  assert (G4 : seg_perm a (S stop) (map fst ps) (map fst ps4)).
  { rewrite M4. eapply seg_trans; [apply seg_map, G1|]. rewrite <- M2.
    eapply seg_widen; [| |apply seg_map, G3]; lia. }
  destruct (SB m M) as (Bm & Vm). assert (Rm : snd m = r) by (apply (D3 mid); auto; lia).
  assert (In4 : forall n y, a + 1 <= n < mid -> nth_error (map fst ps4) n = Some y ->
                 dleb (dist (wrec (fst v)) (wrec y)) r = true).
  { intros n y Hn Y. rewrite M4, nth_error_map in Y. destruct (nth_error ps3 n) as [z|] eqn:Z; [|discriminate].
    injection Y as <-. rewrite <- (D3 n z) by (auto; lia). rewrite <- Rm. apply (Bm n z); auto. }
  assert (Out4 : forall n y, mid <= n < S stop -> nth_error (map fst ps4) n = Some y ->
                 dleb r (dist (wrec (fst v)) (wrec y)) = true).
  { intros n y Hn Y. rewrite M4, nth_error_map in Y. destruct (nth_error ps3 n) as [z|] eqn:Z; [|discriminate].
    injection Y as <-. rewrite <- (D3 n z) by (auto; lia). rewrite <- Rm. apply (Vm n z); auto. }
  destruct (IH (a + 1) (mid - 1) c3 ps4 ltac:(lia) ltac:(lia)) as (ni & c5 & ps5 & S5 & G5 & T5).
  rewrite S5. cbn [bind]. replace (S (mid - 1)) with mid in * by lia.
  pose proof (seg_length _ _ _ _ G5) as L5. rewrite !map_length in L5.
  destruct (IH mid stop c5 ps5 ltac:(lia) ltac:(lia)) as (no & c6 & ps6 & S6 & G6 & T6).
  rewrite S6. cbn [bind]. eexists _, _, _. split; [reflexivity|]. split.
  - eapply seg_trans; [exact G4|]. eapply seg_trans.
    + eapply seg_widen; [| |exact G5]; lia.
    + eapply seg_widen; [| |exact G6]; lia.
  - split; auto. exists (fst v), mid. split; [|split; [unfold mid; f_equal; lia|split; [lia|split; [lia|split; [|split; [auto|split]]]]]].
    + rewrite (seg_out _ _ _ _ a G6), (seg_out _ _ _ _ a G5), M4, nth_error_map, V3 by lia. reflexivity.
    + eapply tree_ok_ext; [|exact T5]. intros. apply (seg_out _ _ _ _ n G6). lia.
    + intros n0 y Hn Y. rewrite (seg_out _ _ _ _ n0 G6) in Y by lia.
      destruct (seg_in _ _ _ _ n0 y G5 ltac:(lia) Y) as (n' & Hn' & Y'). apply (In4 n' y); auto.
    + intros n0 y Hn Y. destruct (seg_in _ _ _ _ n0 y G6 ltac:(lia) Y) as (n' & Hn' & Y').
      rewrite (seg_out _ _ _ _ n' G5) in Y' by lia. apply (Out4 n' y); auto.
Qed.

(** A built shard: its pointers are a permutation of its records, arranged as a tree. *)
Definition vp_ok (t : vptree R D) : Prop :=
  Permutation (vp_data t) (map fst (vp_ptrs t)) /\
  tree_ok (map fst (vp_ptrs t)) (vp_root t) 0 (length (vp_ptrs t)).

Lemma vp_build_ok ws : exists t, vp_build leafsz rng ws = Ok t /\ vp_data t = ws /\ vp_ok t.
Proof.
  destruct ws as [|w ws'].
  { exists (VP [] [] VNull). repeat split; auto. simpl. lia. }
  unfold vp_build. set (ws := w :: ws').
  destruct (build_subtree_ok (S (length ws)) 0 (length ws - 1) 0 (map (fun w => (w, dzero)) ws))
    as (node & c & ps & E & G & T).
  { rewrite map_length. simpl. lia. } { lia. }
  assert (MF : map fst (map (fun w : wrapped R => (w, dzero : D)) ws) = ws) by (rewrite map_map; apply map_id).
  rewrite MF in G.
  cbn [bind]. rewrite E. cbn [bind fst]. exists (VP ws ps node). split; auto. split; auto. split; simpl.
  - eapply seg_permutation. exact G.
  - pose proof (seg_length _ _ _ _ G) as L. rewrite map_length in L.
    replace (S (length ws - 1)) with (length ps) in T; auto. rewrite L. simpl. lia.
Qed.
End Build.

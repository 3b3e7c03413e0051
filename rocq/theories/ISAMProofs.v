(** The ISAM tree is built inside its allocation and its searches count keys. *)
From Coq Require Import List Arith ZArith NArith Lia Bool Permutation Sorted.
From Verif Require Import Base ListLemmas RecordModel RecordProofs MergeProofs Spec QueryProofs SerialProofs ISAMModel.
Import ListNotations.

Lemma ceil_spec : forall x y m, 0 < y -> (m < ceil_div x y <-> m * y < x).
Proof.
  intros x y m Y. unfold ceil_div. pose proof (Nat.div_mod x y ltac:(lia)) as E.
  pose proof (Nat.mod_upper_bound x y ltac:(lia)) as B.
  generalize dependent (x / y). generalize dependent (x mod y). intros r B q E.
  destruct (Nat.eqb_spec r 0); split; intros H.
  - assert (S m * y <= q * y) by (apply Nat.mul_le_mono_r; lia). lia.
  - destruct (Nat.lt_ge_cases m (q + 0)); auto. assert (q * y <= m * y) by (apply Nat.mul_le_mono_r; lia). lia.
  - assert (m * y <= q * y) by (apply Nat.mul_le_mono_r; lia). lia.
  - destruct (Nat.lt_ge_cases m (q + 1)); auto. assert ((q + 1) * y <= m * y) by (apply Nat.mul_le_mono_r; lia). lia.
Qed.

Lemma ceil_pos : forall x y, 0 < y -> 0 < x -> 0 < ceil_div x y.
Proof. intros. apply ceil_spec; lia. Qed.

Lemma ceil_lt : forall x y, 2 <= y -> 2 <= x -> ceil_div x y < x.
Proof.
  intros x y Y X. destruct (Nat.lt_ge_cases (ceil_div x y) x) as [|G]; auto. exfalso.
  assert (H : x - 1 < ceil_div x y) by lia. apply ceil_spec in H; [|lia].
  assert ((x - 1) * 2 <= (x - 1) * y) by (apply Nat.mul_le_mono_l; lia). lia.
Qed.

Lemma ceil_le : forall x y, 0 < y -> ceil_div x y <= x.
Proof.
  intros x y Y. destruct (Nat.le_gt_cases (ceil_div x y) x) as [|G]; auto. exfalso.
  apply ceil_spec in G; [|lia]. assert (x * 1 <= x * y) by (apply Nat.mul_le_mono_l; lia). lia.
Qed.

(** Two numbers with the same smaller numbers are equal. *)
Lemma lt_ext : forall a b : nat, (forall m, m < a <-> m < b) -> a = b.
Proof. intros a b H. pose proof (H a). pose proof (H b). lia. Qed.

Lemma skipn_repeat : forall {A} (x : A) k m, skipn k (repeat x m) = repeat x (m - k).
Proof. induction k; intros [|m]; cbn; auto. Qed.

Lemma nth_repeat_same : forall {A} (x : A) m i, nth i (repeat x m) x = x.
Proof. induction m; intros [|i]; cbn; auto. Qed.

Section IP.
Context {R : Type} {RO : RecOps R} {KO : KeyOps R}.
Variables F L : nat.
Hypothesis HF : 2 <= F.
Hypothesis HL : 1 <= L.
Variable d : list (wrapped R).
Notation n := (length d).
Implicit Types (nodes : list inode) (nd : inode).

Notation dflt := (0%Z, PNull).
Definition keyat (i : nat) : Z := match nth_error d i with Some w => rkey (wrec w) | None => 0%Z end.

Lemma keyat_nth : forall i w, nth_error d i = Some w -> keyat i = rkey (wrec w).
Proof. intros. unfold keyat. rewrite H. auto. Qed.

(** ** The node count *)

Lemma count_total : forall fuel x, 0 < x -> x < fuel -> exists N, count_nodes F fuel x = Ok N /\ 0 < N.
Proof.
  induction fuel as [|fuel IH]; intros x X FU; [lia|]. cbn [count_nodes].
  pose proof (ceil_pos x F ltac:(lia) X) as P.
  destruct (Nat.ltb_spec 1 (ceil_div x F)); [|eauto].
  assert (C : ceil_div x F < x).
  { apply ceil_lt; auto. destruct (Nat.le_gt_cases 2 x); auto. pose proof (ceil_le x F). lia. }
  destruct (IH (ceil_div x F)) as (N & E & _); [lia|lia|]. rewrite E. cbn [bind]. eexists. split; eauto. lia.
Qed.

(** Nodes still to be written above a level of [c] nodes. *)
Definition rest (c r : nat) : Prop := (c <= 1 /\ r = 0) \/ (1 < c /\ exists fuel, count_nodes F fuel c = Ok r).

Lemma count_rest : forall fuel x N, count_nodes F fuel x = Ok N ->
  exists r, N = ceil_div x F + r /\ rest (ceil_div x F) r.
Proof.
  intros [|fuel] x N H; cbn [count_nodes] in H; [discriminate|].
  destruct (Nat.ltb_spec 1 (ceil_div x F)).
  - destruct (count_nodes F fuel (ceil_div x F)) as [r|] eqn:E; cbn [bind] in H; [|discriminate].
    inversion H; subst. exists r. split; auto. right. split; eauto.
  - inversion H; subst. exists 0. split; [lia|]. left. auto.
Qed.

(** ** Nodes *)

(** Node number [m] of a level whose entries span [U] records each. *)
Definition node_spec (U : nat) (cp : nat -> ptr) (m : nat) nd : Prop :=
  length nd = F /\ forall i, i < F ->
    ((m * F + i) * U < n -> snd (nth i nd dflt) = cp (m * F + i)) /\
    (n <= (m * F + i) * U -> snd (nth i nd dflt) = PNull) /\
    ((m * F + i + 1) * U < n -> fst (nth i nd dflt) = keyat ((m * F + i + 1) * U - 1)).

Lemma node_of_len : forall es, length es <= F -> length (node_of F es) = F.
Proof. intros es H. unfold node_of, zero_node. rewrite app_length, skipn_length, repeat_length. lia. Qed.

Lemma node_of_nth : forall es i, nth i (node_of F es) dflt = nth i es dflt.
Proof.
  intros es i. unfold node_of, zero_node. rewrite skipn_repeat. destruct (Nat.lt_ge_cases i (length es)).
  - apply app_nth1. auto.
  - rewrite app_nth2 by auto. rewrite (nth_overflow es) by auto. apply nth_repeat_same.
Qed.

Lemma write_ok : forall nodes cur es, cur < length nodes ->
  write_node F nodes cur es = Ok (set_nth cur (node_of F es) nodes).
Proof. intros. unfold write_node. destruct (Nat.ltb_spec cur (length nodes)); auto. lia. Qed.

Lemma leaf_entries_ok : forall k i base, exists es, leaf_entries L d k i base = Ok es /\
  (forall x, x < length es <-> x < k /\ base + L * (i + x) < n) /\
  forall x, x < length es ->
    nth x es dflt = (keyat (Nat.min (base + L * (i + x) + L - 1) (n - 1)), PLeaf (base + L * (i + x))).
Proof.
  induction k as [|k IH]; intros i base; cbn [leaf_entries].
  - exists []. split; auto. cbn. split; intros; lia.
  - destruct (Nat.leb_spec n (base + L * i)).
    + exists []. split; auto. cbn. split; [|intros; lia]. intros x. split; [lia|]. intros [_ H1].
      assert (L * i <= L * (i + x)) by (apply Nat.mul_le_mono_l; lia). lia.
    + destruct (nth_error d (Nat.min (base + L * i + L - 1) (n - 1))) as [w|] eqn:E.
      2:{ apply nth_error_None in E. lia. }
      unfold nth_res. rewrite E. cbn [bind].
      destruct (IH (S i) base) as (es & E1 & E2 & E3). rewrite E1. cbn [bind].
      eexists. split; [reflexivity|]. cbn [length]. split.
      * intros [|x]; [rewrite Nat.add_0_r; split; intros; lia|].
        specialize (E2 x). replace (i + S x) with (S i + x) by lia. split; intros; lia.
      * intros [|x] X; cbn [nth].
        -- rewrite Nat.add_0_r. rewrite (keyat_nth _ _ E). auto.
        -- rewrite E3 by lia. replace (i + S x) with (S i + x) by lia. auto.
Qed.

Definition leafp (g : nat) : ptr := PLeaf (g * L).

Lemma leaf_node : forall m es, leaf_entries L d F 0 (m * F * L) = Ok es -> m * F * L < n ->
  node_spec L leafp m (node_of F es) /\ 0 < length es /\ length es <= F /\
  (length es = F \/ n <= m * F * L + length es * L).
Proof.
  intros m es E B. destruct (leaf_entries_ok F 0 (m * F * L)) as (es' & E' & E2 & E3).
  rewrite E in E'. inversion E'; subst es'; clear E'.
  assert (ID : forall x, m * F * L + L * (0 + x) = (m * F + x) * L) by (intros; lia).
  assert (LE : length es <= F).
  { destruct (Nat.le_gt_cases (length es) F) as [|G]; auto. apply E2 in G. lia. }
  split; [|split; [apply E2; split; [lia|rewrite ID; lia]|split; [auto|]]].
  - split; [apply node_of_len; auto|]. intros i I. rewrite node_of_nth.
    split; [|split].
    + intros H. rewrite E3 by (apply E2; rewrite ID; auto). cbn [snd]. rewrite ID. auto.
    + intros H. rewrite nth_overflow; auto. destruct (Nat.le_gt_cases (length es) i) as [|G]; auto.
      apply E2 in G. rewrite ID in G. lia.
    + intros H. rewrite E3 by (apply E2; rewrite ID; split; auto; lia). cbn [fst]. rewrite ID. f_equal. lia.
  - destruct (Nat.eq_dec (length es) F) as [|N]; auto. right.
    destruct (Nat.le_gt_cases n (m * F * L + length es * L)) as [|G]; auto. exfalso.
    assert (X : length es < length es) by (apply E2; rewrite ID; lia). lia.
Qed.

(** The nodes of one level, at positions [o ..]. *)
Definition level_ok (U : nat) (cp : nat -> ptr) (o c : nat) nodes : Prop :=
  forall m, m < c -> exists nd, nth_error nodes (o + m) = Some nd /\ node_spec U cp m nd.

Lemma leaf_level_ok : forall fuel m base nodes C, (forall x, x < C <-> x * F * L < n) -> m <= C ->
  C <= length nodes -> C < m + fuel -> (base = m * F * L \/ (n <= base /\ m = C)) ->
  level_ok L leafp 0 m nodes ->
  exists nodes', leaf_level F L d fuel base m nodes = Ok (C, nodes') /\
    length nodes' = length nodes /\ level_ok L leafp 0 C nodes'.
Proof.
  induction fuel as [|fuel IH]; intros m base nodes C HC MC LN FU HB LV; [lia|]. cbn [leaf_level].
  destruct (Nat.ltb_spec base n) as [B|B].
  - destruct HB as [->|HB]; [|lia]. assert (m < C) by (apply HC; auto).
    destruct (leaf_entries_ok F 0 (m * F * L)) as (es & E & _). rewrite E. cbn [bind].
    destruct (leaf_node m es E B) as (NS & P1 & P2 & P3). rewrite write_ok by lia. cbn [bind].
    destruct (IH (S m) (m * F * L + length es * L) (set_nth m (node_of F es) nodes) C) as (nodes' & E1 & E2 & E3);
      auto; try lia.
    + rewrite set_nth_length. lia.
    + destruct P3 as [P3|P3]; [left; rewrite P3; lia|right]. split; auto.
      destruct (Nat.eq_dec (S m) C); auto. assert (X : S m < C) by lia. apply HC in X.
      assert (length es * L <= F * L) by (apply Nat.mul_le_mono_r; lia). lia.
    + intros x X. destruct (Nat.eq_dec x m) as [->|].
      * exists (node_of F es). split; auto. apply nth_error_set_nth_eq. lia.
      * destruct (LV x) as (nd & N1 & N2); [lia|]. exists nd. split; auto.
        rewrite nth_error_set_nth_neq; auto. 
    + exists nodes'. rewrite set_nth_length in E2. auto.
  - assert (m = C).
    { destruct HB as [->|[_ HB]]; auto. destruct (Nat.eq_dec m C); auto.
      assert (X : m < C) by lia. apply HC in X. lia. }
    subst m. eexists. split; [reflexivity|]. auto.
Qed.

(** ** Levels above *)

Lemma inner_entries_ok : forall U cp o c nodes, level_ok U cp o c nodes ->
  forall k i now, exists es, inner_entries F k i (o + now) (o + c) nodes = Ok es /\
  (forall x, x < length es <-> x < k /\ now + i + x < c) /\
  forall x, x < length es -> snd (nth x es dflt) = PNode (o + (now + i + x)) /\
    ((now + i + x + 1) * F * U < n -> fst (nth x es dflt) = keyat ((now + i + x + 1) * F * U - 1)).
Proof.
  intros U cp o c nodes LV. induction k as [|k IH]; intros i now; cbn [inner_entries].
  - exists []. split; auto. cbn. split; intros; lia.
  - destruct (Nat.leb_spec (o + c) (o + now + i)).
    + exists []. split; auto. cbn. split; intros; lia.
    + destruct (LV (now + i)) as (nd & N1 & N2 & N3); [lia|].
      unfold nth_res. replace (o + now + i) with (o + (now + i)) by lia. rewrite N1. cbn [bind].
      destruct (nth_error nd (F - 1)) as [e|] eqn:E; [|apply nth_error_None in E; lia]. cbn [bind].
      destruct (IH (S i) now) as (es & E1 & E2 & E3). rewrite E1. cbn [bind].
      eexists. split; [reflexivity|]. cbn [length]. split.
      * intros [|x]; [split; intros; lia|]. specialize (E2 x). split; intros; lia.
      * intros [|x] X; cbn [nth fst snd].
        -- rewrite Nat.add_0_r. split; auto. intros H1.
           destruct (N3 (F - 1) ltac:(lia)) as (_ & _ & N4).
           replace ((now + i) * F + (F - 1) + 1) with ((now + i + 1) * F) in N4 by lia.
           rewrite <- (N4 H1). rewrite (nth_error_nth _ _ _ E). auto.
        -- destruct (E3 x ltac:(lia)) as [E4 E5]. rewrite E4. split; [f_equal; lia|].
           replace (now + i + S x + 1) with (now + S i + x + 1) by lia. auto.
Qed.

Lemma inner_node : forall U cp o c nodes m es, level_ok U cp o c nodes -> (forall x, x < c <-> x * F * U < n) ->
  inner_entries F F 0 (o + m * F) (o + c) nodes = Ok es -> m * F < c ->
  node_spec (F * U) (fun g => PNode (o + g)) m (node_of F es) /\ 0 < length es /\ length es <= F /\
  (length es = F \/ c <= m * F + length es).
Proof.
  intros U cp o c nodes m es LV HC E B.
  destruct (inner_entries_ok U cp o c nodes LV F 0 (m * F)) as (es' & E' & E2 & E3).
  rewrite E in E'. inversion E'; subst es'; clear E'.
  assert (LE : length es <= F).
  { destruct (Nat.le_gt_cases (length es) F) as [|G]; auto. apply E2 in G. lia. }
  assert (HC' : forall x, x * (F * U) < n <-> x < c) by (intros; rewrite HC, Nat.mul_assoc; reflexivity).
  split; [|split; [apply E2; lia|split; [auto|]]].
  - split; [apply node_of_len; auto|]. intros i I. rewrite node_of_nth. split; [|split].
    + intros H. apply HC' in H. destruct (E3 i) as [E4 _]; [apply E2; lia|]. rewrite E4. f_equal. lia.
    + intros H. rewrite nth_overflow; auto. destruct (Nat.le_gt_cases (length es) i) as [|G]; auto.
      apply E2 in G. assert (X : m * F + i < c) by lia. apply HC' in X. lia.
    + intros H. destruct (E3 i) as [_ E4].
      * apply E2. apply HC' in H. lia.
      * rewrite Nat.mul_assoc in H. replace (m * F + 0 + i + 1) with (m * F + i + 1) in E4 by lia.
        rewrite (E4 H). rewrite Nat.mul_assoc. auto.
  - destruct (Nat.eq_dec (length es) F) as [|N]; auto. right.
    destruct (Nat.le_gt_cases c (m * F + length es)) as [|G]; auto. exfalso.
    assert (X : length es < length es) by (apply E2; lia). lia.
Qed.

Lemma inner_level_ok : forall U cp o c C, (forall x, x < c <-> x * F * U < n) -> C = ceil_div c F ->
  forall fuel m now nodes, m <= C -> o + c + C <= length nodes -> C < m + fuel ->
  (now = o + m * F \/ (o + c <= now /\ m = C)) ->
  level_ok U cp o c nodes -> level_ok (F * U) (fun g => PNode (o + g)) (o + c) m nodes ->
  exists nodes', inner_level F fuel now (o + c) (o + c + m) nodes = Ok (o + c + C, nodes') /\
    length nodes' = length nodes /\ level_ok (F * U) (fun g => PNode (o + g)) (o + c) C nodes' /\
    (forall j, j < o + c -> nth_error nodes' j = nth_error nodes j).
Proof.
  intros U cp o c C HC EC. assert (CS : forall x, x < C <-> x * F < c) by (intros; subst C; apply ceil_spec; lia).
  induction fuel as [|fuel IH]; intros m now nodes MC LN FU HB LV LV2; [lia|]. cbn [inner_level].
  destruct (Nat.ltb_spec now (o + c)) as [B|B].
  - destruct HB as [->|HB]; [|lia]. assert (m < C) by (apply CS; lia).
    destruct (inner_entries_ok U cp o c nodes LV F 0 (m * F)) as (es & E & _). rewrite E. cbn [bind].
    destruct (inner_node U cp o c nodes m es LV HC E ltac:(lia)) as (NS & P1 & P2 & P3).
    rewrite write_ok by lia. cbn [bind].
    set (cc := if length es <? F then S (length es) else F).
    destruct (IH (S m) (o + m * F + cc) (set_nth (o + c + m) (node_of F es) nodes)) as (nodes' & E1 & E2 & E3 & E4);
      auto; try lia.
    + rewrite set_nth_length. lia.
    + unfold cc. destruct (Nat.ltb_spec (length es) F); [right|left; lia].
      destruct P3 as [P3|P3]; [lia|]. split; [lia|].
      destruct (Nat.eq_dec (S m) C); auto. assert (X : S m < C) by lia. apply CS in X. lia.
    + intros x X. destruct (LV x X) as (nd & N1 & N2). exists nd. split; auto.
      rewrite nth_error_set_nth_neq; auto. lia.
    + intros x X. destruct (Nat.eq_dec x m) as [->|].
      * exists (node_of F es). split; auto. apply nth_error_set_nth_eq. lia.
      * destruct (LV2 x) as (nd & N1 & N2); [lia|]. exists nd. split; auto.
        rewrite nth_error_set_nth_neq; auto. lia.
    + replace (o + c + S m) with (S (o + c + m)) in E1 by lia. rewrite set_nth_length in E2.
      exists nodes'. split; [exact E1|]. split; [auto|]. split; [auto|].
      intros j J. rewrite E4 by auto. apply nth_error_set_nth_neq. lia.
  - assert (m = C).
    { destruct HB as [->|[_ HB]]; auto. destruct (Nat.eq_dec m C); auto.
      assert (X : m < C) by lia. apply CS in X. lia. }
    subst m. eexists. split; [reflexivity|]. auto.
Qed.

(** ** Searching *)

Lemma nth_skip {A} : forall a i (l : list A) x, nth i (skipn a l) x = nth (a + i) l x.
Proof. induction a as [|a IH]; intros i [|y l] x; cbn; auto. destruct i; auto. Qed.

Lemma skip_skip {A} : forall a (l : list A), skipn 1 (skipn a l) = skipn (S a) l.
Proof. induction a as [|a IH]; intros [|y l]; auto. exact (IH l). Qed.

(** [B] is the number of leading records that [le] does not hold for. *)
Definition split_at (le : Z -> bool) (B : nat) : Prop :=
  B <= n /\ forall i, i < n -> (i < B <-> le (keyat i) = false).

Definition agree (k : nat) (a b : list inode) : Prop := forall j, j < k -> nth_error b j = nth_error a j.

(** Every node of the level leads to a leaf that does not start after [B]. *)
Definition search_ok (U h o c stop : nat) nodes : Prop :=
  forall le B, split_at le B -> forall nodes', agree stop nodes nodes' ->
  forall m, m < c -> m * F * U <= B -> forall fuel, h <= fuel ->
  exists i, descend F d le fuel nodes' (PNode (o + m)) = Ok i /\ i <= B /\ i < n.

Lemma scan_ok : forall le B U cp m nd, split_at le B -> 0 < U -> node_spec U cp m nd -> (forall g, cp g <> PNull) ->
  forall k a, a + k = F -> 0 < k -> (m * F + a) * U <= B -> (m * F + a) * U < n ->
  exists i, a <= i < F /\ (m * F + i) * U <= B /\ (m * F + i) * U < n /\
    (scan_node le (skipn a nd) = snd (nth i nd dflt) \/ (scan_node le (skipn a nd) = PNull /\ i = F - 1)).
Proof.
  intros le B U cp m nd SP PU [LN NS] NN. induction k as [|k IH]; intros a A K B1 B2; [lia|].
  destruct (skipn a nd) as [|e r] eqn:E.
  { assert (length (skipn a nd) = 0) by (rewrite E; auto). rewrite skipn_length in H. lia. }
  assert (E0 : nth a nd dflt = e).
  { rewrite <- (Nat.add_0_r a). rewrite <- nth_skip. rewrite E. auto. }
  assert (ER : r = skipn (S a) nd).
  { change r with (skipn 1 (e :: r)). rewrite <- E. apply skip_skip. }
  destruct r as [|e' r'].
  - assert (S a = F). { assert (length (skipn (S a) nd) = 0) by (rewrite <- ER; auto). rewrite skipn_length in H. lia. }
    exists a. cbn [scan_node]. split; [lia|]. split; auto. split; auto. right. split; auto. lia.
  - assert (SA : S a < F). { assert (length (skipn (S a) nd) = S (length r')) by (rewrite <- ER; auto). rewrite skipn_length in H. lia. }
    assert (E1 : nth (S a) nd dflt = e').
    { rewrite <- (Nat.add_0_r (S a)). rewrite <- nth_skip. rewrite <- ER. auto. }
    change (scan_node le (e :: e' :: r')) with
      (if is_null (snd e') || le (fst e) then snd e else scan_node le (e' :: r')).
    destruct (is_null (snd e') || le (fst e)) eqn:C.
    + exists a. split; [lia|]. split; auto. split; auto. left. congruence.
    + apply orb_false_iff in C as [C1 C2].
      destruct (NS (S a) SA) as (_ & N2 & _). rewrite E1 in N2.
      assert (LT : (m * F + S a) * U < n).
      { destruct (Nat.lt_ge_cases ((m * F + S a) * U) n) as [|G]; auto. rewrite (N2 G) in C1. discriminate. }
      destruct (NS a ltac:(lia)) as (_ & _ & N3). rewrite E0 in N3.
      replace (m * F + a + 1) with (m * F + S a) in N3 by lia. rewrite (N3 LT) in C2.
      assert (P : U <= (m * F + S a) * U) by (rewrite <- (Nat.mul_1_l U) at 1; apply Nat.mul_le_mono_r; lia).
      apply (proj2 SP) in C2; [|lia].
      destruct (IH (S a)) as (i & I1 & I2 & I3 & I4); try lia.
      exists i. split; [lia|]. split; auto. split; auto. rewrite <- ER in I4. exact I4.
Qed.

Lemma node_search : forall U cp o c stop h nodes, 0 < U -> level_ok U cp o c nodes -> o + c <= stop ->
  (forall g, cp g <> PNull) -> (forall m, m < c -> m * F * U < n) ->
  (forall le B, split_at le B -> forall nodes', agree stop nodes nodes' -> forall g, g * U < n -> g * U <= B ->
    forall fuel, h <= fuel -> exists i, descend F d le fuel nodes' (cp g) = Ok i /\ i <= B /\ i < n) ->
  search_ok U (S h) o c stop nodes.
Proof.
  intros U cp o c stop h nodes PU LV ST NN HC CH le B SP nodes' AG m M MB fuel FU.
  destruct fuel as [|fuel]; [lia|]. cbn [descend]. destruct (LV m M) as (nd & N1 & N2).
  unfold nth_res at 1. rewrite AG by lia. rewrite N1. cbn [bind].
  pose proof (HC m M) as MN.
  destruct (scan_ok le B U cp m nd SP PU N2 NN F 0) as (i & I1 & I2 & I3 & I4); try lia.
  rewrite skipn_O in I4. destruct N2 as [LN NS]. destruct (NS i ltac:(lia)) as (S1 & _ & _). specialize (S1 I3).
  assert (G : exists j, descend F d le fuel nodes' (cp (m * F + i)) = Ok j /\ j <= B /\ j < n)
    by (apply CH with (B := B); auto; lia).
  destruct I4 as [I4|[I4 ->]].
  - rewrite I4, S1. specialize (NN (m * F + i)). destruct (cp (m * F + i)); cbn [is_null]; auto. contradiction.
  - rewrite I4. cbn [is_null]. unfold nth_res. destruct (nth_error nd (F - 1)) as [e|] eqn:E.
    + cbn [bind]. rewrite (nth_error_nth _ _ dflt E) in S1. rewrite S1. auto.
    + apply nth_error_None in E. lia.
Qed.

Lemma leaf_search : forall c nodes, (forall m, m < c <-> m * F * L < n) -> level_ok L leafp 0 c nodes ->
  search_ok L 1 0 c c nodes.
Proof.
  intros c nodes HC LV. apply node_search with (cp := leafp); auto; try lia.
  - discriminate.
  - apply HC.
  - intros le B SP nodes' AG g G1 G2 fuel FU. unfold leafp.
    destruct fuel; cbn [descend]; destruct (Nat.ltb_spec (g * L) n); try lia; eauto.
Qed.

Lemma upper_ok : forall fuel U cp h o c r nodes, 0 < U -> 0 < c -> c < fuel -> (forall g, cp g <> PNull) ->
  (forall m, m < c <-> m * F * U < n) -> level_ok U cp o c nodes -> search_ok U h o c (o + c) nodes ->
  h <= o + c -> rest c r -> length nodes = o + c + r ->
  exists o' h' U' nodes', upper_levels F fuel o (o + c) nodes = Ok (o', length nodes, nodes') /\
    length nodes' = length nodes /\ search_ok U' h' o' 1 (length nodes) nodes' /\ h' <= length nodes.
Proof.
  induction fuel as [|fuel IH]; intros U cp h o c r nodes PU PC FU NN HC LV SO HH RS LN; [lia|].
  cbn [upper_levels]. replace (o + c - o) with c by lia. destruct (Nat.ltb_spec 1 c) as [C1|C1].
  - destruct RS as [[RS _]|[_ [fu RS]]]; [lia|]. destruct (count_rest _ _ _ RS) as (r' & -> & RS').
    set (C := ceil_div c F) in *.
    assert (CS : forall x, x < C <-> x * F < c) by (intros; apply ceil_spec; lia).
    assert (CL : C < c) by (apply ceil_lt; lia). assert (CP : 0 < C) by (apply CS; lia).
    destruct (inner_level_ok U cp o c C HC eq_refl (S c) 0 o nodes) as (nodes' & E1 & E2 & E3 & E4); try lia; auto.
    { intros x X. lia. }
    rewrite Nat.add_0_r in E1. rewrite E1. cbn [bind].
    assert (HC' : forall m, m < C <-> m * F * (F * U) < n).
    { intros m. rewrite CS, HC, Nat.mul_assoc. reflexivity. }
    destruct (IH (F * U) (fun g => PNode (o + g)) (S h) (o + c) C r' nodes') as (o' & h' & U' & nodes'' & R1 & R2 & R3 & R4);
      auto; try lia.
    + discriminate.
    + apply node_search with (cp := fun g => PNode (o + g)); auto; try lia.
      * discriminate.
      * apply HC'.
      * intros le B SP nx AG g G1 G2 fu' FU'. apply (SO le B SP).
        -- intros j J. rewrite AG by lia. apply E4. lia.
        -- apply HC. lia.
        -- lia.
        -- auto.
    + rewrite E2 in *. exists o', h', U', nodes''. auto.
  - destruct RS as [[_ RS]|[RS _]]; [|lia]. assert (c = 1) by lia. subst c r. cbn.
    replace (o + 1 + 0) with (o + 1) in LN by lia. rewrite <- LN in *.
    exists o, h, U, nodes. auto.
Qed.

Theorem build_ok : 0 < n -> exists t, build_internal_levels F L d = Ok (t, i_cnt t) /\
  length (i_nodes t) = i_cnt t /\
  forall le B, split_at le B -> exists i, descend F d le (S (i_cnt t)) (i_nodes t) (i_root t) = Ok i /\ i <= B /\ i < n.
Proof.
  intros N0. unfold build_internal_levels. set (nl := ceil_div n L).
  assert (PL : 0 < nl) by (apply ceil_pos; lia).
  destruct (count_total (S nl) nl PL ltac:(lia)) as (N & E & PN). rewrite E. cbn [bind].
  destruct (count_rest _ _ _ E) as (r & -> & RS). set (C := ceil_div nl F) in *.
  assert (HC : forall x, x < C <-> x * F * L < n).
  { intros x. unfold C, nl. rewrite ceil_spec by lia. rewrite ceil_spec by lia. reflexivity. }
  assert (PC : 0 < C) by (apply HC; lia).
  assert (CN : C <= n). { unfold C, nl. pose proof (ceil_le (ceil_div n L) F). pose proof (ceil_le n L). lia. }
  destruct (leaf_level_ok (S n) 0 0 (repeat (zero_node F) (C + r)) C) as (nodes & E1 & E2 & E3); try lia; auto.
  { rewrite repeat_length. lia. }
  { intros x X. lia. }
  rewrite E1. cbn [bind]. rewrite repeat_length in E2.
  destruct (upper_ok (S C) L leafp 1 0 C r nodes) as (o' & h' & U' & nodes' & R1 & R2 & R3 & R4); auto; try lia.
  - discriminate.
  - apply leaf_search; auto.
  - cbn [Nat.add] in R1. rewrite R1. cbn [bind fst snd]. rewrite E2 in *.
    exists (Isam nodes' (PNode o') (C + r)). split; [reflexivity|]. cbn [i_nodes i_cnt i_root]. split; [auto|].
    intros le B SP. destruct (R3 le B SP nodes') with (m := 0) (fuel := S (C + r)) as (i & I1 & I2 & I3); try lia.
    + intros j J. auto.
    + rewrite Nat.add_0_r in I1. eauto.
Qed.

End IP.

(** ** Results *)

Section IR.
Context {R : Type} {RO : RecOps R} {RL : RecLaws R} {KO : KeyOps R} {KL : KeyLaws R}.

(** [p] holds for a prefix of the list. *)
Definition prefixed {A} (p : A -> bool) (l : list A) : Prop :=
  StronglySorted (fun a b => p b = true -> p a = true) l.

Lemma prefixed_count : forall {A} (p : A -> bool) l, prefixed p l ->
  forall i w, nth_error l i = Some w -> (i < countb p l <-> p w = true).
Proof.
  intros A p l H. induction H as [|a l S IH FA]; intros i w E; [destruct i; discriminate|].
  cbn [countb]. destruct i as [|i]; cbn [nth_error] in E.
  - inversion E; subst. destruct (p w) eqn:P; [split; auto; lia|].
    rewrite countb_false; [split; [lia|discriminate]|].
    intros x X. rewrite Forall_forall in FA. specialize (FA x X). destruct (p x); auto.
    specialize (FA eq_refl). congruence.
  - specialize (IH i w E). destruct (p a) eqn:P.
    + rewrite <- IH. lia.
    + cbn. assert (C : countb p l = 0).
      { apply countb_false. intros x X. rewrite Forall_forall in FA. specialize (FA x X).
        destruct (p x); auto. specialize (FA eq_refl). congruence. }
      rewrite C in *. rewrite <- IH. lia.
Qed.

Lemma sorted_nth : forall (d : list (wrapped R)), sorted d -> forall i j a b, i < j ->
  nth_error d i = Some a -> nth_error d j = Some b -> rlt (wrec b) (wrec a) = false.
Proof.
  intros d S. induction S as [|x l S IH FA]; intros i j a b IJ A B; [destruct i; discriminate|].
  destruct j as [|j]; [lia|]. destruct i as [|i]; cbn [nth_error] in A, B.
  - inversion A; subst. rewrite Forall_forall in FA. apply FA. eapply nth_error_In; eauto.
  - apply (IH i j); auto. lia.
Qed.

Lemma countb_mono : forall {A} (p q : A -> bool) l, (forall x, In x l -> p x = true -> q x = true) ->
  countb p l <= countb q l.
Proof.
  induction l as [|a l IH]; intros H; cbn; auto.
  assert (countb p l <= countb q l) by (apply IH; intros; apply H; cbn; auto).
  pose proof (H a (or_introl eq_refl)) as HA. destruct (p a), (q a); cbn; lia.
Qed.

Lemma skip_count : forall lt (d : list (wrapped R)), prefixed (fun w => lt (rkey (wrec w))) d ->
  forall k i, i + k = length d -> i <= countb (fun w => lt (rkey (wrec w))) d ->
  skip lt i (skipn i d) = countb (fun w => lt (rkey (wrec w))) d.
Proof.
  intros lt d PR. induction k as [|k IH]; intros i K I.
  - rewrite skipn_all2 by lia. cbn [skip]. pose proof (countb_le (fun w => lt (rkey (wrec w))) d). lia.
  - destruct (skipn i d) as [|w r] eqn:E.
    { assert (length (skipn i d) = 0) by (rewrite E; auto). rewrite skipn_length in H. lia. }
    assert (ER : r = skipn (S i) d) by (rewrite <- skip_skip, E; auto).
    assert (NW : nth_error d i = Some w).
    { rewrite <- (firstn_skipn i d), E, nth_error_app2; rewrite firstn_length_le by lia; auto.
      rewrite Nat.sub_diag. auto. }
    pose proof (prefixed_count _ _ PR i w NW) as P. cbn beta in P. cbn [skip].
    destruct (lt (rkey (wrec w))) eqn:B.
    + rewrite ER. apply IH; [lia|]. apply P. auto.
    + destruct (Nat.lt_ge_cases i (countb (fun w => lt (rkey (wrec w))) d)) as [G|G]; [|lia].
      apply P in G. discriminate.
Qed.

Lemma skip_rec_count : forall r (d : list (wrapped R)), prefixed (fun w => rlt (wrec w) r) d ->
  forall k i, i + k = length d -> i <= countb (fun w => rlt (wrec w) r) d ->
  skip_rec r i (skipn i d) = countb (fun w => rlt (wrec w) r) d.
Proof.
  intros r d PR. induction k as [|k IH]; intros i K I.
  - rewrite skipn_all2 by lia. cbn [skip_rec]. pose proof (countb_le (fun w => rlt (wrec w) r) d). lia.
  - destruct (skipn i d) as [|w l] eqn:E.
    { assert (length (skipn i d) = 0) by (rewrite E; auto). rewrite skipn_length in H. lia. }
    assert (ER : l = skipn (S i) d) by (rewrite <- skip_skip, E; auto).
    assert (NW : nth_error d i = Some w).
    { rewrite <- (firstn_skipn i d), E, nth_error_app2; rewrite firstn_length_le by lia; auto.
      rewrite Nat.sub_diag. auto. }
    pose proof (prefixed_count _ _ PR i w NW) as P. cbn beta in P. cbn [skip_rec].
    destruct (rlt (wrec w) r) eqn:B.
    + rewrite ER. apply IH; [lia|]. apply P. auto.
    + destruct (Nat.lt_ge_cases i (countb (fun w => rlt (wrec w) r) d)) as [G|G]; [|lia].
      apply P in G. discriminate.
Qed.

Lemma sorted_prefixed : forall (p : wrapped R -> bool) d, sorted d ->
  (forall a b, rlt (wrec b) (wrec a) = false -> p b = true -> p a = true) -> prefixed p d.
Proof.
  intros p d S H. induction S as [|a l S IH FA]; constructor; auto.
  eapply Forall_impl; [|exact FA]. cbn. intros b B. apply H. auto.
Qed.

Lemma sorted_lt_key : forall k (d : list (wrapped R)), sorted d -> prefixed (fun w => (rkey (wrec w) <? k)%Z) d.
Proof.
  intros k d S. apply sorted_prefixed; auto. intros a b H B. apply wle_key in H.
  apply Z.ltb_lt in B. apply Z.ltb_lt. lia.
Qed.
Lemma sorted_le_key : forall k (d : list (wrapped R)), sorted d -> prefixed (fun w => (rkey (wrec w) <=? k)%Z) d.
Proof.
  intros k d S. apply sorted_prefixed; auto. intros a b H B. apply wle_key in H.
  apply Z.leb_le in B. apply Z.leb_le. lia.
Qed.
Lemma sorted_lt_rec : forall r (d : list (wrapped R)), sorted d -> prefixed (fun w => rlt (wrec w) r) d.
Proof.
  intros r d S. apply sorted_prefixed; auto. intros a b H B. destruct (rle_cases _ _ H) as [X|X].
  - eapply rlt_trans; eauto.
  - destruct (rlt (wrec a) r) eqn:G; auto. destruct (rle_cases _ _ G) as [Y|Y].
    + assert (rlt (wrec b) (wrec a) = true) by (eapply rlt_trans; eauto). congruence.
    + pose proof (req_trans _ _ _ Y X) as Z. apply req_spec in Z as [_ Z]. congruence.
Qed.

Lemma split_count : forall (lt le : Z -> bool) (d : list (wrapped R)), (forall x, le x = negb (lt x)) ->
  prefixed (fun w => lt (rkey (wrec w))) d -> split_at d le (countb (fun w => lt (rkey (wrec w))) d).
Proof.
  intros lt le d HL PR. split; [apply countb_le|]. intros i I.
  destruct (nth_error d i) as [w|] eqn:E; [|apply nth_error_None in E; lia].
  rewrite (keyat_nth _ _ _ E), (prefixed_count _ _ PR i w E), HL.
  destruct (lt (rkey (wrec w))); split; auto; discriminate.
Qed.

Lemma key_lt_rlt : forall a b : R, (rkey a < rkey b)%Z -> rlt a b = true.
Proof.
  intros a b H. destruct (rlt a b) eqn:E; auto. destruct (rle_cases _ _ E) as [X|X].
  - apply rkey_mono in X. lia.
  - apply rkey_eq in X. lia.
Qed.

Section IB.
Variables F L : nat.
Hypothesis HF : 2 <= F.
Hypothesis HL : 1 <= L.
Variable d : list (wrapped R).
Hypothesis SD : sorted d.

Lemma built : d <> [] -> exists t, isam_build F L d = Ok t /\
  (forall k, isam_lower_bound F d t k = Ok (countb (fun w => (rkey (wrec w) <? k)%Z) d)) /\
  (forall k, isam_upper_bound F d t k = Ok (countb (fun w => (rkey (wrec w) <=? k)%Z) d)).
Proof.
  intros NE. assert (N0 : 0 < length d) by (destruct d; [congruence|cbn; lia]).
  destruct (build_ok F L HF HL d N0) as (t & B & LN & SR). exists t. unfold isam_build.
  destruct (Nat.ltb_spec 0 (length d)); [|lia]. rewrite B. cbn [bind]. split; auto.
  split; intros k.
  - unfold isam_lower_bound.
    destruct (SR (fun x => (k <=? x)%Z) (countb (fun w => (rkey (wrec w) <? k)%Z) d)) as (i & D & I1 & I2).
    { apply (split_count (fun x => (x <? k)%Z)); [|apply sorted_lt_key; auto]. intros. rewrite Z.leb_antisym. auto. }
    rewrite D. cbn [bind]. f_equal. apply (skip_count (fun x => (x <? k)%Z)) with (k := length d - i); try lia.
    apply sorted_lt_key; auto.
  - unfold isam_upper_bound.
    destruct (SR (fun x => (k <? x)%Z) (countb (fun w => (rkey (wrec w) <=? k)%Z) d)) as (i & D & I1 & I2).
    { apply (split_count (fun x => (x <=? k)%Z)); [|apply sorted_le_key; auto]. intros. rewrite Z.ltb_antisym. auto. }
    rewrite D. cbn [bind]. f_equal. apply (skip_count (fun x => (x <=? k)%Z)) with (k := length d - i); try lia.
    apply sorted_le_key; auto.
Qed.

Lemma lookup_found : forall t r, isam_build F L d = Ok t -> (exists w, In w d /\ rlt (wrec w) r = false) ->
  (exists i w, isam_point_lookup F d t r false = Ok (Some i) /\ nth_error d i = Some w /\ req (wrec w) r = true) \/
  (isam_point_lookup F d t r false = Ok None /\ forall w, In w d -> req (wrec w) r = false).
Proof.
  intros t r B (w & W1 & W2). assert (NE : d <> []) by (intros ->; contradiction).
  destruct (built NE) as (t' & B' & LB & _). assert (t' = t) by congruence. subst t'.
  unfold isam_point_lookup. rewrite LB. cbn [bind].
  set (P := countb (fun w => rlt (wrec w) r) d).
  assert (LP : countb (fun w => (rkey (wrec w) <? rkey r)%Z) d <= P).
  { unfold P. apply countb_mono. intros x _ X. apply Z.ltb_lt in X. apply key_lt_rlt. auto. }
  assert (PN : P < length d).
  { apply In_nth_error in W1 as [j J]. pose proof (proj1 (nth_error_Some d j)) as JL.
    rewrite J in JL. specialize (JL ltac:(discriminate)).
    pose proof (prefixed_count _ _ (sorted_lt_rec r d SD) j w J) as Q. cbn beta in Q. fold P in Q. rewrite W2 in Q.
    destruct (Nat.lt_ge_cases j P) as [G|G]; [apply Q in G; discriminate|lia]. }
  destruct (Nat.leb_spec (length d) (countb (fun w => (rkey (wrec w) <? rkey r)%Z) d)); [lia|].
  rewrite (skip_rec_count r d (sorted_lt_rec r d SD) (length d - countb (fun w => (rkey (wrec w) <? rkey r)%Z) d)) by (auto; lia).
  fold P. unfold nth_res. destruct (nth_error d P) as [x|] eqn:E; [|apply nth_error_None in E; lia]. cbn [bind].
  destruct (req (wrec x) r) eqn:Q.
  - left. exists P, x. auto.
  - right. split; auto. intros y Y. destruct (req (wrec y) r) eqn:RY; auto. exfalso.
    pose proof (prefixed_count _ _ (sorted_lt_rec r d SD) P x E) as PX. cbn beta in PX. fold P in PX.
    assert (XR : rlt (wrec x) r = false).
    { destruct (rlt (wrec x) r); auto. destruct PX as [_ PX]. specialize (PX eq_refl). lia. }
    assert (RX : rlt r (wrec x) = true).
    { destruct (rlt r (wrec x)) eqn:G; auto. assert (req (wrec x) r = true) by (apply req_spec; auto). congruence. }
    apply In_nth_error in Y as [j J].
    pose proof (prefixed_count _ _ (sorted_lt_rec r d SD) j y J) as PY. cbn beta in PY. fold P in PY.
    apply req_spec in RY as [RY1 RY2].
    assert (J1 : P <= j). { destruct (Nat.lt_ge_cases j P) as [G|G]; auto. apply PY in G. congruence. }
    assert (YX : rlt (wrec y) (wrec x) = true).
    { destruct (rlt (wrec y) (wrec x)) eqn:G; auto. destruct (rle_cases _ _ G) as [Z|Z].
      - assert (rlt r (wrec y) = true) by (eapply rlt_trans; eauto). congruence.
      - assert (EX : req (wrec x) r = true) by (eapply req_trans; [exact Z|apply req_spec; auto]). congruence. }
    destruct (Nat.eq_dec j P) as [->|].
    + rewrite E in J. inversion J; subst. rewrite rlt_irrefl in YX. discriminate.
    + assert (ST : rlt (wrec y) (wrec x) = false) by (apply (sorted_nth d SD P j); auto; lia). congruence.
Qed.

Lemma lookup_absent : forall t r, isam_build F L d = Ok t -> d <> [] ->
  (forall w, In w d -> (rkey (wrec w) < rkey r)%Z) -> isam_point_lookup F d t r false = Ok None.
Proof.
  intros t r B NE H. destruct (built NE) as (t' & B' & LB & _). assert (t' = t) by congruence. subst t'.
  unfold isam_point_lookup. rewrite LB. cbn [bind].
  assert (C : countb (fun w => (rkey (wrec w) <? rkey r)%Z) d = length d).
  { apply countb_true. intros w W. apply Z.ltb_lt. auto. }
  rewrite C. rewrite Nat.leb_refl. auto.
Qed.

Lemma lookup_oob : forall t r w, isam_build F L d = Ok t -> (forall x, In x d -> rlt (wrec x) r = true) ->
  In w d -> rkey (wrec w) = rkey r -> isam_point_lookup F d t r false = Fail FOob.
Proof.
  intros t r w B H W K. assert (NE : d <> []) by (intros ->; contradiction).
  destruct (built NE) as (t' & B' & LB & _). assert (t' = t) by congruence. subst t'.
  unfold isam_point_lookup. rewrite LB. cbn [bind].
  assert (C : countb (fun x => rlt (wrec x) r) d = length d) by (apply countb_true; auto).
  assert (LP : countb (fun w => (rkey (wrec w) <? rkey r)%Z) d < length d).
  { apply In_nth_error in W as [j J]. pose proof (proj1 (nth_error_Some d j)) as JL.
    rewrite J in JL. specialize (JL ltac:(discriminate)).
    pose proof (prefixed_count _ _ (sorted_lt_key (rkey r) d SD) j w J) as Q. cbn beta in Q.
    rewrite K, Z.ltb_irrefl in Q.
    destruct (Nat.lt_ge_cases j (countb (fun w => (rkey (wrec w) <? rkey r)%Z) d)) as [G|G];
      [apply Q in G; discriminate|lia]. }
  destruct (Nat.leb_spec (length d) (countb (fun w => (rkey (wrec w) <? rkey r)%Z) d)); [lia|].
  rewrite (skip_rec_count r d (sorted_lt_rec r d SD) (length d - countb (fun w => (rkey (wrec w) <? rkey r)%Z) d)) by lia.
  rewrite C. unfold nth_res. rewrite (proj2 (nth_error_None d (length d))); auto.
Qed.

End IB.
End IR.

(** Building and searching meets the contract of the range queries. *)
Lemma isam_find_sound {R : Type} {RO : RecOps R} {RL : RecLaws R} {KO : KeyOps R} {KL : KeyLaws R} :
  forall F L, 2 <= F -> 1 <= L -> lb_sound (isam_find (R := R) F L).
Proof.
  intros F L HF HL d k NE SD. destruct (built F L HF HL d SD NE) as (t & B & LB & _).
  unfold isam_find. rewrite B. cbn [bind]. rewrite LB. eexists. split; [reflexivity|]. split; [apply countb_le|].
  intros w W. destruct (lb_isam_sound d k NE SD) as (i & E & _ & H).
  destruct d; [congruence|]. cbn [QueryModel.lb_isam] in E. inversion E; subst. auto.
Qed.

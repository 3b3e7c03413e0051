(** The reported memory usage. *)
From Coq Require Import List Arith ZArith NArith Lia Bool Permutation.
From Verif Require Import Base ListLemmas RecordModel RecordProofs BufferModel BufferProofs MergeModel MergeProofs
  StructModel ExtModel StructProofs ExtProofs Spec QueryProofs SerialProofs LevelProofs SizeProofs CountProofs BsmProofs
  ISAMModel ISAMProofs VPModel VPSpec VPProofs KNNProofs KindModel KindProofs TagProofs KindSize KindBsm MemModel.
Import ListNotations.

(** ** The nodes of an ISAM tree *)

Section Nodes.
Context {R : Type} {RO : RecOps R} {KO : KeyOps R}.
Variables F L : nat.
Hypothesis HF : 2 <= F.
Hypothesis HL : 1 <= L.

Lemma ceil_half : forall x, 2 * ceil_div x F <= x + 1.
Proof.
  intros x. destruct (Nat.eq_dec x 0) as [->|X].
  - unfold ceil_div. rewrite Nat.div_0_l, Nat.mod_0_l by lia. simpl. lia.
  - pose proof (ceil_pos x F ltac:(lia) ltac:(lia)) as P.
    assert (Q : ceil_div x F - 1 < ceil_div x F) by lia. apply ceil_spec in Q; [|lia]. nia.
Qed.

Lemma ceil_up : forall x, x <= ceil_div x F * F.
Proof.
  intros x. destruct (Nat.le_gt_cases x (ceil_div x F * F)) as [|G]; auto.
  apply (ceil_spec x F (ceil_div x F)) in G; lia.
Qed.

Lemma count_bounds : forall fuel x N, 0 < x -> count_nodes F fuel x = Ok N ->
  1 <= N /\ x <= 1 + N * (F - 1) /\ N <= 2 * x - 1.
Proof.
  induction fuel as [|fuel IH]; intros x N X H; cbn [count_nodes] in H; [discriminate|].
  pose proof (ceil_half x) as CH. pose proof (ceil_up x) as CU.
  pose proof (ceil_pos x F ltac:(lia) X) as CP.
  destruct (Nat.ltb_spec 1 (ceil_div x F)).
  - destruct (count_nodes F fuel (ceil_div x F)) as [r|] eqn:E; cbn [bind] in H; [|discriminate].
    inversion H; subst. destruct (IH _ _ CP E) as (I1 & I2 & I3).
    assert (3 <= x). { destruct (Nat.le_gt_cases 3 x); auto. assert (ceil_div x F <= 1) by lia. lia. }
    split; [lia|]. split; [|lia].
    assert (ceil_div x F * F = ceil_div x F * (F - 1) + ceil_div x F) by nia. nia.
  - inversion H; subst. assert (ceil_div x F = 1) as -> by lia. rewrite ?H1 in *. nia.
Qed.

Lemma isam_mem_ok : forall d : list (wrapped R), exists m, isam_mem F L d = Ok (256 * m) /\
  (d = [] -> m = 0) /\
  (d <> [] -> length d <= L * (1 + m * (F - 1)) /\ 1 <= m <= 2 * length d - 1).
Proof.
  intros d. unfold isam_mem, isam_build. destruct (Nat.ltb_spec 0 (length d)) as [N|N].
  - destruct (build_ok F L HF HL d N) as (t & B & _). rewrite B. cbn [bind]. eexists. split; [reflexivity|].
    split; [intros ->; simpl in N; lia|]. intros _.
    unfold build_internal_levels in B. mon B. rename a into c. mon B. destruct a as [cur nodes].
    mon B. destruct a as [x nodes'].
    assert (C : i_cnt t = c) by (inversion B; auto).
    rewrite C.
    pose proof (ceil_pos (length d) L ltac:(lia) N) as CP.
    destruct (count_bounds _ _ _ CP E) as (B1 & B2 & B3). pose proof (ceil_le (length d) L ltac:(lia)).
    assert (U : length d <= ceil_div (length d) L * L).
    { destruct (Nat.le_gt_cases (length d) (ceil_div (length d) L * L)) as [|G]; auto.
      apply (ceil_spec (length d) L (ceil_div (length d) L)) in G; lia. }
    split; [nia|lia].
  - exists 0. destruct d; [|simpl in N; lia]. split; auto. split; auto. congruence.
Qed.
End Nodes.

(** ** The nodes of a VPTree *)

Section VPNodes.
Context {R : Type} {RO : RecOps R} {D : Type} {DO : DistOps D} {MO : MetricOps R D}.
Variable leafsz : nat.
Variable rng : nat -> nat.

Lemma subtree_nodes : forall fuel start stop c ps t c' ps',
  build_subtree (R := R) leafsz rng fuel start stop c ps = Ok (t, c', ps') ->
  vp_nodes t <= stop + 1 - start /\ (start <= stop -> 1 <= vp_nodes t) /\
  stop + 1 - start <= vp_nodes t * (leafsz + 1).
Proof.
  induction fuel as [|fuel IH]; intros start stop c ps t c' ps' H; cbn [build_subtree] in H.
  - destruct (Nat.ltb_spec stop start); [inversion H; subst; simpl; lia|].
    destruct (Nat.leb_spec (stop - start) leafsz); [inversion H; subst; simpl; lia|discriminate].
  - destruct (Nat.ltb_spec stop start); [inversion H; subst; simpl; lia|].
    destruct (Nat.leb_spec (stop - start) leafsz); [inversion H; subst; simpl; lia|].
    mon H. mon H. mon H. mon H. mon H. destruct a3 as [c3 ps3]. mon H. mon H.
    destruct a4 as [[ins c5] ps5]. mon H. destruct a4 as [[out c6] ps6]. inv H.
    apply IH in E5 as (I1 & _ & J1). apply IH in E6 as (I2 & _ & J2). cbn [vp_nodes].
    assert (start + 1 <= (start + 1 + stop) / 2) by (apply Nat.div_le_lower_bound; lia).
    assert ((start + 1 + stop) / 2 <= stop) by (apply Nat.div_le_upper_bound; lia).
    lia.
Qed.

Lemma vp_mem_ok : forall nsize (d : list (wrapped R)) t, vp_build leafsz rng d = Ok t ->
  vp_mem leafsz rng nsize d = Ok (vp_nodes (vp_root t) * nsize + length d * 8) /\
  vp_nodes (vp_root t) <= length d /\ (d <> [] -> 1 <= vp_nodes (vp_root t)) /\
  length d <= vp_nodes (vp_root t) * (leafsz + 1).
Proof.
  intros nsize d t H. unfold vp_mem. rewrite H. split; auto. unfold vp_build in H. destruct d as [|w d].
  - inv H. simpl. split; auto. split; auto. congruence.
  - mon H. destruct a as [[r c] ps]. inv H. apply subtree_nodes in E as (E1 & E2 & E3). simpl vp_root.
    cbn [length] in *. split; [lia|]. split; [|lia]. intros _. apply E2. lia.
Qed.
End VPNodes.

(** ** The index *)

Section Index.
Context {R : Type} {RO : RecOps R} {RL : RecLaws R}.
Variable qlt : qorder R.
Context {QO : QOrder qlt}.
Variable C : cfg.
Hypothesis V : valid_cfg C.

Lemma map_res_all : forall {A B} (f : A -> res B) (g : A -> B) l,
  (forall x, In x l -> f x = Ok (g x)) -> map_res f l = Ok (map g l).
Proof.
  intros A B f g. induction l as [|x l IH]; intros H; simpl; auto.
  rewrite H by (simpl; auto). simpl. rewrite IH by (intros; apply H; simpl; auto). auto.
Qed.

Lemma active_end : forall (e : ext R) st win pos tsn {A} (f : structure R -> res A) (g : nat -> A -> nat),
  einv C e st win pos tsn ->
  (do (e1, ep) <- get_active_epoch e; do m <- f (ep_struct ep); do e2 <- end_job e1 ep; Ok (e2, g (b_cap (e_buf e1)) m))
  = do m <- f st; Ok (e, g (2 * c_hwm C) m).
Proof.
  intros e st win pos tsn A f g [].
  destruct e as [b cnt flag nx cur prev]. destruct prev as [pp pr]. simpl in *. subst.
  unfold get_active_epoch. simpl. destruct (f st); simpl; auto.
  unfold end_job. simpl. rewrite i_prev. simpl. rewrite i_cap. auto.
Qed.

Lemma sum_concat : forall {A} (f : A -> nat) (ll : list (list A)),
  sum_list (map (fun l => sum_list (map f l)) ll) = sum_list (map f (concat ll)).
Proof.
  intros A f. induction ll as [|l ll IH]; simpl; auto. rewrite map_app, IH. clear.
  induction l; simpl; auto. rewrite <- IHl. lia.
Qed.

(** [m] is what the shards report. *)
Theorem memory_at : forall (mem : list (wrapped R) -> res nat) m wsize (e : ext R) st win pos tsn,
  einv C e st win pos tsn -> (forall d, In d (concat (levels_of e)) -> mem d = Ok (m d)) ->
  get_memory_usage mem wsize e = Ok (e, 2 * c_hwm C * wsize + sum_list (map m (concat (levels_of e)))) /\
  get_aux_memory_usage mem e = Ok (e, sum_list (map m (concat (levels_of e)))).
Proof.
  intros mem m wsize e st win pos tsn I M.
  assert (S : st_mem mem st = Ok (sum_list (map m (concat (levels_of e))))).
  { rewrite (levels_of_eq C _ _ _ _ _ I) in *. unfold st_mem, lvs in *.
    rewrite (map_res_all _ (fun l => sum_list (map (fun s => m (s_data s)) (lv_shards l)))).
    - cbn [bind]. apply (f_equal Ok). rewrite <- sum_concat. f_equal. rewrite !map_map. apply map_ext. intros l. rewrite map_map. auto.
    - intros l Hl. unfold lv_mem. rewrite (map_res_all _ (fun s => m (s_data s))); auto.
      intros s Hs. apply M. apply in_concat. exists (map s_data (lv_shards l)). split.
      + apply in_map. apply in_map_iff. eauto.
      + apply in_map. auto. }
  split.
  - unfold get_memory_usage. rewrite (active_end _ _ _ _ _ _ (fun c m => c * wsize + m) I), S. auto.
  - unfold get_aux_memory_usage. rewrite (active_end _ _ _ _ _ _ (fun c m => m) I), S. auto.
Qed.

Theorem memory_value : forall (mem : list (wrapped R) -> res nat) m wsize ops e rs,
  (forall d, In d (concat (levels_of e)) -> mem d = Ok (m d)) ->
  run_new qlt C ops = Ok (e, rs) ->
  get_memory_usage mem wsize e = Ok (e, 2 * c_hwm C * wsize + sum_list (map m (concat (levels_of e)))) /\
  get_aux_memory_usage mem e = Ok (e, sum_list (map m (concat (levels_of e)))).
Proof.
  intros mem m wsize ops e rs M H.
  destruct (run_any qlt C V _ _ _ H) as (st & win & pos & tsn & k & A).
  eapply memory_at; eauto. apply A.
Qed.

Context {KO : KeyOps R}.

Theorem isam_memory : forall F L wsize ops e rs, 2 <= F -> 1 <= L -> run_new qlt C ops = Ok (e, rs) ->
  let shards := concat (levels_of e) in
  let n := length (concat shards) in
  exists nodes, get_memory_usage (isam_mem F L) wsize e = Ok (e, 2 * c_hwm C * wsize + 256 * nodes) /\
    nodes <= 2 * n /\ n <= L * (length shards + nodes * (F - 1)).
Proof.
  intros F L wsize ops e rs HF HL H shards n.
  set (m d := match isam_mem F L d with Ok x => x | Fail _ => 0 end).
  destruct (memory_value (isam_mem F L) m wsize ops e rs) as [E _]; auto.
  { intros d _. unfold m. destruct (isam_mem_ok F L HF HL d) as (x & -> & _). auto. }
  assert (K : forall ss : list (list (wrapped R)), exists nodes, sum_list (map m ss) = 256 * nodes /\
    nodes <= 2 * length (concat ss) /\ length (concat ss) <= L * (length ss + nodes * (F - 1))).
  { induction ss as [|d ss (N & I1 & I2 & I3)]; [exists 0; simpl; lia|].
    destruct (isam_mem_ok F L HF HL d) as (x & X & X0 & X1).
    exists (x + N). cbn [map concat length sum_list]. rewrite app_length.
    assert (MX : m d = 256 * x) by (unfold m; rewrite X; auto).
    assert (B : x <= 2 * length d /\ length d <= L * (1 + x * (F - 1))).
    { destruct d as [|w d]; [rewrite X0 by auto; simpl; lia|]. destruct X1; [discriminate|]. lia. }
    change (sum_list (m d :: map m ss)) with (m d + sum_list (map m ss)).
    rewrite MX, I1. split; [lia|]. split; [lia|]. nia. }
  destruct (K shards) as (N & K1 & K2 & K3). exists N. unfold shards, n in *. rewrite E, K1. auto.
Qed.

Theorem alias_memory : forall wsize ops e rs, run_new qlt C ops = Ok (e, rs) ->
  get_memory_usage alias_mem wsize e = Ok (e, 2 * c_hwm C * wsize).
Proof.
  intros wsize ops e rs H.
  destruct (memory_value alias_mem (fun _ => 0) wsize ops e rs) as [E _]; auto.
  rewrite E. do 2 f_equal.
  assert (Z : forall l : list (list (wrapped R)), sum_list (map (fun _ => 0) l) = 0) by (induction l; auto).
  rewrite Z. lia.
Qed.
End Index.

(** ** Other kinds of shards *)

Section Kinds.
Context {R : Type} {RO : RecOps R}.
Variable BD : builders R.
Context {ok : shard R -> Prop} {SL : ShardLaws BD ok}.
Variable C : cfg.
Hypothesis V : valid_cfg C.
Hypothesis tagging_ok : forall s i w, ok s -> nth_error (s_data s) i = Some w -> ok (tagged_at s i w).

Lemma kind_einv : forall ops e rs, run_new BD C ops = Ok (e, rs) -> exists st win pos tsn, einv C e st win pos tsn.
Proof.
  intros ops e rs H. assert (L : c_layout C = BSM \/ c_layout C <> BSM) by (destruct (c_layout C); auto; right; discriminate).
  destruct L as [L|L].
  - destruct (kw_run BD C V L tagging_ok _ _ _ H) as (st & win & pos & tsn & k & W). exists st, win, pos, tsn. apply W.
  - destruct (g_facts BD C V tagging_ok ops e rs) as (st & win & pos & tsn & k & W); auto.
    { intros Q. congruence. }
    exists st, win, pos, tsn. apply W.
Qed.

Theorem memory_kind : forall (mem : list (wrapped R) -> res nat) m wsize ops e rs,
  (forall d, In d (concat (levels_of e)) -> mem d = Ok (m d)) -> run_new BD C ops = Ok (e, rs) ->
  get_memory_usage mem wsize e = Ok (e, 2 * c_hwm C * wsize + sum_list (map m (concat (levels_of e)))) /\
  get_aux_memory_usage mem e = Ok (e, sum_list (map m (concat (levels_of e)))).
Proof.
  intros mem m wsize ops e rs M H. destruct (kind_einv _ _ _ H) as (st & win & pos & tsn & I).
  eapply memory_at; eauto.
Qed.
End Kinds.

Section VPMemory.
Context {R : Type} {RO : RecOps R} {D : Type} {DO : DistOps D} {DL : DistLaws D} {MO : MetricOps R D}.

Theorem vp_memory : forall C leafsz (rng : list (wrapped R) -> nat -> nat) nsize wsize ops e rs, valid_cfg C ->
  run_new vp_shards C ops = Ok (e, rs) ->
  let shards := concat (levels_of e) in
  let n := length (concat shards) in
  exists nodes, get_memory_usage (fun d => vp_mem leafsz (rng d) nsize d) wsize e =
      Ok (e, 2 * c_hwm C * wsize + (nodes * nsize + n * 8)) /\
    nodes <= n /\ length (filter (fun d => 0 <? length d) shards) <= nodes /\ n <= nodes * (leafsz + 1).
Proof.
  intros C leafsz rng nsize wsize ops e rs V H shards n.
  set (k d := match vp_build (D := D) leafsz (rng d) d with Ok t => vp_nodes (vp_root t) | Fail _ => 0 end).
  assert (M : forall d, vp_mem leafsz (rng d) nsize d = Ok (k d * nsize + length d * 8) /\ k d <= length d /\
    (d <> [] -> 1 <= k d) /\ length d <= k d * (leafsz + 1)).
  { intros d. destruct (vp_build_keeps leafsz (rng d) d) as (t & E & _).
    destruct (vp_mem_ok leafsz (rng d) nsize d t E) as (M1 & M2 & M3 & M4). unfold k. rewrite E. auto. }
  destruct (memory_kind vp_shards C V vp_tagging_ok (fun d => vp_mem leafsz (rng d) nsize d)
    (fun d => k d * nsize + length d * 8) wsize ops e rs) as [E _]; auto.
  { intros d _. apply M. }
  exists (sum_list (map k shards)). rewrite E. clear E H.
  assert (K : forall ss : list (list (wrapped R)),
    sum_list (map (fun d => k d * nsize + length d * 8) ss) = sum_list (map k ss) * nsize + length (concat ss) * 8 /\
    sum_list (map k ss) <= length (concat ss) /\ length (filter (fun d => 0 <? length d) ss) <= sum_list (map k ss) /\
    length (concat ss) <= sum_list (map k ss) * (leafsz + 1)).
  { induction ss as [|d ss (I1 & I2 & I3 & I4)]; [simpl; lia|]. destruct (M d) as (_ & M2 & M3 & M4).
    cbn [map concat]. unfold sum_list in *. cbn [fold_right]. rewrite app_length, I1. split; [lia|]. split; [lia|].
    split; [|lia].
    cbn [filter]. destruct (Nat.ltb_spec 0 (length d)); cbn [length]; [|lia].
    assert (1 <= k d) by (apply M3; destruct d; [simpl in *; lia|discriminate]). lia. }
  destruct (K shards) as (K1 & K2 & K3 & K4). fold shards. rewrite K1. auto.
Qed.
End VPMemory.

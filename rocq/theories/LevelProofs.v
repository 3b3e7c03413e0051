(** Sizes: how many records and shards each level holds, and how high the structure
    grows. *)
From Coq Require Import List Arith ZArith NArith Lia Bool Permutation Sorted.
From Verif Require Import Base ListLemmas RecordModel RecordProofs BufferModel BufferProofs
  MergeModel MergeProofs StructModel ExtModel StructProofs StructTotal SortedProofs ExtProofs TagProofs ExecProofs.
Import ListNotations.

(** ** List arithmetic *)

(** Sum of [f] over the levels, weighted by position. *)
Fixpoint wsum {A} (f : nat -> A -> nat) (i : nat) (l : list A) : nat :=
  match l with [] => 0 | x :: l' => f i x + wsum f (S i) l' end.

Lemma wsum_app : forall {A} (f : nat -> A -> nat) a b i,
  wsum f i (a ++ b) = wsum f i a + wsum f (i + length a) b.
Proof.
  induction a; simpl; intros; [rewrite Nat.add_0_r; auto|]. rewrite IHa.
  replace (S i + length a0) with (i + S (length a0)) by lia. lia.
Qed.

Lemma wsum_set : forall {A} (f : nat -> A -> nat) j x y l i,
  nth_error l j = Some x -> wsum f i (set_nth j y l) + f (i + j) x = wsum f i l + f (i + j) y.
Proof.
  induction j; destruct l; simpl; intros; try discriminate.
  - inv H. rewrite Nat.add_0_r. lia.
  - specialize (IHj x y l (S i) H). replace (i + S j) with (S i + j) by lia. lia.
Qed.

Lemma wsum_ge : forall {A} (f : nat -> A -> nat) l i j x,
  nth_error l j = Some x -> f (i + j) x <= wsum f i l.
Proof.
  induction l; destruct j; simpl; intros; try discriminate.
  - inv H. rewrite Nat.add_0_r. lia.
  - specialize (IHl (S i) j x H). replace (i + S j) with (S i + j) by lia. lia.
Qed.

Lemma wsum_ge2 : forall {A} (f : nat -> A -> nat) l i j x y,
  nth_error l 0 = Some y -> nth_error l (S j) = Some x -> f i y + f (i + S j) x <= wsum f i l.
Proof.
  destruct l; simpl; intros; try discriminate. inv H.
  pose proof (wsum_ge f l (S i) j x H0). replace (i + S j) with (S i + j) by lia. lia.
Qed.

Lemma wsum_ext : forall {A B} (f : nat -> A -> nat) (g : nat -> B -> nat) (h : A -> B) l i,
  (forall j x, f j x = g j (h x)) -> wsum f i l = wsum g i (map h l).
Proof. induction l; simpl; intros; auto. Qed.

Section LP.
Context {R : Type} {RO : RecOps R}.
Variable BD : builders R.
Context {ok : shard R -> Prop} {SL : ShardLaws BD ok}.
Variable C : cfg.
Hypothesis SF : 1 <= c_sf C.

Local Arguments set_nth : simpl never.

(** The shards of every level. *)
Definition lvs (st : structure R) : list (list (shard R)) := map lv_shards (st_levels st).

Definition recs (ss : list (shard R)) : nat := sum_list (map s_reccnt ss).

Lemma lvs_nth : forall st i l, nth_error (st_levels st) i = Some l ->
  nth_error (lvs st) i = Some (lv_shards l).
Proof. intros. unfold lvs. rewrite nth_error_map, H. auto. Qed.

Lemma lvs_nth_inv : forall st i ss, nth_error (lvs st) i = Some ss ->
  exists l, nth_error (st_levels st) i = Some l /\ lv_shards l = ss.
Proof.
  unfold lvs. intros. rewrite nth_error_map in H.
  destruct (nth_error (st_levels st) i); inv H. eauto.
Qed.

Lemma lvs_length : forall st, length (lvs st) = length (st_levels st).
Proof. intros. apply map_length. Qed.

(** The effect of merging one level into the next. *)
Definition pair_new (lb li new : list (shard R)) : Prop :=
  match c_layout C with
  | TIERING => (li = [] /\ new = lb) \/
      (exists s, from_shards BD li = Ok s /\ new = lb ++ [s])
  | _ => (lb = [] /\ new = li) \/
      (exists b n s, lb = [b] /\ li = [n] /\ from_shards BD [b; n] = Ok s /\ new = [s])
  end.

Definition pad (i : nat) (ls : list (list (shard R))) : list (list (shard R)) :=
  if length ls <=? i then ls ++ [[]] else ls.

Lemma pad_nth : forall i j ls x, nth_error ls j = Some x -> nth_error (pad i ls) j = Some x.
Proof.
  intros. unfold pad. destruct (length ls <=? i); auto.
  rewrite nth_error_app1; auto. eapply nth_some_lt; eauto.
Qed.

Lemma pair_lvs : forall st i st', shape C st -> c_layout C <> BSM -> room C st (S i) ->
  reconstruct_pair BD C st (S i) i = Ok st' ->
  exists lb li new, nth_error (pad (S i) (lvs st)) (S i) = Some lb /\
    nth_error (lvs st) i = Some li /\ pair_new lb li new /\
    lvs st' = set_nth i [] (set_nth (S i) new (pad (S i) (lvs st))).
Proof.
  intros st i st' SH NB [RM1 RM2] H. unfold reconstruct_pair in H.
  destruct (if length (st_levels st) <=? S i then _ else _) as [levels state] eqn:EX.
  assert (K : shape C (Struct levels state) /\ map lv_shards levels = pad (S i) (lvs st) /\
    (forall l, nth_error levels i = Some l -> nth_error (st_levels st) i = Some l) /\
    (c_layout C = TIERING -> forall l, nth_error levels (S i) = Some l -> lv_count l < c_sf C)).
  { unfold pad. rewrite lvs_length.
    destruct (Nat.leb_spec (length (st_levels st)) (S i)); inv EX.
    - assert (E : length (st_levels st) = S i) by lia.
      split; [|split; [|split]].
      + apply shape_snoc; auto. rewrite E. apply lsok_new. auto.
      + rewrite map_app. auto.
      + intros l Hl. rewrite nth_error_app1 in Hl by lia. auto.
      + intros T l Hl. rewrite nth_error_app2 in Hl by lia. rewrite E, Nat.sub_diag in Hl.
        inv Hl. unfold lv_count. simpl. lia.
    - destruct st. simpl in *. split; [exact SH|]. split; [auto|]. split; auto. }
  clear EX RM1 RM2. destruct K as (SK & AK & JK & RK).
  mon H. mon H. mon H. rename a into lb, a0 into li, a1 into lb'.
  unfold nth_res in E, E0.
  destruct (nth_error levels (S i)) as [lb_|] eqn:EB; inv E.
  destruct (nth_error levels i) as [li_|] eqn:EI; inv E0.
  destruct (shape_level C (Struct levels state) _ _ SK EB) as (sb & ESB & OKB).
  destruct (shape_level C (Struct levels state) _ _ SK EI) as (si & ESI & OKI).
  simpl in ESB, ESI.
  exists (lv_shards lb), (lv_shards li), (lv_shards lb'). rewrite <- AK.
  split; [rewrite nth_error_map, EB; auto|].
  split; [apply lvs_nth; apply JK; auto|].
  split.
  2:{ inv H. unfold lvs. simpl. rewrite !map_set_nth. auto. }
  unfold pair_new. unfold lsok in OKB, OKI. destruct (c_layout C) eqn:LY; [| |congruence].
  - destruct OKB as (_ & _ & _ & _ & _ & _ & B4 & _).
    destruct OKI as (_ & _ & _ & _ & _ & _ & I4 & _).
    unfold lv_count in *.
    destruct (Nat.ltb_spec 0 (length (lv_shards lb))).
    + right. unfold lv_reconstruct2 in E1. destruct (negb _) in E1; [discriminate|].
      destruct (lv_shards lb) as [|b [|]]; simpl in *; try lia.
      destruct (lv_shards li) as [|n [|]]; simpl in *; try lia; [discriminate|].
      mon E1. inv E1. exists b, n, a. auto.
    + left. inv E1. destruct (lv_shards lb); simpl in *; [auto|lia].
  - specialize (RK eq_refl _ eq_refl). unfold lv_append_level in E1.
    destruct (Nat.eqb_spec (lv_count li) 0).
    + left. unfold lv_count in *. destruct (lv_shards li); [|discriminate]. split; auto.
      simpl in E1. unfold lv_finalize in E1.
      destruct OKB as (_ & _ & P & _). rewrite P in E1. inv E1. auto.
    + right. mon E1. mon E. destruct OKB as (_ & _ & P & B1 & _).
      destruct (Nat.eqb_spec (lv_count lb) (lv_cap lb)); [lia|]. inv E.
      unfold lv_finalize in E1. simpl in E1. rewrite P in E1. inv E1. simpl. eauto.
Qed.

Lemma flush_lvs : forall st d v st', shape C st ->
  (c_layout C = BSM -> forall l, nth_error (st_levels st) 0 = Some l -> lv_shards l = []) ->
  flush_buffer BD C st d v = Ok st' ->
  exists l0 s new, nth_error (pad 0 (lvs st)) 0 = Some l0 /\ from_view BD d v = Ok s /\
    lvs st' = set_nth 0 new (pad 0 (lvs st)) /\
    match c_layout C with
    | LEVELING => recs l0 + v_count v <= level_cap C 0 /\ ((l0 = [] /\ new = [s]) \/
        (exists b m, l0 = [b] /\ from_shards BD [b; s] = Ok m /\ new = [m]))
    | TIERING => length l0 < c_sf C /\ new = l0 ++ [s]
    | BSM => l0 = [] /\ new = [s]
    end.
Proof.
  intros st d v st' SH BS H. rewrite flush_ext0 in H by auto.
  destruct (ext0_ok C SF st SH) as (SE & AE & NE).
  assert (LE : lvs (ext0 C st) = pad 0 (lvs st)).
  { unfold ext0, pad. rewrite lvs_length. destruct (st_levels st) eqn:E; simpl; auto.
    unfold lvs. simpl. rewrite E. auto. }
  assert (BE : c_layout C = BSM -> forall l, nth_error (st_levels (ext0 C st)) 0 = Some l -> lv_shards l = []).
  { intros Q l Hl. unfold ext0 in Hl. destruct (st_levels st) eqn:E.
    - simpl in Hl. inv Hl. auto.
    - rewrite <- E in *. simpl in Hl. rewrite E in Hl. simpl in Hl. apply BS; auto. }
  revert H. rewrite <- LE. generalize dependent (ext0 C st). intros e SE AE NE LE BE H.
  destruct (can_reconstruct_with C 0 (v_count v) (st_state e)) eqn:CR; [|discriminate].
  unfold flush_into_l0 in H.
  destruct e as [levels state]. simpl in *.
  destruct levels as [|l0 levels]; [congruence|].
  destruct state as [|s0 state]; [destruct SE; discriminate|].
  simpl in H. change (nth_res 0 (l0 :: levels)) with (Ok l0) in H. simpl in H.
  mon H. change (nth_res 0 (s0 :: state)) with (Ok s0) in H. simpl in H.
  rename a into l0'. inv H.
  pose proof (proj2 SE 0 l0 s0 eq_refl eq_refl) as L0.
  destruct L0 as (O1 & O2 & O3 & O4).
  unfold can_reconstruct_with in CR. simpl in CR.
  unfold lvs at 1 3. simpl.
  destruct (c_layout C) eqn:LY.
  - mon E. unfold lv_append_buffer, lv_count, lv_new in E0. simpl in E0. mon E0. inv E0.
    destruct O4 as (P1 & P2 & P3 & P4 & P5). apply Nat.leb_le in CR.
    exists (lv_shards l0), a0, (lv_shards l0'). split; [auto|]. split; [auto|].
    split; [auto|]. split; [unfold recs; fold (lv_reccnt l0); lia|].
    destruct (Nat.ltb_spec 0 (lv_count l0)).
    + right. unfold lv_reconstruct2 in E. destruct (negb _) in E; [discriminate|]. simpl in E.
      destruct (lv_shards l0) as [|b bs] eqn:EB; [discriminate|].
      unfold lv_count in P4. rewrite EB in P4. destruct bs; [|simpl in P4; lia].
      mon E. inv E. simpl. eauto.
    + left. inv E. simpl. unfold lv_count in *. destruct (lv_shards l0); simpl in *; [auto|lia].
  - apply Nat.ltb_lt in CR. unfold lv_append_buffer in E.
    destruct O4 as (P1 & P2 & P3 & P4).
    destruct (Nat.eqb_spec (lv_count l0) (lv_cap l0)); [lia|]. mon E. inv E.
    exists (lv_shards l0), a, (lv_shards l0 ++ [a]). repeat (split; auto).
    unfold lv_count in *. lia.
  - unfold lv_append_buffer in E. destruct O4 as (P1 & P2).
    pose proof (BE eq_refl l0 eq_refl) as Z. unfold lv_count in *. rewrite Z in *. simpl in *.
    destruct (lv_cap l0) eqn:CAP; [lia|]. mon E. inv E.
    exists [], a, [a]. simpl. auto.
Qed.

Lemma recs_app : forall a b, recs (a ++ b) = recs a + recs b.
Proof. intros. unfold recs. rewrite map_app. apply sum_list_app. Qed.

(** ** Tiering *)

Local Arguments nth_error : simpl never.
Local Arguments skipn : simpl never.

Definition full (st : structure R) (j : nat) : Prop :=
  exists ss, nth_error (lvs st) j = Some ss /\ length ss = c_sf C.

Definition weight (st : structure R) : nat :=
  wsum (fun i ss => length ss * c_sf C ^ i) 0 (lvs st).

Definition small (n : nat) (ls : list (list (shard R))) : Prop :=
  forall i ss s, nth_error ls i = Some ss -> In s ss -> s_reccnt s <= n * c_sf C ^ i.

Lemma small_set : forall n ls i ss, small n ls ->
  (forall s, In s ss -> s_reccnt s <= n * c_sf C ^ i) -> small n (set_nth i ss ls).
Proof.
  intros n ls i ss H Hs j ss' s Hj Hin. destruct (Nat.eq_dec i j).
  - subst. pose proof (nth_some_lt _ _ _ Hj) as L. rewrite set_nth_length in L.
    rewrite nth_error_set_nth_eq in Hj by auto. inv Hj. auto.
  - rewrite nth_error_set_nth_neq in Hj by auto. eauto.
Qed.

Lemma small_pad : forall n ls i, small n ls -> small n (pad i ls).
Proof.
  intros n ls i H j ss s Hj Hin. unfold pad in Hj. destruct (length ls <=? i); [|eauto].
  destruct (Nat.lt_ge_cases j (length ls)).
  - rewrite nth_error_app1 in Hj by auto. eauto.
  - rewrite nth_error_app2 in Hj by auto. destruct (j - length ls) as [|[|]]; inv Hj. destruct Hin.
Qed.

Lemma recs_small : forall n ss i, (forall s, In s ss -> s_reccnt s <= n * c_sf C ^ i) ->
  recs ss <= length ss * (n * c_sf C ^ i).
Proof.
  unfold recs, sum_list. induction ss; simpl; intros; auto.
  specialize (IHss i (fun s H' => H s (or_intror H'))). specialize (H a (or_introl eq_refl)). lia.
Qed.

Lemma weight_pad : forall i ls, wsum (fun i (ss : list (shard R)) => length ss * c_sf C ^ i) 0 (pad i ls) =
  wsum (fun i ss => length ss * c_sf C ^ i) 0 ls.
Proof.
  intros. unfold pad. destruct (length ls <=? i); auto. rewrite wsum_app. simpl. lia.
Qed.

(** The last level holds a shard. *)
Definition topped (st : structure R) : Prop :=
  forall ss, nth_error (lvs st) (length (lvs st) - 1) = Some ss -> ss <> [].

Lemma tier_pairs : forall b ts st st' n,
  c_layout C = TIERING ->
  map pair_of ts = down b -> Forall (fun t => length (t_sources t) = 1) ts ->
  shape C st -> b <= length (st_levels st) -> room C st b ->
  (forall j, j < b -> full st j) -> small n (lvs st) ->
  exec_pairs BD C ts st = Ok st' ->
  weight st' = weight st /\ small n (lvs st') /\
  (forall j, b < j -> nth_error (lvs st') j = nth_error (lvs st) j) /\
  (0 < b -> exists ss s, nth_error (lvs st') b = Some (ss ++ [s])) /\
  length (lvs st') = Nat.max (length (lvs st)) (if b =? 0 then 0 else S b).
Proof.
  induction b; intros ts st st' n LY ET EF SH LB RM FU SM H.
  - destruct ts; [|discriminate]. inv H. simpl. split; [auto|]. split; [auto|]. split; [auto|].
    split; [lia|]. lia.
  - destruct ts as [|t ts]; [discriminate|]. simpl in ET.
    injection ET as ET1 ET2 ET3. inv EF.
    destruct t as [srcs tg rc]. simpl in *. subst.
    destruct srcs as [|b' [|]]; simpl in *; try discriminate.
    mon H. rename a into st1.
    assert (NB : c_layout C <> BSM) by congruence.
    assert (LI : b' < length (st_levels st)) by lia.
    destruct (reconstruct_pair_ok BD C SF _ _ _ SH NB LI RM E) as
      (S1 & _ & L1 & (l1 & N1 & Z1) & K1 & T1).
    assert (RM' : room C st1 b').
    { split; [lia|]. intros T l Hl. rewrite N1 in Hl. inv Hl. unfold lv_count.
      rewrite Z1. simpl. lia. }
    destruct (pair_lvs _ _ _ SH NB RM E) as (lb & li & new & P1 & P2 & P3 & P4).
    destruct (FU b' ltac:(lia)) as (li' & FU1 & FU2). rewrite P2 in FU1. inv FU1.
    unfold pair_new in P3. rewrite LY in P3.
    destruct P3 as [(-> & _)|(s & Q1 & ->)]; [simpl in FU2; lia|].
    assert (F1 : forall j, j < b' -> full st1 j).
    { intros j Hj. destruct (FU j ltac:(lia)) as (ss & F1 & F2). exists ss. split; auto.
      apply lvs_nth_inv in F1 as (l & F1 & <-). apply lvs_nth.
      destruct (K1 j Hj) as [-> _]. auto. }
    assert (SS : s_reccnt s <= n * c_sf C ^ (S b')).
    { pose proof (shards_bound _ _ Q1) as B1.
      assert (B2 : recs li' <= length li' * (n * c_sf C ^ b')).
      { apply recs_small. intros. eapply SM; eauto. }
      unfold recs in B2. rewrite FU2 in B2. simpl. lia. }
    assert (SM1 : small n (lvs st1)).
    { rewrite P4. apply small_set; [apply small_set; [apply small_pad; auto|]|].
      - intros x Hx. apply in_app_iff in Hx as [Hx|[<-|[]]]; auto.
        eapply (small_pad n (lvs st) (S b') SM); eauto.
      - intros x []. }
    assert (W1 : weight st1 = weight st).
    { unfold weight. rewrite P4. rewrite <- (weight_pad (S b') (lvs st)).
      pose proof (wsum_set (fun i (ss : list (shard R)) => length ss * c_sf C ^ i)
         (S b') lb (lb ++ [s]) (pad (S b') (lvs st)) 0 P1) as WA.
      assert (NX : nth_error (set_nth (S b') (lb ++ [s]) (pad (S b') (lvs st))) b' = Some li').
      { rewrite nth_error_set_nth_neq by lia. apply pad_nth. auto. }
      pose proof (wsum_set (fun i (ss : list (shard R)) => length ss * c_sf C ^ i)
         b' li' [] _ 0 NX) as WB.
      cbv beta in WA, WB. rewrite app_length in WA. rewrite FU2 in WB.
      cbn [length Nat.add Nat.pow] in WA, WB.
      rewrite Nat.add_1_r in WA. cbn [Nat.mul] in WA, WB. lia. }
    destruct (IHb ts st1 st' n LY ET3 H3 S1 ltac:(lia) RM' F1 SM1 H) as (G1 & G2 & G3 & G4 & G5).
    split; [lia|]. split; [auto|]. split; [|split].
    + intros j Hj. rewrite G3 by lia. rewrite P4.
      rewrite !nth_error_set_nth_neq by lia.
      unfold pad. destruct (Nat.leb_spec (length (lvs st)) (S b')); auto.
      rewrite !(proj2 (nth_error_None _ _)); auto; rewrite ?app_length; simpl; lia.
    + intros _. exists lb, s. rewrite G3 by lia. rewrite P4.
      rewrite nth_error_set_nth_neq by lia. apply nth_error_set_nth_eq.
      eapply nth_some_lt; eauto.
    + rewrite G5. rewrite !lvs_length, L1. destruct (b' =? 0); lia.
Qed.

(** What a history of [k] flushes of at most [n] records leaves behind. *)
Record tinv (n k : nat) (st : structure R) : Prop := {
  ti_weight : weight st = k;
  ti_small : small n (lvs st);
  ti_top : topped st
}.

Lemma set0_pad : forall ls l0, nth_error (pad 0 ls) 0 = Some l0 ->
  forall x, exists rest, pad 0 ls = l0 :: rest /\ set_nth 0 x (pad 0 ls) = x :: rest.
Proof.
  intros. destruct (pad 0 ls); [discriminate|]. inv H. eexists. split; reflexivity.
Qed.

Lemma tier_flush : forall st d v st' n k, c_layout C = TIERING ->
  shape C st -> vok d v -> v_count v <= n ->
  weight st = k -> small n (lvs st) ->
  (length (lvs st) <= 1 \/ topped st) -> flush_buffer BD C st d v = Ok st' ->
  tinv n (S k) st'.
Proof.
  intros st d v st' n k LY SH VO VN WT SM TP H.
  apply flush_lvs in H as (l0 & s & new & F1 & F2 & F3 & F4); auto; [|congruence].
  rewrite LY in F4. destruct F4 as (F4 & ->).
  pose proof (proj2 (view_ok _ _ _ VO F2)) as B.
  constructor.
  - unfold weight. rewrite F3. unfold weight in WT. rewrite <- (weight_pad 0) in WT.
    pose proof (wsum_set (fun i (ss : list (shard R)) => length ss * c_sf C ^ i)
         0 l0 (l0 ++ [s]) _ 0 F1) as WA.
    cbv beta in WA. rewrite app_length in WA. simpl in WA. lia.
  - rewrite F3. apply small_set; [apply small_pad; auto|].
    intros x Hx. apply in_app_iff in Hx as [Hx|[<-|[]]].
    + eapply (small_pad n (lvs st) 0 SM); eauto.
    + simpl. lia.
  - unfold topped. rewrite F3, set_nth_length. intros ss Hss.
    destruct (Nat.eq_dec (length (pad 0 (lvs st)) - 1) 0) as [Z|Z].
    + rewrite Z in Hss. rewrite nth_error_set_nth_eq in Hss by (eapply nth_some_lt; eauto).
      inv Hss. intro Q. apply app_eq_nil in Q as [_ Q]. discriminate.
    + rewrite nth_error_set_nth_neq in Hss by lia. unfold pad in *.
      destruct (Nat.leb_spec (length (lvs st)) 0).
      * rewrite app_length in Z. simpl in Z. lia.
      * destruct TP as [TP|TP]; [lia|]. auto.
Qed.

Lemma tier_step : forall st d v st' n k, c_layout C = TIERING ->
  shape C st -> vok d v -> v_count v <= n -> tinv n k st ->
  reconstruct_struct BD C st d v = Ok st' -> tinv n (S k) st'.
Proof.
  intros st d v st' n k LY SH VO VN [W SM TP] H. unfold reconstruct_struct in H.
  mon H. destruct a as [x ts]. mon H. rename a into st1.
  apply (get_tasks_spec C) in E as [(-> & D)|(D & b & T & ET)]; auto.
  - assert (st1 = st) by (unfold exec_tasks in E0; rewrite LY in E0; inv E0; auto). subst st1.
    eapply tier_flush; eauto.
  - rewrite LY in ET. destruct ET as [ET EF]. unfold exec_tasks in E0. rewrite LY in E0.
    pose proof T as (s0 & ES0 & T1 & T2 & T3).
    assert (FU : forall j, j < b -> full st j).
    { intros j Hj.
      assert (CJ : exists m, can_reconstruct_with C j m (st_state st) = false).
      { destruct j; [eauto|]. exists (ls_rec s0). apply T3. lia. }
      destruct CJ as [m CJ].
      destruct (nth_error (st_levels st) j) as [l|] eqn:El.
      2:{ apply nth_error_None in El. lia. }
      destruct (shape_level C _ _ _ SH El) as (s & Es & OK).
      unfold can_reconstruct_with in CJ. rewrite Es, LY in CJ. apply Nat.ltb_ge in CJ.
      unfold lsok in OK. rewrite LY in OK. exists (lv_shards l). split; [apply lvs_nth; auto|].
      unfold lv_count in *. lia. }
    assert (RM : room C st b) by (apply target_room; auto).
    destruct (exec_pairs_ok BD C SF b ts st st1 ET EF SH ltac:(congruence) ltac:(lia) RM E0)
      as (S1 & _ & L1 & _).
    destruct (tier_pairs b ts st st1 n LY ET EF SH ltac:(lia) RM FU SM E0)
      as (W1 & M1 & K1 & N1 & L2).
    eapply tier_flush; eauto; [lia|].
    right. unfold topped. intros ss Hss. rewrite L2 in Hss.
    destruct (Nat.eqb_spec b 0); [lia|].
    destruct (Nat.le_gt_cases (length (lvs st)) (S b)).
    + replace (Nat.max (length (lvs st)) (S b) - 1) with b in Hss by lia.
      destruct (N1 ltac:(lia)) as (a & s & N2). rewrite N2 in Hss. inv Hss.
      intro Q. apply app_eq_nil in Q as [_ Q]. discriminate.
    + rewrite K1 in Hss by lia. apply TP.
      replace (Nat.max (length (lvs st)) (S b) - 1) with (length (lvs st) - 1) in Hss by lia. auto.
Qed.

Lemma tinv_height : forall n k st, tinv n k st -> lvs st <> [] ->
  c_sf C ^ (length (lvs st) - 1) <= k.
Proof.
  intros n k st [W _ TP] NE.
  destruct (nth_error (lvs st) (length (lvs st) - 1)) as [ss|] eqn:E.
  2:{ apply nth_error_None in E. destruct (lvs st); simpl in *; [congruence|lia]. }
  pose proof (TP _ E) as N.
  pose proof (wsum_ge (fun i (ss : list (shard R)) => length ss * c_sf C ^ i) _ 0 _ _ E) as G.
  simpl in G. unfold weight in W. destruct ss; [congruence|]. simpl in G. lia.
Qed.

(** ** Totals *)

Lemma recs_age : forall st, recs (age st) = wsum (fun _ ss => recs ss) 0 (lvs st).
Proof.
  intros [ls state]. unfold age, lvs. simpl. generalize 0.
  induction ls; intros n; simpl; auto. rewrite AGE_cons, recs_app, (IHls (S n)). lia.
Qed.

Lemma seg_steps_recs : forall a b, seg_steps BD a b -> recs b <= recs a.
Proof.
  clear SF. induction 1; auto. eapply Nat.le_trans; [exact IHseg_steps|].
  inv H; rewrite !recs_app.
  - apply shards_bound in H2. unfold recs in *. simpl. unfold sum_list in *. simpl. lia.
  - lia.
Qed.

(** ** Leveling *)

Definition bounded (f : nat -> nat) (ls : list (list (shard R))) : Prop :=
  forall i ss, nth_error ls i = Some ss -> recs ss <= f i.

Lemma bounded_set : forall f ls i ss, bounded f ls -> recs ss <= f i ->
  bounded f (set_nth i ss ls).
Proof.
  intros f ls i ss H Hs j ss' Hj. destruct (Nat.eq_dec i j).
  - subst. pose proof (nth_some_lt _ _ _ Hj) as L. rewrite set_nth_length in L.
    rewrite nth_error_set_nth_eq in Hj by auto. inv Hj. auto.
  - rewrite nth_error_set_nth_neq in Hj by auto. eauto.
Qed.

Lemma bounded_pad : forall f ls i, bounded f ls -> bounded f (pad i ls).
Proof.
  intros f ls i H j ss Hj. unfold pad in Hj. destruct (length ls <=? i); [|eauto].
  destruct (Nat.lt_ge_cases j (length ls)).
  - rewrite nth_error_app1 in Hj by auto. eauto.
  - rewrite nth_error_app2 in Hj by auto.
    destruct (j - length ls) as [|[|]]; inv Hj. apply Nat.le_0_l.
Qed.

Lemma level_pairs : forall b ts st st' f,
  c_layout C = LEVELING -> (forall i, f i <= f (S i)) ->
  map pair_of ts = down b -> Forall (fun t => length (t_sources t) = 1) ts ->
  shape C st -> b <= length (st_levels st) -> room C st b ->
  bounded f (lvs st) ->
  (forall lb li b', b = S b' -> nth_error (pad b (lvs st)) b = Some lb ->
     nth_error (lvs st) b' = Some li -> recs lb + recs li <= f b) ->
  exec_pairs BD C ts st = Ok st' ->
  bounded f (lvs st').
Proof.
  induction b; intros ts st st' f LY MO ET EF SH LB RM BN HB H.
  - destruct ts; [|discriminate]. inv H. auto.
  - destruct ts as [|t ts]; [discriminate|]. simpl in ET.
    injection ET as ET1 ET2 ET3. inv EF.
    destruct t as [srcs tg rc]. simpl in *. subst.
    destruct srcs as [|b' [|]]; simpl in *; try discriminate.
    mon H. rename a into st1.
    assert (NB : c_layout C <> BSM) by congruence.
    assert (LI : b' < length (st_levels st)) by lia.
    destruct (reconstruct_pair_ok BD C SF _ _ _ SH NB LI RM E) as
      (S1 & _ & L1 & (l1 & N1 & Z1) & K1 & T1).
    assert (RM' : room C st1 b').
    { split; [lia|]. intros T l Hl. congruence. }
    destruct (pair_lvs _ _ _ SH NB RM E) as (lb & li & new & P1 & P2 & P3 & P4).
    specialize (HB _ _ _ eq_refl P1 P2).
    assert (RN : recs new <= f (S b')).
    { unfold pair_new in P3. rewrite LY in P3.
      destruct P3 as [(-> & ->)|(x & y & s & -> & -> & Q & ->)].
      - simpl in HB. lia.
      - apply shards_bound in Q. unfold recs, sum_list in *. simpl in *. lia. }
    assert (B1 : bounded f (lvs st1)).
    { rewrite P4. apply bounded_set; [apply bounded_set; [apply bounded_pad|]|]; auto.
      apply Nat.le_0_l. }
    apply (IHb ts st1 st' f); auto; [lia|].
    intros lb2 li2 b2 -> Q1 Q2.
    unfold pad in Q1. destruct (Nat.leb_spec (length (lvs st1)) (S b2)).
    { rewrite lvs_length in *. lia. }
    rewrite (lvs_nth _ _ _ N1) in Q1. inv Q1. rewrite Z1. simpl.
    pose proof (B1 _ _ Q2). pose proof (MO b2). lia.
Qed.

(** [cap 1 + .. + cap i]; for level 0 its own capacity. *)
Fixpoint lbound (i : nat) : nat :=
  match i with
  | O => level_cap C 0
  | S O => level_cap C 1
  | S i' => level_cap C i + lbound i'
  end.

Lemma cap_mono : forall i, level_cap C i <= level_cap C (S i).
Proof.
  intros. unfold level_cap. apply Nat.mul_le_mono_l. apply Nat.pow_le_mono_r; lia.
Qed.

Lemma lbound_mono : forall i, lbound i <= lbound (S i).
Proof. destruct i; [apply (cap_mono 0)|]. simpl. lia. Qed.

Lemma lbound_ge : forall i, level_cap C i <= lbound i.
Proof. destruct i as [|[|i]]; cbn [lbound]; auto. lia. Qed.

Lemma lbound_twice : 2 <= c_sf C -> forall i, lbound i + level_cap C 0 <= 2 * level_cap C i.
Proof.
  intros S2. induction i as [|i IH]; [simpl; lia|].
  assert (G : 2 * level_cap C i <= level_cap C (S i)).
  { unfold level_cap. replace (S i + 1) with (S (i + 1)) by lia.
    cbn [Nat.pow]. assert (0 < c_sf C ^ (i + 1)) by (apply Nat.neq_0_lt_0, Nat.pow_nonzero; lia).
    nia. }
  destruct i.
  - cbn [lbound]. lia.
  - change (lbound (S (S i))) with (level_cap C (S (S i)) + lbound (S i)). lia.
Qed.

(** [p] bounds the number of records flushed so far. *)
Record linv (p : nat) (st : structure R) : Prop := {
  li_bound : bounded lbound (lvs st);
  li_total : recs (age st) <= p;
  li_height : 3 <= length (lvs st) -> c_hwm C * c_sf C ^ (length (lvs st) - 1) < p
}.

Lemma linv_step : forall st d v st' p, c_layout C = LEVELING ->
  shape C st -> l0cap C st -> Forall ok (age st) -> vok d v -> linv p st ->
  reconstruct_struct BD C st d v = Ok st' -> linv (p + v_count v) st'.
Proof.
  intros st d v st' p LY SH L0 OK VO [B T HH] H.
  assert (TT : recs (age st') <= p + v_count v).
  { assert (NB : c_layout C = BSM -> Forall nonempty (age st)) by congruence.
    destruct (recon_ok BD C SF _ _ _ _ SH VO OK NB H) as (_ & _ & _ & s & S1 & S2).
    apply seg_steps_recs in S2. rewrite recs_app in S2.
    pose proof (proj2 (view_ok _ _ _ VO S1)). unfold recs in *. simpl in S2.
    unfold sum_list in *. simpl in S2. lia. }
  assert (FL : forall st1, shape C st1 -> bounded lbound (lvs st1) ->
    flush_buffer BD C st1 d v = Ok st' ->
    bounded lbound (lvs st') /\ length (lvs st') = Nat.max 1 (length (lvs st1))).
  { intros st1 SH1 B1 F. apply flush_lvs in F as (l0 & s & new & F1 & F2 & F3 & F4); auto; [|congruence].
    rewrite LY in F4. destruct F4 as (F4 & F5).
    pose proof (proj2 (view_ok _ _ _ VO F2)) as SB.
    rewrite F3. split.
    - apply bounded_set; [apply bounded_pad; auto|]. cbn [lbound].
      destruct F5 as [(-> & ->)|(x & m & -> & Q & ->)].
      + unfold recs, sum_list in *. simpl in *. lia.
      + apply shards_bound in Q. unfold recs, sum_list in *. simpl in *. lia.
    - rewrite set_nth_length. unfold pad. destruct (Nat.leb_spec (length (lvs st1)) 0).
      + rewrite app_length. cbn [length]. lia.
      + lia. }
  unfold reconstruct_struct in H. mon H. destruct a as [x ts]. mon H. rename a into st1.
  apply (get_tasks_spec C) in E as [(-> & D)|(D & b & TG & ET)]; auto.
  - assert (st1 = st) by (unfold exec_tasks in E0; rewrite LY in E0; inv E0; auto). subst st1.
    destruct (FL st SH B H) as [F1 F2]. constructor; auto.
    intros G. rewrite F2 in *. destruct (Nat.max_spec 1 (length (lvs st))) as [[? ->]|[? ->]].
    + assert (3 <= length (lvs st)) by lia. specialize (HH H1). lia.
    + lia.
  - rewrite LY in ET. destruct ET as [ET EF]. unfold exec_tasks in E0. rewrite LY in E0.
    pose proof TG as (s0 & ES0 & T1 & T2 & T3).
    assert (RM : room C st b) by (apply target_room; auto).
    destruct (exec_pairs_ok BD C SF b ts st st1 ET EF SH ltac:(congruence) ltac:(lia) RM E0)
      as (S1 & _ & L1 & _).
    assert (BP : bounded lbound (lvs st1)).
    { eapply (level_pairs b ts st st1 lbound); eauto; [apply lbound_mono|lia|].
      intros lb li b' -> Q1 Q2. pose proof (B _ _ Q2) as BL.
      unfold pad in Q1. destruct (Nat.leb_spec (length (lvs st)) (S b')).
      - rewrite lvs_length in *. assert (length (st_levels st) = S b') by lia.
        rewrite nth_error_app2 in Q1 by (rewrite lvs_length; lia).
        rewrite lvs_length, H1, Nat.sub_diag in Q1. inv Q1.
        change (recs []) with 0. pose proof (lbound_mono b'). lia.
      - rewrite lvs_length in *. specialize (T2 ltac:(lia)).
        apply lvs_nth_inv in Q1 as (l & Q1 & <-).
        destruct (shape_level C _ _ _ SH Q1) as (s & Es & OKl).
        unfold can_reconstruct_with in T2. rewrite Es, LY in T2. apply Nat.leb_le in T2.
        unfold lsok in OKl. rewrite LY in OKl.
        destruct OKl as (O1 & _ & _ & _ & _ & O5 & _). rewrite O1, O5 in T2.
        fold (recs (lv_shards l)) in *. unfold lv_reccnt in T2. fold (recs (lv_shards l)) in T2.
        destruct b' as [|b'].
        + (* level 0 into level 1 *)
          destruct (lvs_nth_inv _ _ _ Q2) as (l0 & Q3 & <-).
          destruct (shape_level C _ _ _ SH Q3) as (s' & Es' & OK0).
          rewrite ES0 in Es'. inv Es'. destruct OK0 as (O6 & _).
          unfold lv_reccnt in O6. fold (recs (lv_shards l0)) in O6. cbn [lbound]. lia.
        + change (lbound (S (S b'))) with (level_cap C (S (S b')) + lbound (S b')). lia. }
    destruct (FL st1 S1 BP H) as [F1 F2]. constructor; auto.
    intros G. rewrite F2 in *. rewrite !lvs_length in *. rewrite L1 in *.
    destruct (Nat.eqb_spec b 0); [lia|].
    destruct (Nat.lt_ge_cases b (length (st_levels st))).
    + replace (Nat.max 1 (Nat.max (length (st_levels st)) (S b))) with (length (st_levels st)) in * by lia.
      specialize (HH G). lia.
    + assert (BL : length (st_levels st) = b) by lia.
      replace (Nat.max 1 (Nat.max (length (st_levels st)) (S b))) with (S b) in * by lia.
      destruct b as [|[|b]]; [lia|lia|].
      specialize (T3 (S b) ltac:(lia)).
      destruct (nth_error (st_levels st) (S b)) as [l|] eqn:El.
      2:{ apply nth_error_None in El. lia. }
      destruct (nth_error (st_levels st) 0) as [l0|] eqn:E00.
      2:{ apply nth_error_None in E00. lia. }
      destruct (shape_level C _ _ _ SH El) as (s & Es & OKl).
      destruct (shape_level C _ _ _ SH E00) as (s' & Es' & OK0).
      rewrite ES0 in Es'. inv Es'.
      unfold can_reconstruct_with in T3. rewrite Es, LY in T3. apply Nat.leb_gt in T3.
      unfold lsok in OKl. rewrite LY in OKl.
      destruct OKl as (O1 & _ & _ & _ & _ & O5 & _). destruct OK0 as (O6 & _).
      rewrite O1, O5, O6 in T3.
      pose proof (wsum_ge2 (fun _ (ss : list (shard R)) => recs ss) (lvs st) 0 b
         (lv_shards l) (lv_shards l0) (lvs_nth _ _ _ E00) (lvs_nth _ _ _ El)) as WG.
      rewrite <- recs_age in WG. cbv beta in WG.
      unfold lv_reccnt in T3. fold (recs (lv_shards l)) in T3. fold (recs (lv_shards l0)) in T3.
      unfold level_cap in T3. replace (S b + 1) with (S (S (S b)) - 1) in T3 by lia. lia.
Qed.

(** ** BSM *)

Lemma bsm_lvs : forall st b c st', b <= length (st_levels st) ->
  reconstruct_bsm BD C st (Task (downto b) b c) = Ok st' ->
  exists s, from_shards BD (AGE (firstn b (st_levels st))) = Ok s /\
    lvs st' = repeat [] b ++ [s] :: skipn (S b) (lvs st).
Proof.
  intros st b c st' LB H. unfold reconstruct_bsm in H. simpl in H.
  mon H. apply (map_res_downto C SF) in E; [|lia]. subst a.
  mon H. unfold lv_reconstruct_many in E. mon E. inv E.
  change (concat (map lv_shards (rev (firstn b (st_levels st))))) with
    (AGE (firstn b (st_levels st))) in E0.
  exists a0. split; auto.
  set (nl := Level b 1 [a0] None) in *.
  set (e := LS (lv_reccnt nl) (level_cap C b) 1 1) in *.
  destruct (if length (st_levels st) <=? b then _ else _) as [levels state] eqn:EX.
  assert (K : length levels = Nat.max (length (st_levels st)) (S b) /\
    nth_error levels b = Some nl /\
    (forall j, j <> b -> nth_error levels j = nth_error (st_levels st) j)).
  { destruct (Nat.leb_spec (length (st_levels st)) b); inv EX.
    - assert (length (st_levels st) = b) by lia. subst b. rewrite !app_length. simpl.
      rewrite !nth_error_app2 by lia. rewrite Nat.sub_diag.
      repeat split; auto; try lia. intros j NJ.
      destruct (Nat.lt_ge_cases j (length (st_levels st))).
      * rewrite nth_error_app1 by auto. auto.
      * rewrite (proj2 (nth_error_None (st_levels st ++ [nl]) j)),
            (proj2 (nth_error_None (st_levels st) j)); auto; rewrite ?app_length; simpl; lia.
    - rewrite !set_nth_length. repeat split; auto; try lia.
      + apply nth_error_set_nth_eq. auto.
      + intros. apply nth_error_set_nth_neq. auto. }
  clear EX. destruct K as (K1 & K3 & K5).
  destruct (clear_sources C (downto b) b levels state) as [levels' state'] eqn:EC.
  apply clear_sources_spec in EC as (C1 & _ & C3 & _ & C5). inv H.
  assert (NB : ~ In b (downto b)) by (rewrite (in_downto C SF); lia).
  assert (NLB : nth_error levels' b = Some nl) by (rewrite (proj1 (C5 b NB)); auto).
  unfold lvs. cbn [st_levels]. apply nth_error_ext.
  - rewrite map_length, app_length, repeat_length. cbn [length].
    rewrite skipn_length, map_length. lia.
  - rewrite map_length. intros j Hj. rewrite nth_error_map.
    destruct (Nat.lt_trichotomy j b) as [J|[J|J]].
    + rewrite C3; [|apply (in_downto C SF); auto|lia]. simpl.
      rewrite nth_error_app1 by (rewrite repeat_length; auto).
      symmetry. apply nth_error_repeat. auto.
    + subst j. rewrite NLB. rewrite nth_error_app2, repeat_length, Nat.sub_diag by (rewrite repeat_length; auto). auto.
    + assert (NJ : ~ In j (downto b)) by (rewrite (in_downto C SF); lia).
      rewrite (proj1 (C5 j NJ)), (K5 j ltac:(lia)).
      rewrite nth_error_app2 by (rewrite repeat_length; lia). rewrite repeat_length.
      replace (j - b) with (S (j - b - 1)) by lia.
      change (option_map lv_shards (nth_error (st_levels st) j) =
              nth_error (skipn (S b) (map lv_shards (st_levels st))) (j - b - 1)).
      rewrite nth_error_skipn, nth_error_map. do 2 f_equal. lia.
Qed.

(** Number of flushes merged into a shard of level [i]. *)
Definition bw (i : nat) : nat := match i with O => 1 | S i' => 2 ^ i' end.
Definition bwt (i : nat) (ss : list (shard R)) : nat := length ss * bw i.

Definition bsm_lv (n : nat) (i : nat) (ss : list (shard R)) : Prop :=
  ss = [] \/ exists s, ss = [s] /\ s_reccnt s <= n * bw i.

Record binv (n k : nat) (st : structure R) : Prop := {
  bi_weight : wsum bwt 0 (lvs st) = k;
  bi_small : forall i ss, nth_error (lvs st) i = Some ss -> bsm_lv n i ss;
  bi_top : topped st;
  bi_l0 : forall ss, nth_error (lvs st) 0 = Some ss -> ss <> []
}.

Lemma wsum_empty : forall b i, wsum bwt i (repeat [] b) = 0.
Proof. induction b; simpl; auto. Qed.

Fixpoint bsum (i : nat) : nat := match i with O => 0 | S i' => bsum i' + bw i' end.

Lemma bsum_bw : forall b, 0 < b -> bsum b = bw b.
Proof.
  induction b as [|b IH]; intros; [lia|]. cbn [bsum]. destruct b; [auto|].
  rewrite IH by lia. cbn [bw Nat.pow]. lia.
Qed.

Lemma firstn_snoc : forall {A} b (l : list A) x, nth_error l b = Some x ->
  firstn (S b) l = firstn b l ++ [x].
Proof.
  induction b; destruct l; simpl; intros; try discriminate.
  - inv H. auto.
  - f_equal. apply IHb. auto.
Qed.

Lemma wsum_firstn : forall b (ls : list (list (shard R))) n, b <= length ls ->
  (forall j ss, j < b -> nth_error ls j = Some ss -> ss <> [] /\ bsm_lv n j ss) ->
  wsum bwt 0 (firstn b ls) = bsum b /\
  wsum (fun _ ss => recs ss) 0 (firstn b ls) <= n * bsum b.
Proof.
  induction b; intros ls n L H; [simpl; lia|].
  destruct (nth_error ls b) as [ss|] eqn:E.
  2:{ apply nth_error_None in E. lia. }
  rewrite (firstn_snoc _ _ _ E), !wsum_app. destruct (IHb ls n) as [I1 I2]; [lia|auto|].
  rewrite I1. rewrite firstn_length. replace (Nat.min b (length ls)) with b by lia.
  destruct (H b ss ltac:(lia) E) as [N [->|(s & -> & B)]]; [congruence|].
  unfold bwt. simpl. unfold recs, sum_list in *. simpl in *. lia.
Qed.

Lemma nonempty_lv : forall st i ss, shape C st -> Forall ok (age st) ->
  Forall nonempty (age st) -> nth_error (lvs st) i = Some ss ->
  exists s, nth_error (st_state st) i = Some s /\ (ls_rec s = 0 <-> ss = []).
Proof.
  intros st i ss SH OK NE H. apply lvs_nth_inv in H as (l & H & <-).
  destruct (shape_level C _ _ _ SH H) as (s & Es & (O1 & _)). exists s. split; auto.
  rewrite O1. split; intros Z.
  - assert (F : Forall ok (lv_shards l)).
    { apply Forall_forall. intros y Hy. rewrite Forall_forall in OK. apply OK.
      eapply lv_in_age; eauto. }
    apply (zero_reccnt_empty BD C SF) in Z; auto.
    destruct (lv_shards l) as [|y ys] eqn:EL; auto. inv Z. exfalso.
    rewrite Forall_forall in NE. apply (NE y); auto.
    eapply lv_in_age; eauto. rewrite EL. simpl. auto.
  - unfold lv_reccnt. rewrite Z. auto.
Qed.

Lemma binv_flush : forall st d v st' n k, c_layout C = BSM -> shape C st -> vok d v ->
  v_count v <= n -> wsum bwt 0 (lvs st) = k ->
  (forall i ss, nth_error (lvs st) i = Some ss -> bsm_lv n i ss) ->
  (length (lvs st) <= 1 \/ topped st) ->
  (forall ss, nth_error (lvs st) 0 = Some ss -> ss = []) ->
  flush_buffer BD C st d v = Ok st' -> binv n (S k) st'.
Proof.
  intros st d v st' n k LY SH VO VN WT SM TP Z H.
  apply flush_lvs in H as (l0 & s & new & F1 & F2 & F3 & F4); auto.
  2:{ intros _ l Hl. apply Z. apply lvs_nth. auto. }
  rewrite LY in F4. destruct F4 as (-> & ->).
  pose proof (proj2 (view_ok _ _ _ VO F2)) as B.
  destruct (set0_pad _ _ F1 [s]) as (rest & E1 & E2). rewrite E2 in F3.
  assert (CASE : (lvs st = [] /\ rest = []) \/ lvs st = [] :: rest).
  { unfold pad in E1. destruct (Nat.leb_spec (length (lvs st)) 0); [|auto].
    destruct (lvs st); [|simpl in *; lia]. simpl in E1. inv E1. auto. }
  constructor; rewrite ?F3.
  - subst k. destruct CASE as [(-> & ->)| -> ]; reflexivity.
  - intros [|i] ss Hss.
    + inv Hss. right. exists s. simpl. split; auto. lia.
    + destruct CASE as [(_ & ->)|E]; [destruct i; discriminate|].
      apply (SM (S i)). rewrite E. auto.
  - unfold topped. rewrite F3. simpl. rewrite Nat.sub_0_r. intros ss Hss.
    destruct rest as [|x rest]; [inv Hss; discriminate|].
    destruct CASE as [(_ & Q)|E]; [discriminate|].
    destruct TP as [TP|TP]; [rewrite E in TP; simpl in TP; lia|].
    apply TP. rewrite E. simpl. auto.
  - intros ss Hss. inv Hss. discriminate.
Qed.

Lemma binv_step : forall st d v st' n k, c_layout C = BSM ->
  shape C st -> Forall ok (age st) -> Forall nonempty (age st) -> vok d v ->
  v_count v <= n -> binv n k st ->
  reconstruct_struct BD C st d v = Ok st' -> binv n (S k) st'.
Proof.
  intros st d v st' n k LY SH OK NE VO VN [W SM TP L0] H. unfold reconstruct_struct in H.
  mon H. destruct a as [x ts]. mon H. rename a into st1.
  apply (get_tasks_spec C) in E as [(-> & D)|(D & b & T & ET)]; auto.
  - assert (st1 = st) by (unfold exec_tasks in E0; rewrite LY in E0; inv E0; auto). subst st1.
    eapply binv_flush; eauto.
    intros ss Hss. destruct D as [D|D].
    2:{ unfold lvs in Hss. rewrite D in Hss. discriminate. }
    destruct (nonempty_lv _ _ _ SH OK NE Hss) as (s & Es & Q).
    unfold can_reconstruct_with in D. rewrite Es, LY in D. apply Nat.eqb_eq in D. tauto.
  - rewrite LY in ET. destruct ET as [c ->]. unfold exec_tasks in E0. rewrite LY in E0.
    pose proof (bsm_src C SF st b _ SH LY T D) as NM.
    destruct (reconstruct_bsm_ok BD C SF _ _ _ _ SH LY OK T NM E0) as (S1 & _).
    destruct T as (s0 & ES0 & T1 & T2 & T3).
    destruct (bsm_lvs _ _ _ _ (proj2 T1) E0) as (s & Q1 & Q2).
    assert (FU : forall j ss, j < b -> nth_error (lvs st) j = Some ss -> ss <> [] /\ bsm_lv n j ss).
    { intros j ss Hj Hss. split; [|eauto].
      destruct (nonempty_lv _ _ _ SH OK NE Hss) as (sj & Es & Q).
      assert (CJ : exists m, can_reconstruct_with C j m (st_state st) = false).
      { destruct j; [eauto|]. exists (ls_rec s0). apply T3. lia. }
      destruct CJ as [m CJ]. unfold can_reconstruct_with in CJ. rewrite Es, LY in CJ.
      apply Nat.eqb_neq in CJ. tauto. }
    destruct (wsum_firstn b (lvs st) n ltac:(rewrite lvs_length; lia) FU) as [W1 W2].
    rewrite bsum_bw in W1, W2 by lia.
    assert (REST : wsum bwt b (skipn b (lvs st)) = wsum bwt (S b) (skipn (S b) (lvs st))).
    { destruct (Nat.lt_ge_cases b (length (lvs st))).
      - destruct (nth_error (lvs st) b) as [ss|] eqn:Eb.
        2:{ apply nth_error_None in Eb. lia. }
        rewrite (skipn_cons_nth _ _ _ Eb). simpl.
        destruct (nonempty_lv _ _ _ SH OK NE Eb) as (sj & Es & Q).
        rewrite lvs_length in *. specialize (T2 H0).
        unfold can_reconstruct_with in T2. rewrite Es, LY in T2. apply Nat.eqb_eq in T2.
        apply Q in T2. subst ss. auto.
      - rewrite !skipn_all2 by lia. auto. }
    assert (SB : s_reccnt s <= n * bw b).
    { apply shards_bound in Q1. fold (recs (AGE (firstn b (st_levels st)))) in Q1.
      pose proof (recs_age (Struct (firstn b (st_levels st)) [])) as RA.
      unfold age, lvs in RA. cbn [st_levels] in RA. rewrite <- firstn_map in RA.
      fold (lvs st) in RA. lia. }
    eapply (binv_flush st1 d v st' n k); eauto.
    + rewrite Q2. rewrite wsum_app, wsum_empty, repeat_length. cbn [wsum].
      rewrite Nat.add_0_l. unfold bwt at 1. cbn [length].
      rewrite <- (firstn_skipn b (lvs st)) in W. rewrite wsum_app in W.
      rewrite firstn_length in W.
      replace (0 + Nat.min b (length (lvs st))) with b in W by (rewrite lvs_length; lia).
      change (0 + b) with b. lia.
    + intros i ss Hss. rewrite Q2 in Hss.
      destruct (Nat.lt_trichotomy i b) as [J|[J|J]].
      * left. rewrite nth_error_app1, nth_error_repeat in Hss by (rewrite ?repeat_length; auto).
        inv Hss. auto.
      * subst. rewrite nth_error_app2, repeat_length, Nat.sub_diag in Hss by (rewrite repeat_length; auto).
        inv Hss. right. eauto.
      * rewrite nth_error_app2 in Hss by (rewrite repeat_length; lia). rewrite repeat_length in Hss.
        replace (i - b) with (S (i - b - 1)) in Hss by lia.
        change (nth_error (skipn (S b) (lvs st)) (i - b - 1) = Some ss) in Hss.
        rewrite nth_error_skipn in Hss.
        replace (S b + (i - b - 1)) with i in Hss by lia. eauto.
    + right. unfold topped. rewrite Q2. intros ss Hss.
      rewrite app_length, repeat_length in Hss. cbn [length] in Hss. rewrite skipn_length in Hss.
      destruct (Nat.le_gt_cases (length (lvs st)) (S b)).
      * replace (b + S (length (lvs st) - S b) - 1) with b in Hss by lia.
        rewrite nth_error_app2, repeat_length, Nat.sub_diag in Hss by (rewrite repeat_length; auto).
        inv Hss. discriminate.
      * rewrite nth_error_app2 in Hss by (rewrite repeat_length; lia). rewrite repeat_length in Hss.
        replace (b + S (length (lvs st) - S b) - 1 - b) with (S (length (lvs st) - S b - 1)) in Hss by lia.
        change (nth_error (skipn (S b) (lvs st)) (length (lvs st) - S b - 1) = Some ss) in Hss.
        rewrite nth_error_skipn in Hss. apply TP. rewrite <- Hss. f_equal. lia.
    + intros ss Hss. rewrite Q2 in Hss. destruct b; [lia|]. inv Hss. auto.
Qed.

Lemma binv_height : forall n k st, binv n k st -> 2 <= length (lvs st) ->
  2 ^ (length (lvs st) - 2) + 1 <= k.
Proof.
  intros n k st [W _ TP L0] G.
  destruct (nth_error (lvs st) (length (lvs st) - 1)) as [ss|] eqn:E.
  2:{ apply nth_error_None in E. lia. }
  destruct (nth_error (lvs st) 0) as [s0|] eqn:E0.
  2:{ apply nth_error_None in E0. lia. }
  pose proof (TP _ E) as N. pose proof (L0 _ eq_refl) as N0.
  replace (length (lvs st) - 1) with (S (length (lvs st) - 2)) in E by lia.
  pose proof (wsum_ge2 bwt (lvs st) 0 _ _ _ E0 E) as WG.
  unfold bwt in WG at 1 2. destruct ss; [congruence|]. destruct s0; [congruence|].
  simpl in WG. simpl. lia.
Qed.

End LP.

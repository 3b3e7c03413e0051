(** Reconstructions keep the levels well-formed and only merge neighbours in age
    order. *)
From Coq Require Import List Arith ZArith NArith Lia Bool Permutation Sorted.
From Verif Require Import Base ListLemmas RecordModel RecordProofs BufferModel BufferProofs
  MergeModel MergeProofs StructModel ExtModel.
Import ListNotations.

(** What the proofs about the structure need of a kind of shards: [ok] holds of the
    shards that the constructors return, and gives their counts. *)
Class ShardLaws {R : Type} (B : builders R) (ok : shard R -> Prop) : Prop := {
  ok_count : forall s, ok s -> s_reccnt s = length (s_data s);
  view_same : forall d v d' v', vok d v -> vok d' v' -> v_records d v = v_records d' v' ->
    from_view B d v = from_view B d' v';
  view_ok : forall d v s, vok d v -> from_view B d v = Ok s -> ok s /\ s_reccnt s <= v_count v;
  view_total : forall d v, vok d v -> exists s, from_view B d v = Ok s;
  shards_ok : forall ss s, from_shards B ss = Ok s -> Forall ok ss -> ok s;
  shards_bound : forall ss s, from_shards B ss = Ok s -> s_reccnt s <= sum_list (map s_reccnt ss);
  shards_total : forall ss, Forall (fun s => s_data s <> []) ss -> Forall ok ss ->
    exists s, from_shards B ss = Ok s
}.

(** The shard built from a view of the records [l]. *)
Section Built.
Context {R : Type} {RO : RecOps R}.
Variable BD : builders R.

Definition lview (l : list (wrapped R)) : view := View (S (length l)) 0 (length l) 0.
Definition built (l : list (wrapped R)) : res (shard R) := from_view BD (l ++ [wzero]) (lview l).

Lemma lview_ok : forall l, vok (l ++ [wzero]) (lview l) /\ v_count (lview l) = length l /\
  v_records (l ++ [wzero]) (lview l) = Ok l /\ v_copy (l ++ [wzero]) (lview l) = Ok l.
Proof.
  intros l.
  assert (VO : vok (l ++ [wzero]) (lview l)).
  { unfold vok, lview. simpl. rewrite app_length. simpl. lia. }
  assert (E : ring (l ++ [wzero]) 0 (length l) = l).
  { apply nth_error_ext.
    - rewrite ring_length. auto.
    - rewrite ring_length. intros i Hi. rewrite nth_error_ring by auto. simpl.
      rewrite app_length. simpl. rewrite Nat.mod_small by lia.
      rewrite app_nth1 by auto. symmetry. apply nth_error_nth_some. auto. }
  rewrite v_records_ok, v_copy_ok by auto.
  unfold lview, v_count. simpl. rewrite Nat.sub_0_r, E. auto.
Qed.

Context {ok : shard R -> Prop} {SL : ShardLaws BD ok}.

Lemma view_built : forall d v l, vok d v -> v_records d v = Ok l -> from_view BD d v = built l.
Proof.
  intros. destruct (lview_ok l) as (V1 & _ & V2 & _). apply view_same; auto. congruence.
Qed.
Lemma built_total : forall l, exists s, built l = Ok s.
Proof. intros. apply view_total. apply lview_ok. Qed.
Lemma built_ok : forall l s, built l = Ok s -> ok s /\ s_reccnt s <= length l.
Proof.
  intros l s H. destruct (lview_ok l) as (V1 & V2 & _). rewrite <- V2. apply view_ok in H; auto.
Qed.
End Built.

Section SP.
Context {R : Type}.
Variable BD : builders R.
Variable C : cfg.
Context {ok : shard R -> Prop} {SL : ShardLaws BD ok}.

(** ** Age order: deepest level first, within a level in shard order *)

Definition AGE (ls : list (level R)) : list (shard R) := concat (map lv_shards (rev ls)).
Definition age (st : structure R) : list (shard R) := AGE (st_levels st).

Lemma AGE_app : forall a b, AGE (a ++ b) = AGE b ++ AGE a.
Proof. intros. unfold AGE. rewrite rev_app_distr, map_app, concat_app. auto. Qed.

Lemma AGE_cons : forall l b, AGE (l :: b) = AGE b ++ lv_shards l.
Proof.
  intros. unfold AGE. simpl. rewrite map_app, concat_app. simpl. rewrite app_nil_r. auto.
Qed.

Lemma AGE_empty : forall ls, (forall l, In l ls -> lv_shards l = []) -> AGE ls = [].
Proof.
  intros. unfold AGE. induction ls; simpl; auto.
  rewrite map_app, concat_app, IHls; [|intros; apply H; simpl; auto]. simpl.
  rewrite H by (simpl; auto). auto.
Qed.

Inductive seg_step : list (shard R) -> list (shard R) -> Prop :=
| ss_merge : forall a m b s, m <> [] -> from_shards BD m = Ok s ->
    seg_step (a ++ m ++ b) (a ++ s :: b)
| ss_drop : forall a m b, Forall (fun s => s_data s = []) m ->
    seg_step (a ++ m ++ b) (a ++ b).

Inductive seg_steps : list (shard R) -> list (shard R) -> Prop :=
| sst_refl : forall a, seg_steps a a
| sst_step : forall a b c, seg_step a b -> seg_steps b c -> seg_steps a c.

Lemma seg_steps_trans : forall a b c, seg_steps a b -> seg_steps b c -> seg_steps a c.
Proof. induction 1; intros; auto. econstructor; eauto. Qed.

Lemma seg_steps_one : forall a b, seg_step a b -> seg_steps a b.
Proof. intros. econstructor; eauto. constructor. Qed.

Lemma seg_step_app : forall a b c, seg_step a b -> seg_step (a ++ c) (b ++ c).
Proof.
  intros. inv H; rewrite <- !app_assoc.
  - apply (ss_merge a0 m (b0 ++ c) s H0 H1).
  - apply (ss_drop a0 m (b0 ++ c) H0).
Qed.

Lemma seg_steps_app : forall a b c, seg_steps a b -> seg_steps (a ++ c) (b ++ c).
Proof.
  induction 1; [constructor|]. econstructor; [|eauto]. apply seg_step_app. auto.
Qed.

(** ** Shape *)

Definition lsok (i : nat) (l : level R) (s : lstate) : Prop :=
  ls_rec s = lv_reccnt l /\ ls_cnt s = lv_count l /\ lv_pending l = None /\
  match c_layout C with
  | LEVELING => lv_cap l = 1 /\ ls_cap s = 1 /\ ls_reccap s = level_cap C i /\
                lv_count l <= 1 /\ (lv_shards l <> [] -> lv_no l = 0)
  | TIERING => lv_cap l = c_sf C /\ ls_cap s = c_sf C /\ ls_reccap s = level_cap C i /\
               lv_count l <= c_sf C
  | BSM => lv_count l <= lv_cap l /\ 1 <= lv_cap l
  end.

Definition shape (st : structure R) : Prop :=
  length (st_levels st) = length (st_state st) /\
  (forall i l s, nth_error (st_levels st) i = Some l -> nth_error (st_state st) i = Some s ->
                 lsok i l s).

(** Under leveling, level 0 respects its capacity. *)
Definition l0cap (st : structure R) : Prop :=
  c_layout C = LEVELING ->
  forall s, nth_error (st_state st) 0 = Some s -> ls_rec s <= level_cap C 0.

Lemma shape_level : forall st i l, shape st -> nth_error (st_levels st) i = Some l ->
  exists s, nth_error (st_state st) i = Some s /\ lsok i l s.
Proof.
  intros st i l [HL HS] H. destruct (nth_error (st_state st) i) as [s|] eqn:E.
  - eauto.
  - apply nth_error_None in E. apply nth_some_lt in H. lia.
Qed.

Lemma shape_state : forall st i s, shape st -> nth_error (st_state st) i = Some s ->
  exists l, nth_error (st_levels st) i = Some l /\ lsok i l s.
Proof.
  intros st i s [HL HS] H. destruct (nth_error (st_levels st) i) as [l|] eqn:E.
  - eauto.
  - apply nth_error_None in E. apply nth_some_lt in H. lia.
Qed.

Lemma shape_set : forall st i l s, shape st -> lsok i l s ->
  shape (Struct (set_nth i l (st_levels st)) (set_nth i s (st_state st))).
Proof.
  intros st i l s [HL HS] H. split; simpl; [rewrite !set_nth_length; auto|].
  intros j l' s' Hl Hs. destruct (Nat.eq_dec i j).
  - subst. pose proof (nth_some_lt _ _ _ Hl) as L1. pose proof (nth_some_lt _ _ _ Hs) as L2.
    rewrite set_nth_length in L1. rewrite set_nth_length in L2.
    rewrite nth_error_set_nth_eq in Hl by auto. rewrite nth_error_set_nth_eq in Hs by auto.
    inv Hl. inv Hs. auto.
  - rewrite nth_error_set_nth_neq in Hl by auto. rewrite nth_error_set_nth_neq in Hs by auto. eauto.
Qed.

Lemma shape_snoc : forall st l s, shape st -> lsok (length (st_levels st)) l s ->
  shape (Struct (st_levels st ++ [l]) (st_state st ++ [s])).
Proof.
  intros st l s [HL HS] H. split; simpl; [rewrite !app_length; simpl; lia|].
  intros j l' s' Hl Hs. destruct (Nat.lt_ge_cases j (length (st_levels st))).
  - rewrite nth_error_app1 in Hl by auto. rewrite nth_error_app1 in Hs by lia. eauto.
  - pose proof (nth_some_lt _ _ _ Hl) as L1. rewrite app_length in L1. simpl in L1.
    assert (j = length (st_levels st)) by lia. subst.
    rewrite nth_error_app2 in Hl by auto. rewrite nth_error_app2 in Hs by lia.
    rewrite Nat.sub_diag in Hl. rewrite HL, Nat.sub_diag in Hs. inv Hl. inv Hs. auto.
Qed.

Hypothesis SF : 1 <= c_sf C.

Lemma lsok_new : forall i, lsok i (lv_new i (shard_capacity C))
  (LS 0 (level_cap C i) 0 (shard_capacity C)).
Proof.
  intros. unfold lsok, shard_capacity, lv_new, lv_reccnt, lv_count. simpl.
  destruct (c_layout C); simpl; repeat split; auto; try lia; congruence.
Qed.

(** ** Planning *)

Lemma find_target_loop_some : forall n i inc state j,
  find_target_loop C i n inc state = Some j ->
  i <= j < i + n /\ can_reconstruct_with C j inc state = true /\
  (forall k, i <= k < j -> can_reconstruct_with C k inc state = false).
Proof.
  induction n; simpl; intros; [discriminate|].
  destruct (can_reconstruct_with C i inc state) eqn:E.
  - inv H. repeat split; auto; try lia; intros; lia.
  - apply IHn in H as (H1 & H2 & H3). repeat split; auto; try lia.
    intros. destruct (Nat.eq_dec k i); [subst; auto|apply H3; lia].
Qed.

Lemma find_target_loop_none : forall n i inc state,
  find_target_loop C i n inc state = None ->
  forall k, i <= k < i + n -> can_reconstruct_with C k inc state = false.
Proof.
  induction n; simpl; intros; [lia|].
  destruct (can_reconstruct_with C i inc state) eqn:E; [discriminate|].
  destruct (Nat.eq_dec k i); [subst; auto|]. eapply IHn; eauto. lia.
Qed.

(** The pairs (source, target) from level [b] down to level 1. *)
Fixpoint down (b : nat) : list (nat * nat) :=
  match b with O => [] | S b' => (b', S b') :: down b' end.

Definition pair_of (t : task) : nat * nat := (hd 0 (t_sources t), t_target t).

Lemma pair_tasks_down : forall i state acc state' ts,
  pair_tasks C i 0 state acc = (state', ts) ->
  exists ts', ts = acc ++ ts' /\ map pair_of ts' = down i /\
    Forall (fun t => length (t_sources t) = 1) ts'.
Proof.
  induction i; intros; simpl in H.
  - inv H. exists []. rewrite app_nil_r. auto.
  - apply IHi in H as (ts' & -> & E & F).
    eexists (_ :: ts'). rewrite <- app_assoc. split; [reflexivity|]. simpl. rewrite E. auto.
Qed.

Fixpoint downto (b : nat) : list nat :=
  match b with O => [] | S b' => b' :: downto b' end.

Lemma bsm_sources_downto : forall i state acc cnt state' srcs cnt',
  bsm_sources i 0 state acc cnt = (state', srcs, cnt') -> srcs = acc ++ downto i.
Proof.
  induction i; intros; simpl in H.
  - inv H. rewrite app_nil_r. auto.
  - apply IHi in H. rewrite H, <- app_assoc. auto.
Qed.

(** The level chosen as the first target of a reconstruction. *)
Definition target (st : structure R) (b : nat) : Prop :=
  exists s0, nth_error (st_state st) 0 = Some s0 /\
    1 <= b <= length (st_levels st) /\
    (b < length (st_levels st) -> can_reconstruct_with C b (ls_rec s0) (st_state st) = true) /\
    (forall k, 1 <= k < b -> can_reconstruct_with C k (ls_rec s0) (st_state st) = false).

Lemma get_tasks_spec : forall st n x ts, shape st -> get_tasks C st n = Ok (x, ts) ->
  (ts = [] /\ (can_reconstruct_with C 0 n (st_state st) = true \/ st_levels st = []))
  \/ (can_reconstruct_with C 0 n (st_state st) = false /\
      exists b, target st b /\
      match c_layout C with
      | BSM => exists c, ts = [Task (downto b) b c]
      | _ => map pair_of ts = down b /\ Forall (fun t => length (t_sources t) = 1) ts
      end).
Proof.
  intros st n x ts [HL HS] H. unfold get_tasks in H. mon H. destruct a as [state1 ts1].
  assert (ts1 = ts).
  { destruct (nth_error state1 0); inv H. auto. }
  subst ts1. clear H.
  destruct (can_reconstruct_with C 0 n (st_state st)) eqn:CR.
  - inv E. left. auto.
  - unfold tasks_from_level in E. mon E. unfold find_target in E0.
    destruct (st_state st) as [|s0 rest] eqn:ES.
    + simpl in E0. inv E0. destruct (st_levels st) eqn:EL; [|discriminate].
      left. split; auto. unfold grow in E. rewrite EL in E. simpl in E.
      destruct (c_layout C); inv E; auto.
    + simpl in E0. inv E0. right. split; auto.
      assert (K : forall state1' b, target st b ->
        match c_layout C with
        | BSM =>
            if b =? 0 then Ok (state1', [])
            else
              let '(state2, srcs, cnt) := bsm_sources b 0 state1' [] 0 in
              Ok (upd_state b (fun s => LS cnt (ls_reccap s) 1 (ls_cap s)) state2,
                  [Task srcs b cnt])
        | _ => Ok (pair_tasks C b 0 state1' [])
        end = Ok (state1, ts) ->
        exists b, target st b /\
        match c_layout C with
        | BSM => exists c, ts = [Task (downto b) b c]
        | _ => map pair_of ts = down b /\ Forall (fun t => length (t_sources t) = 1) ts
        end).
      { intros state1' b T E'. exists b. split; auto.
        destruct (c_layout C) eqn:LY.
        - inv E'. apply pair_tasks_down in H0 as (ts' & -> & E1 & E2). auto.
        - inv E'. apply pair_tasks_down in H0 as (ts' & -> & E1 & E2). auto.
        - destruct T as (_ & _ & T & _).
          destruct (Nat.eqb_spec b 0); [lia|].
          destruct (bsm_sources b 0 state1' [] 0) as [[st2 srcs] cnt] eqn:EB.
          apply bsm_sources_downto in EB. simpl in EB. subst. inv E'. eauto. }
      rewrite Nat.sub_0_r in E.
      destruct (find_target_loop C 1 (length rest) (ls_rec s0) (s0 :: rest)) as [b|] eqn:F.
      * apply find_target_loop_some in F as (F1 & F2 & F3).
        apply (K (s0 :: rest) b); [|exact E].
        exists s0. rewrite ES. simpl in HL. repeat split; auto; try lia.
      * pose proof (find_target_loop_none _ _ _ _ F) as FN.
        apply (K (fst (grow C st (s0 :: rest))) (length (st_levels st))); [|exact E].
        exists s0. rewrite ES. simpl in HL. split; auto. split; [lia|]. split; [lia|].
        intros. apply FN. lia.
Qed.

Lemma get_tasks_total : forall st n, shape st -> st_levels st <> [] ->
  exists x, get_tasks C st n = Ok x.
Proof.
  intros st n [HL HS] NE. unfold get_tasks.
  destruct (st_state st) as [|s0 rest] eqn:ES.
  { destruct (st_levels st); [congruence|discriminate]. }
  destruct (can_reconstruct_with C 0 n (s0 :: rest)) eqn:CR.
  - simpl. eauto.
  - unfold tasks_from_level, find_target. simpl.
    assert (P : forall i state acc, length (fst (pair_tasks C i 0 state acc)) = length state).
    { induction i; intros; simpl; auto. rewrite IHi. unfold upd_state.
      repeat match goal with |- context [match nth_error ?a ?b with _ => _ end] =>
        destruct (nth_error a b) end; rewrite ?set_nth_length; auto. }
    assert (B : forall i state acc c, length (fst (fst (bsm_sources i 0 state acc c))) = length state).
    { induction i; intros; simpl; auto. rewrite IHi. unfold upd_state.
      repeat match goal with |- context [match nth_error ?a ?b with _ => _ end] =>
        destruct (nth_error a b) end; rewrite ?set_nth_length; auto. }
    destruct (match find_target_loop C 1 (length rest - 0) (ls_rec s0) (s0 :: rest)
                with Some b => (s0 :: rest, b) | None => grow C st (s0 :: rest) end)
        as [state1' b] eqn:EG.
    assert (0 < length state1').
    { destruct (find_target_loop C 1 (length rest - 0) (ls_rec s0) (s0 :: rest)); inv EG;
        simpl; lia. }
    assert (K : forall (x : list lstate * list task), 0 < length (fst x) ->
      exists y, (let (state1, ts) := x in
       match nth_error state1 0 with
       | Some s => Ok (set_nth 0 (LS (ls_rec s + n) (ls_reccap s)
                        (match c_layout C with
                         | TIERING => S (ls_cnt s)
                         | _ => if ls_cnt s =? 0 then S (ls_cnt s) else ls_cnt s
                         end) (ls_cap s)) state1, ts)
       | None => Fail FOob end) = Ok y).
    { intros [z ts] Hz. simpl in Hz. destruct z; simpl in *; [lia|eauto]. }
    destruct (c_layout C) eqn:LY; simpl.
    + apply K. rewrite P. auto.
    + apply K. rewrite P. auto.
    + destruct (b =? 0).
      * apply (K (state1', [])). auto.
      * pose proof (B b state1' [] 0) as EB.
        destruct (bsm_sources b 0 state1' [] 0) as [[st2 srcs] cnt]. simpl in *.
        apply (K (upd_state b (fun s => LS cnt (ls_reccap s) 1 (ls_cap s)) st2,
                  [Task srcs b cnt])).
        simpl. unfold upd_state. destruct (nth_error st2 b); rewrite ?set_nth_length; lia.
Qed.

(** ** Pairwise reconstruction *)

(** Level [b] is missing or has room for one more shard. *)
Definition room (st : structure R) (b : nat) : Prop :=
  b <= length (st_levels st) /\
  (c_layout C = TIERING -> forall l, nth_error (st_levels st) b = Some l -> lv_count l < c_sf C).

Lemma split_at2 : forall {A} (l : list A) i x y,
  nth_error l i = Some x -> nth_error l (S i) = Some y ->
  exists a b, l = a ++ x :: y :: b /\ length a = i.
Proof.
  induction l; intros; [destruct i; discriminate|]. destruct i; simpl in *.
  - inv H. destruct l; [discriminate|]. inv H0. exists [], l. auto.
  - destruct (IHl _ _ _ H H0) as (a' & b & -> & <-). exists (a :: a'), b. auto.
Qed.

Lemma set_two : forall {A} (a b : list A) x y x' y',
  set_nth (length a) x' (set_nth (S (length a)) y' (a ++ x :: y :: b)) = a ++ x' :: y' :: b.
Proof.
  induction a; simpl; intros; auto. f_equal. apply IHa.
Qed.

Local Arguments set_nth : simpl never.

Lemma lv_count_app : forall (l : level R) s, lv_shards l = s -> lv_count l = length s.
Proof. intros. subst. auto. Qed.

(** The level that replaces the target. *)
Lemma pair_level_ok : forall i lb li lb',
  c_layout C <> BSM ->
  lv_pending lb = None -> lv_pending li = None ->
  (c_layout C = LEVELING -> lv_cap lb = 1 /\ lv_count lb <= 1 /\ (lv_shards lb <> [] -> lv_no lb = 0)) ->
  (c_layout C = LEVELING -> lv_cap li = 1 /\ lv_count li <= 1 /\ (lv_shards li <> [] -> lv_no li = 0)) ->
  (c_layout C = TIERING -> lv_cap lb = c_sf C /\ lv_count lb < c_sf C) ->
  match c_layout C with
    | LEVELING => if 0 <? lv_count lb then lv_reconstruct2 BD lb li else Ok li
    | _ => do l1 <- lv_append_level BD lb li; lv_finalize l1
    end = Ok lb' ->
  lsok i lb' (LS (lv_reccnt lb') (level_cap C i) (lv_count lb') (shard_capacity C)) /\
  seg_steps (lv_shards lb ++ lv_shards li) (lv_shards lb') /\
  (lv_shards lb' = lv_shards lb ++ lv_shards li \/
   (exists s, from_shards BD (lv_shards li) = Ok s /\ lv_shards lb' = lv_shards lb ++ [s]) \/
   exists b n s, lv_shards lb = [b] /\ lv_shards li = [n] /\
                 from_shards BD [b; n] = Ok s /\ lv_shards lb' = [s]).
Proof.
  intros i lb li lb' NB PB PI LB LI TB H.
  unfold lsok, shard_capacity.
  destruct (c_layout C) eqn:LY; [| |congruence].
  - specialize (LB eq_refl) as (LB1 & LB2 & LB3). specialize (LI eq_refl) as (LI1 & LI2 & LI3).
    destruct (Nat.ltb_spec 0 (lv_count lb)).
    + unfold lv_reconstruct2 in H.
      destruct (negb _) in H; [discriminate|].
      unfold lv_count in *.
      destruct (lv_shards lb) as [|b lbs] eqn:EB; [discriminate|].
      destruct (lv_shards li) as [|n lis] eqn:EI; [discriminate|].
      destruct lbs; [|simpl in LB2; lia]. destruct lis; [|simpl in LI2; lia].
      mon H. inv H. simpl.
      repeat split; auto.
      { intros _. apply LB3. discriminate. }
      { apply seg_steps_one. apply (ss_merge [] [b; n] [] a ltac:(discriminate) E). }
      right. right. exists b, n, a. auto.
    + inv H. unfold lv_count in *. destruct (lv_shards lb) as [|b lbs] eqn:EB; [|simpl in H0; lia].
      simpl. repeat split; auto. constructor.
  - specialize (TB eq_refl) as (TB1 & TB2).
    mon H. unfold lv_append_level in E.
    destruct (Nat.eqb_spec (lv_count li) 0).
    + inv E. unfold lv_finalize in H. rewrite PB in H. inv H.
      assert (EI : lv_shards li = []) by (unfold lv_count in e; destruct (lv_shards li); auto; discriminate).
      rewrite EI, app_nil_r. simpl. repeat split; auto; try lia. constructor.
    + mon E. destruct (Nat.eqb_spec (lv_count lb) (lv_cap lb)); [lia|]. inv E.
      unfold lv_finalize in H. simpl in H. rewrite PB in H. inv H.
      simpl. unfold lv_count in *. simpl. rewrite app_length. simpl.
      repeat split; auto; try lia.
      { apply seg_steps_one. rewrite <- (app_nil_r (lv_shards li)).
        apply (ss_merge (lv_shards lb) (lv_shards li) [] a0); auto.
        unfold lv_count in n. destruct (lv_shards li); [simpl in n; congruence|discriminate]. }
      right. left. eauto.
Qed.

Lemma reconstruct_pair_ok : forall st i st',
  shape st -> c_layout C <> BSM -> i < length (st_levels st) -> room st (S i) ->
  reconstruct_pair BD C st (S i) i = Ok st' ->
  shape st' /\ seg_steps (age st) (age st') /\
  length (st_levels st') = Nat.max (length (st_levels st)) (S (S i)) /\
  (exists l, nth_error (st_levels st') i = Some l /\ lv_shards l = []) /\
  (forall j, j < i -> nth_error (st_levels st') j = nth_error (st_levels st) j /\
                      nth_error (st_state st') j = nth_error (st_state st) j) /\
  (nth_error (st_state st') i = Some (LS 0 (level_cap C i) 0 (shard_capacity C))).
Proof.
  intros st i st' SH NB HI [RM1 RM2] H. unfold reconstruct_pair in H.
  destruct (if length (st_levels st) <=? S i then _ else _) as [levels state] eqn:EX.
  assert (K : shape (Struct levels state) /\ age (Struct levels state) = age st /\
    length levels = Nat.max (length (st_levels st)) (S (S i)) /\
    (forall j, j <= i -> nth_error levels j = nth_error (st_levels st) j /\
                         nth_error state j = nth_error (st_state st) j) /\
    (c_layout C = TIERING -> forall l, nth_error levels (S i) = Some l -> lv_count l < c_sf C)).
  { destruct (Nat.leb_spec (length (st_levels st)) (S i)); inv EX.
    - assert (E : length (st_levels st) = S i) by lia.
      pose proof SH as [SH1 _].
      split; [|split; [|split; [|split]]].
      + apply shape_snoc; auto. rewrite E. apply lsok_new.
      + unfold age. simpl. rewrite AGE_app. auto.
      + rewrite app_length. simpl. lia.
      + intros. rewrite !nth_error_app1 by lia. auto.
      + intros T l Hl. rewrite nth_error_app2 in Hl by lia. rewrite E, Nat.sub_diag in Hl.
        inv Hl. unfold lv_count. simpl. lia.
    - destruct st. simpl in *. split; [exact SH|]. split; [auto|]. split; [lia|]. split; auto. }
  clear EX RM1 RM2. destruct K as (SK & AK & LK & JK & RK).
  mon H. mon H. mon H. rename a into lb, a0 into li, a1 into lb'.
  unfold nth_res in E, E0.
  destruct (nth_error levels (S i)) as [lb_|] eqn:EB; inv E.
  destruct (nth_error levels i) as [li_|] eqn:EI; inv E0.
  destruct (split_at2 _ _ _ _ EI EB) as (A & B & EL & LA).
  destruct (shape_level (Struct levels state) _ _ SK EB) as (sb & ESB & OKB).
  destruct (shape_level (Struct levels state) _ _ SK EI) as (si & ESI & OKI).
  simpl in ESB, ESI.
  unfold lsok in OKB, OKI.
  assert (PL := pair_level_ok (S i) lb li lb' NB).
  destruct PL as (P1 & P2 & _).
  { tauto. } { tauto. }
  { intro Q. rewrite Q in OKB. tauto. } { intro Q. rewrite Q in OKI. tauto. }
  { intro Q. rewrite Q in OKB. split; [tauto|]. auto. }
  { exact E1. }
  inv H. simpl.
  rewrite !set_nth_length.
  split; [|split; [|split; [|split; [|split]]]].
  - pose proof (shape_set _ _ _ _ SK P1) as S1. simpl in S1.
    apply (shape_set _ (length A) (lv_new (length A) (shard_capacity C))
             (LS 0 (level_cap C (length A)) 0 (shard_capacity C)) S1).
    apply lsok_new.
  - rewrite <- AK. unfold age. simpl.
    pose proof (set_two A B li lb (lv_new (length A) (shard_capacity C)) lb') as ST2.
    rewrite ST2. rewrite !AGE_app, !AGE_cons. simpl.
    rewrite !app_nil_r. rewrite <- !app_assoc.
    rewrite (app_assoc (lv_shards lb)).
    assert (G : forall x a b c, seg_steps a b -> seg_steps (x ++ a ++ c) (x ++ b ++ c)).
    { clear. intros. induction H; [constructor|]. econstructor; [|eauto].
      inv H.
      - rewrite <- !app_assoc. simpl. rewrite !(app_assoc x a0).
        apply (ss_merge (x ++ a0) m (b0 ++ c) s); auto.
      - rewrite <- !app_assoc. rewrite !(app_assoc x a0).
        apply (ss_drop (x ++ a0) m (b0 ++ c)). auto. }
    rewrite <- (app_assoc (lv_shards lb')) || idtac.
    apply G. auto.
  - auto.
  - exists (lv_new (length A) (shard_capacity C)). split; auto.
    apply nth_error_set_nth_eq. rewrite set_nth_length. eapply nth_some_lt; eauto.
  - intros j Hj. rewrite !nth_error_set_nth_neq by lia. apply JK. lia.
  - apply nth_error_set_nth_eq. rewrite set_nth_length. eapply nth_some_lt; eauto.
Qed.


Lemma exec_pairs_ok : forall b ts st st',
  map pair_of ts = down b -> Forall (fun t => length (t_sources t) = 1) ts ->
  shape st -> c_layout C <> BSM -> b <= length (st_levels st) -> room st b ->
  exec_pairs BD C ts st = Ok st' ->
  shape st' /\ seg_steps (age st) (age st') /\
  length (st_levels st') = Nat.max (length (st_levels st)) (if b =? 0 then 0 else S b) /\
  (b = 0 -> st' = st) /\
  (0 < b -> (exists l, nth_error (st_levels st') 0 = Some l /\ lv_shards l = []) /\
            nth_error (st_state st') 0 = Some (LS 0 (level_cap C 0) 0 (shard_capacity C))).
Proof.
  induction b; intros ts st st' ET EF SH NB LB RM H.
  - destruct ts; [|discriminate]. inv H. split; [exact SH|]. split; [constructor|]. simpl. split; [lia|]. split; [auto|lia].
  - destruct ts as [|t ts]; [discriminate|]. simpl in ET.
    injection ET as ET1 ET2 ET3. inv EF.
    destruct t as [srcs tg rc]. simpl in *. subst.
    destruct srcs as [|b' [|]]; simpl in *; try discriminate.
    mon H. rename a into st1.
    apply reconstruct_pair_ok in E as (S1 & G1 & L1 & (l1 & N1 & Z1) & K1 & T1); auto; try lia.
    assert (RM' : room st1 b').
    { split; [lia|]. intros T l Hl. rewrite N1 in Hl. inv Hl. unfold lv_count.
      rewrite Z1. simpl. lia. }
    apply IHb in H as (S2 & G2 & L2 & Z2 & T2); auto; try lia.
    split; auto. split; [eapply seg_steps_trans; eauto|]. split.
    { destruct (b' =? 0); lia. }
    split; [lia|]. intros _.
    destruct b'; [|apply T2; lia].
    rewrite (Z2 eq_refl). split; eauto.
Qed.

Lemma clear_sources_spec : forall srcs t (ls : list (level R)) state ls' state',
  clear_sources C srcs t ls state = (ls', state') ->
  length ls' = length ls /\ length state' = length state /\
  (forall j, In j srcs -> j < length ls -> nth_error ls' j = Some (lv_new j 1)) /\
  (forall j, In j srcs -> j < length state -> nth_error state' j = Some (LS 0 (level_cap C t) 0 1)) /\
  (forall j, ~ In j srcs -> nth_error ls' j = nth_error ls j /\
                           nth_error state' j = nth_error state j).
Proof.
  induction srcs; simpl; intros.
  - inv H. repeat split; auto; tauto.
  - apply IHsrcs in H as (H1 & H2 & H3 & H4 & H5). 
    rewrite set_nth_length in H1. rewrite set_nth_length in H2. rewrite set_nth_length in H3.
    rewrite set_nth_length in H4.
    repeat split; auto.
    + intros j [->|Hj] L; [|auto].
      destruct (in_dec Nat.eq_dec j srcs); [auto|].
      rewrite (proj1 (H5 j n)). apply nth_error_set_nth_eq. auto.
    + intros j [->|Hj] L; [|auto].
      destruct (in_dec Nat.eq_dec j srcs); [auto|].
      rewrite (proj2 (H5 j n)). apply nth_error_set_nth_eq. auto.
    + destruct (H5 j) as [-> _]; [tauto|]. apply nth_error_set_nth_neq. tauto.
    + destruct (H5 j) as [_ ->]; [tauto|]. apply nth_error_set_nth_neq. tauto.
Qed.

Lemma in_downto : forall b j, In j (downto b) <-> j < b.
Proof. induction b; simpl; intros; [lia|]. rewrite IHb. lia. Qed.

Lemma map_res_downto : forall {A} (ls : list A) b ls', b <= length ls ->
  map_res (fun i => nth_res i ls) (downto b) = Ok ls' -> ls' = rev (firstn b ls).
Proof.
  induction b; simpl; intros.
  - inv H0. auto.
  - mon H0. mon H0. inv H0. apply IHb in E0; [|lia]. subst.
    unfold nth_res in E. destruct (nth_error ls b) eqn:EN; inv E.
    assert (firstn (S b) ls = firstn b ls ++ [a]).
    { clear -EN. revert ls EN. induction b; destruct ls; simpl; intros; try discriminate.
      - inv EN. auto.
      - f_equal. apply IHb. auto. }
    simpl in H0. rewrite H0. rewrite rev_app_distr. auto.
Qed.

Lemma skipn_nth_ext : forall {A} b (l m : list A), length l = length m ->
  (forall j, b <= j -> nth_error l j = nth_error m j) -> skipn b l = skipn b m.
Proof.
  intros. apply nth_error_ext; [rewrite !skipn_length; lia|].
  intros. rewrite !nth_error_skipn. apply H0. lia.
Qed.

Lemma skipn_cons_nth : forall {A} b (l : list A) x, nth_error l b = Some x ->
  skipn b l = x :: skipn (S b) l.
Proof.
  induction b; destruct l; simpl; intros; try discriminate.
  - inv H. auto.
  - rewrite (IHb _ _ H). auto.
Qed.

Lemma reconstruct_bsm_ok : forall st b c st',
  shape st -> c_layout C = BSM -> Forall ok (age st) ->
  target st b -> AGE (firstn b (st_levels st)) <> [] -> reconstruct_bsm BD C st (Task (downto b) b c) = Ok st' ->
  shape st' /\ seg_steps (age st) (age st') /\
  length (st_levels st') = Nat.max (length (st_levels st)) (S b) /\
  (exists l, nth_error (st_levels st') 0 = Some l /\ lv_shards l = []) /\
  (exists s, nth_error (st_state st') 0 = Some s /\ ls_rec s = 0) /\
  (exists nl s, from_shards BD (AGE (firstn b (st_levels st))) = Ok s /\
     nth_error (st_levels st') b = Some nl /\ lv_shards nl = [s]).
Proof.
  intros st b c st' SH LY OK T NM H. unfold reconstruct_bsm in H. simpl in H.
  destruct T as (s0 & ES0 & TB & TC & _).
  mon H. apply map_res_downto in E; [|lia]. subst a.
  mon H. unfold lv_reconstruct_many in E. mon E. inv E.
  change (concat (map lv_shards (rev (firstn b (st_levels st))))) with
    (AGE (firstn b (st_levels st))) in E0.
  set (nl := Level b 1 [a0] None) in *.
  set (e := LS (lv_reccnt nl) (level_cap C b) 1 1) in *.
  destruct (if length (st_levels st) <=? b then _ else _) as [levels state] eqn:EX.
  pose proof SH as [HL HS].
  assert (K : length levels = Nat.max (length (st_levels st)) (S b) /\
    length state = length levels /\
    nth_error levels b = Some nl /\ nth_error state b = Some e /\
    (forall j, j <> b -> nth_error levels j = nth_error (st_levels st) j /\
                         nth_error state j = nth_error (st_state st) j)).
  { destruct (Nat.leb_spec (length (st_levels st)) b); inv EX.
    - assert (length (st_levels st) = b) by lia. subst b. rewrite !app_length. simpl.
      rewrite !nth_error_app2 by lia. rewrite Nat.sub_diag. rewrite <- HL, Nat.sub_diag.
      repeat split; auto; try lia.
      + destruct (Nat.lt_ge_cases j (length (st_levels st))).
        * rewrite nth_error_app1 by auto. auto.
        * rewrite (proj2 (nth_error_None (st_levels st ++ [nl]) j)),
            (proj2 (nth_error_None (st_levels st) j)); auto; rewrite ?app_length; simpl; lia.
      + destruct (Nat.lt_ge_cases j (length (st_levels st))).
        * rewrite nth_error_app1 by lia. auto.
        * rewrite (proj2 (nth_error_None (st_state st ++ [e]) j)),
            (proj2 (nth_error_None (st_state st) j)); auto; rewrite ?app_length; simpl; lia.
    - rewrite !set_nth_length. repeat split; auto; try lia.
      + apply nth_error_set_nth_eq. auto.
      + apply nth_error_set_nth_eq. lia.
      + apply nth_error_set_nth_neq. auto.
      + apply nth_error_set_nth_neq. auto. }
  clear EX. destruct K as (K1 & K2 & K3 & K4 & K5).
  destruct (clear_sources C (downto b) b levels state) as [levels' state'] eqn:EC.
  apply clear_sources_spec in EC as (C1 & C2 & C3 & C4 & C5). inv H. simpl.
  assert (NB : ~ In b (downto b)) by (rewrite in_downto; lia).
  assert (NLB : nth_error levels' b = Some nl) by (rewrite (proj1 (C5 b NB)); auto).
  split; [|split; [|split; [|split; [|split]]]].
  - split; simpl; [lia|]. intros j l s Hl Hs.
    destruct (Nat.lt_trichotomy j b) as [J|[J|J]].
    + pose proof (nth_some_lt _ _ _ Hl).
      rewrite C3 in Hl; [|apply in_downto; auto|lia].
      rewrite C4 in Hs; [|apply in_downto; auto|lia]. inv Hl. inv Hs.
      unfold lsok, lv_reccnt, lv_count. rewrite LY. simpl. repeat split; auto; lia.
    + subst j. rewrite NLB in Hl. rewrite (proj2 (C5 b NB)), K4 in Hs. inv Hl. inv Hs.
      unfold lsok, lv_reccnt, lv_count. rewrite LY. simpl. repeat split; auto; lia.
    + assert (NJ : ~ In j (downto b)) by (rewrite in_downto; lia).
      rewrite (proj1 (C5 j NJ)), (proj1 (K5 j ltac:(lia))) in Hl.
      rewrite (proj2 (C5 j NJ)), (proj2 (K5 j ltac:(lia))) in Hs. eauto.
  - unfold age. simpl.
    assert (EA : AGE levels' = AGE (skipn (S b) (st_levels st)) ++ [a0]).
    { rewrite <- (firstn_skipn b levels'). rewrite AGE_app, (AGE_empty (firstn b levels')), app_nil_r.
      - rewrite (skipn_cons_nth _ _ _ NLB), AGE_cons. cbn [lv_shards nl]. f_equal. f_equal.
        apply nth_error_ext.
        { rewrite !skipn_length. lia. }
        intros i Hi. rewrite !nth_error_skipn.
        assert (NJ : ~ In (S b + i) (downto b)) by (rewrite in_downto; lia).
        rewrite (proj1 (C5 _ NJ)). apply K5. lia.
      - intros l Hl. apply In_nth_error in Hl as (j & Hj).
        pose proof (nth_some_lt _ _ _ Hj) as Lj. rewrite firstn_length in Lj.
        rewrite nth_error_firstn in Hj by lia.
        rewrite C3 in Hj; [|apply in_downto; lia|lia]. inv Hj. auto. }
    rewrite EA.
    rewrite <- (firstn_skipn b (st_levels st)) at 1. rewrite AGE_app.
    destruct (Nat.lt_ge_cases b (length (st_levels st))).
    + destruct (nth_error (st_levels st) b) as [lb|] eqn:ELB.
      2:{ apply nth_error_None in ELB. lia. }
      rewrite (skipn_cons_nth _ _ _ ELB), AGE_cons.
      destruct (shape_level _ _ _ SH ELB) as (sb & ESB & OKB).
      assert (DROP : Forall (fun s => s_data s = []) (lv_shards lb)).
      { specialize (TC H). unfold can_reconstruct_with in TC. rewrite ESB, LY in TC.
        apply Nat.eqb_eq in TC. destruct OKB as (O1 & _). rewrite TC in O1.
        assert (F : Forall ok (lv_shards lb)).
        { apply Forall_forall. intros x Hx. rewrite Forall_forall in OK. apply OK.
          unfold age, AGE. apply in_concat. exists (lv_shards lb). split; auto.
          apply in_map. rewrite <- in_rev. eapply nth_error_In; eauto. }
        clear -O1 F SL. unfold lv_reccnt in O1. induction F; constructor.
        - unfold sum_list in O1. simpl in O1. apply ok_count in H. destruct (s_data x); auto.
          simpl in H. lia.
        - apply IHF. unfold sum_list in *. simpl in O1. lia. }
      rewrite <- !app_assoc.
      eapply sst_step.
      { apply (ss_drop (AGE (skipn (S b) (st_levels st))) (lv_shards lb)
                 (AGE (firstn b (st_levels st))) DROP). }
      apply seg_steps_one.
      rewrite <- (app_nil_r (AGE (firstn b (st_levels st)))).
      apply (ss_merge (AGE (skipn (S b) (st_levels st))) _ [] a0 NM E0).
    + rewrite (skipn_all2 (n := S b)) by lia. rewrite (skipn_all2 (n := b)) by lia.
      apply seg_steps_one. change (AGE []) with (@nil (shard R)). simpl.
      rewrite <- (app_nil_r (AGE (firstn b (st_levels st)))).
      apply (ss_merge [] _ [] a0 NM E0).
  - lia.
  - exists (lv_new 0 1). split; auto. apply (C3 0); [apply in_downto; lia|lia].
  - eexists. split; [apply (C4 0); [apply in_downto; lia|lia]|auto].
  - exists nl, a0. auto.
Qed.

(** ** Flushing the buffer into level 0 *)

(** A structure whose level 0 exists. *)
Definition ext0 (st : structure R) : structure R :=
  if length (st_levels st) =? 0
  then Struct (st_levels st ++ [lv_new 0 (shard_capacity C)])
              (st_state st ++ [LS 0 (level_cap C 0) 0 (shard_capacity C)])
  else st.

Lemma ext0_ok : forall st, shape st -> shape (ext0 st) /\ age (ext0 st) = age st /\
  st_levels (ext0 st) <> [].
Proof.
  intros st SH. unfold ext0. destruct (st_levels st) eqn:E; simpl.
  - split; [|split].
    + pose proof (shape_snoc st (lv_new 0 (shard_capacity C))
                    (LS 0 (level_cap C 0) 0 (shard_capacity C)) SH) as K.
      rewrite E in K. simpl in K. apply K. apply lsok_new.
    + unfold age. rewrite E. auto.
    + discriminate.
  - split; [auto|]. split; [auto|]. rewrite E. discriminate.
Qed.

Lemma flush_ext0 : forall st d v, shape st ->
  flush_buffer BD C st d v =
  if can_reconstruct_with C 0 (v_count v) (st_state (ext0 st))
  then flush_into_l0 BD C (ext0 st) d v else Fail FAssert.
Proof.
  intros st d v SH. unfold flush_buffer, ext0, grow. destruct st as [ls state].
  destruct SH as [HL HS]. simpl in *.
  destruct ls; destruct state; try discriminate; auto.
Qed.

Lemma flush_ok : forall st d v st',
  shape st -> vok d v ->
  (c_layout C = BSM -> forall l, nth_error (st_levels st) 0 = Some l -> lv_shards l = []) ->
  flush_buffer BD C st d v = Ok st' ->
  shape st' /\ l0cap st' /\ st_levels st' <> [] /\
  length (st_levels st') = Nat.max 1 (length (st_levels st)) /\
  exists s, from_view BD d v = Ok s /\ seg_steps (age st ++ [s]) (age st').
Proof.
  intros st d v st' SH VO BS H. rewrite flush_ext0 in H by auto.
  destruct (ext0_ok st SH) as (SE & AE & NE).
  assert (LE : length (st_levels (ext0 st)) = Nat.max 1 (length (st_levels st))).
  { unfold ext0. destruct (st_levels st) eqn:E; simpl; auto. rewrite E. simpl. lia. }
  assert (BE : c_layout C = BSM -> forall l, nth_error (st_levels (ext0 st)) 0 = Some l -> lv_shards l = []).
  { intros Q l Hl. unfold ext0 in Hl. destruct (st_levels st) eqn:E.
    - simpl in Hl. inv Hl. auto.
    - rewrite <- E in *. simpl in Hl. rewrite E in Hl. simpl in Hl. apply BS; auto. }
  revert H. rewrite <- AE, <- LE. generalize dependent (ext0 st). intros e SE AE NE LE BE H.
  clear BS SH AE LE st.
  destruct (can_reconstruct_with C 0 (v_count v) (st_state e)) eqn:CR; [|discriminate].
  unfold flush_into_l0 in H.
  destruct e as [levels state]. simpl in *.
  destruct levels as [|l0 levels]; [congruence|].
  destruct state as [|s0 state]; [destruct SE; discriminate|].
  simpl in H. change (nth_res 0 (l0 :: levels)) with (Ok l0) in H. simpl in H.
  mon H. change (nth_res 0 (s0 :: state)) with (Ok s0) in H. simpl in H.
  rename a into l0'. inv H. change (set_nth 0 l0' (l0 :: levels)) with (l0' :: levels).
  pose proof (proj2 SE 0 l0 s0 eq_refl eq_refl) as L0.
  pose proof L0 as (O1 & O2 & O3 & O4).
  assert (G : lsok 0 l0' (LS (lv_reccnt l0') (ls_reccap s0) (lv_count l0') (ls_cap s0)) /\
    (c_layout C = LEVELING -> lv_reccnt l0' <= level_cap C 0) /\
    exists s, from_view BD d v = Ok s /\ seg_steps (lv_shards l0 ++ [s]) (lv_shards l0')).
  { unfold can_reconstruct_with in CR. simpl in CR. unfold lsok.
    destruct (c_layout C) eqn:LY.
    - mon E. unfold lv_append_buffer, lv_count, lv_new in E0. simpl in E0. mon E0. inv E0.
      destruct O4 as (P1 & P2 & P3 & P4 & P5). apply Nat.leb_le in CR.
      pose proof (proj2 (view_ok _ _ _ VO E1)) as SB.
      destruct (Nat.ltb_spec 0 (lv_count l0)).
      + unfold lv_reconstruct2 in E. destruct (negb _) in E; [discriminate|]. simpl in E.
        destruct (lv_shards l0) as [|b bs] eqn:EB; [discriminate|].
        unfold lv_count in P4. rewrite EB in P4. destruct bs; [|simpl in P4; lia].
        mon E. inv E. simpl. unfold lv_reccnt, lv_count. simpl.
        pose proof (shards_bound _ _ E0) as SB2. unfold sum_list in SB2. simpl in SB2.
        unfold lv_reccnt in O1. rewrite EB in O1. unfold sum_list in O1. simpl in O1.
        repeat split; auto; try lia.
        { intros _. apply P5. discriminate. }
        exists a0. split; auto. apply seg_steps_one. apply (ss_merge [] [b; a0] [] a ltac:(discriminate) E0).
      + inv E. simpl. unfold lv_reccnt, lv_count, sum_list in *. simpl.
        repeat split; auto; try lia.
        destruct (lv_shards l0); [|simpl in H; lia]. exists a0. split; auto. constructor.
    - apply Nat.ltb_lt in CR. unfold lv_append_buffer in E.
      destruct O4 as (P1 & P2 & P3 & P4).
      destruct (Nat.eqb_spec (lv_count l0) (lv_cap l0)); [lia|]. mon E. inv E.
      simpl. unfold lv_reccnt, lv_count in *. simpl. rewrite app_length. simpl.
      repeat split; auto; try lia; try congruence.
      exists a. split; auto. constructor.
    - unfold lv_append_buffer in E. destruct O4 as (P1 & P2).
      pose proof (BE eq_refl l0 eq_refl) as Z. unfold lv_count in *. rewrite Z in *. simpl in *.
      destruct (lv_cap l0) eqn:CAP; [lia|]. mon E. inv E. simpl.
      unfold lv_reccnt, lv_count in *. simpl. 
      repeat split; auto; try lia; try congruence.
      exists a. split; auto. constructor. }
  destruct G as (G1 & G2 & s & G3 & G4).
  split; [|split; [|split; [|split]]].
  - apply (shape_set _ 0 l0' _ SE G1).
  - intros Q s' Hs. simpl in Hs. inv Hs. simpl. auto.
  - discriminate.
  - auto.
  - exists s. split; auto. unfold age. simpl. rewrite !AGE_cons, <- !app_assoc.
    assert (GG : forall x a b, seg_steps a b -> seg_steps (x ++ a) (x ++ b)).
    { clear. intros. induction H; [constructor|]. econstructor; [|eauto].
      inv H; rewrite !(app_assoc x a0); [apply ss_merge | apply ss_drop]; auto. }
    apply GG. auto.
Qed.

(** ** A whole reconstruction job *)

Definition nonempty (s : shard R) : Prop := s_data s <> [].

Lemma nth0_age : forall st l, nth_error (st_levels st) 0 = Some l ->
  exists a, age st = a ++ lv_shards l.
Proof.
  intros. unfold age. destruct (st_levels st); [discriminate|]. inv H. rewrite AGE_cons. eauto.
Qed.

Lemma lv_in_age : forall st i l s, nth_error (st_levels st) i = Some l -> In s (lv_shards l) ->
  In s (age st).
Proof.
  intros. unfold age, AGE. apply in_concat. exists (lv_shards l). split; auto.
  apply in_map. rewrite <- in_rev. eapply nth_error_In; eauto.
Qed.

Lemma zero_reccnt_empty : forall l : level R, Forall ok (lv_shards l) ->
  lv_reccnt l = 0 -> Forall (fun s => s_data s = []) (lv_shards l).
Proof.
  intros. unfold lv_reccnt in H0. induction H; constructor.
  - unfold sum_list in H0. simpl in H0. apply ok_count in H. destruct (s_data x); auto.
    simpl in H. lia.
  - apply IHForall. unfold sum_list in *. simpl in H0. lia.
Qed.

Lemma target_room : forall st b, shape st -> target st b -> room st b.
Proof.
  intros st b SH (s0 & E & T1 & T2 & T3). split; [lia|]. intros TI l Hl.
  destruct (shape_level _ _ _ SH Hl) as (s & Es & OK).
  specialize (T2 (nth_some_lt _ _ _ Hl)). unfold can_reconstruct_with in T2.
  rewrite Es, TI in T2. apply Nat.ltb_lt in T2. unfold lsok in OK. rewrite TI in OK. lia.
Qed.

Lemma bsm_src : forall st b n, shape st -> c_layout C = BSM -> target st b ->
  can_reconstruct_with C 0 n (st_state st) = false -> AGE (firstn b (st_levels st)) <> [].
Proof.
  intros st b n SH LY (s0 & E & T & _) D.
  unfold can_reconstruct_with in D. rewrite E, LY in D. apply Nat.eqb_neq in D.
  destruct (shape_state _ _ _ SH E) as (l & El & (O1 & _)).
  destruct (st_levels st) as [|l' ls]; [discriminate|]. simpl in El. inv El.
  destruct b; [lia|]. simpl. rewrite AGE_cons. intro Q. apply app_eq_nil in Q as [_ Q].
  rewrite O1 in D. unfold lv_reccnt in D. rewrite Q in D. apply D. auto.
Qed.

Theorem recon_ok : forall st d v st',
  shape st -> vok d v -> Forall ok (age st) ->
  (c_layout C = BSM -> Forall nonempty (age st)) ->
  reconstruct_struct BD C st d v = Ok st' ->
  shape st' /\ l0cap st' /\ st_levels st' <> [] /\
  exists s, from_view BD d v = Ok s /\ seg_steps (age st ++ [s]) (age st').
Proof.
  intros st d v st' SH VO OK NE H. unfold reconstruct_struct in H.
  mon H. destruct a as [x ts]. mon H. rename a into st1.
  apply get_tasks_spec in E as [(-> & D)|(D & b & T & ET)]; auto.
  - assert (st1 = st) by (unfold exec_tasks in E0; simpl in E0; destruct (c_layout C); inv E0; auto).
    subst st1.
    apply flush_ok in H as (H1 & H2 & H3 & _ & H4); auto.
    intros LY l Hl. destruct D as [D|D]; [|rewrite D in Hl; discriminate].
    destruct (shape_level _ _ _ SH Hl) as (s & Es & Ok).
    unfold can_reconstruct_with in D. rewrite Es, LY in D. apply Nat.eqb_eq in D.
    destruct Ok as (O1 & _). rewrite D in O1.
    assert (F : Forall (fun s => s_data s = []) (lv_shards l)).
    { apply zero_reccnt_empty; auto. apply Forall_forall. intros y Hy.
      rewrite Forall_forall in OK. apply OK. eapply lv_in_age; eauto. }
    destruct (lv_shards l) as [|y ys] eqn:EL; auto. exfalso.
    inv F. specialize (NE LY). rewrite Forall_forall in NE. apply (NE y); auto.
    eapply lv_in_age; eauto. rewrite EL. simpl. auto.
  - destruct (c_layout C) eqn:LY.
    + destruct ET as [ET EF]. unfold exec_tasks in E0. rewrite LY in E0.
      pose proof T as (s0 & _ & T1 & _).
      apply (exec_pairs_ok b) in E0 as (S1 & G1 & _); auto; try congruence; try lia.
      2:{ apply target_room; auto. }
      apply flush_ok in H as (H1 & H2 & H3 & _ & s & H4 & H5); auto; try congruence.
      split; [exact H1|]. split; [exact H2|]. split; [exact H3|]. exists s. split; auto.
      eapply seg_steps_trans; [|exact H5]. apply seg_steps_app. auto.
    + destruct ET as [ET EF]. unfold exec_tasks in E0. rewrite LY in E0.
      pose proof T as (s0 & _ & T1 & _).
      apply (exec_pairs_ok b) in E0 as (S1 & G1 & _); auto; try congruence; try lia.
      2:{ apply target_room; auto. }
      apply flush_ok in H as (H1 & H2 & H3 & _ & s & H4 & H5); auto; try congruence.
      split; [exact H1|]. split; [exact H2|]. split; [exact H3|]. exists s. split; auto.
      eapply seg_steps_trans; [|exact H5]. apply seg_steps_app. auto.
    + destruct ET as [c ->]. unfold exec_tasks in E0. rewrite LY in E0.
      apply reconstruct_bsm_ok in E0 as (S1 & G1 & _ & (l & N1 & Z1) & _); auto;
        [|eapply bsm_src; eauto].
      apply flush_ok in H as (H1 & H2 & H3 & _ & s & H4 & H5); auto.
      2:{ intros _ l' Hl'. rewrite N1 in Hl'. inv Hl'. auto. }
      split; [exact H1|]. split; [exact H2|]. split; [exact H3|]. exists s. split; auto.
      eapply seg_steps_trans; [|exact H5]. apply seg_steps_app. auto.
Qed.

End SP.

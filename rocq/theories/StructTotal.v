(** Reconstructions of well-formed structures do not fault. *)
From Coq Require Import List Arith ZArith NArith Lia Bool Permutation Sorted.
From Verif Require Import Base ListLemmas RecordModel RecordProofs BufferModel BufferProofs
  MergeModel MergeProofs StructModel ExtModel StructProofs.
Import ListNotations.

Section ST.
Context {R : Type}.
Variable BD : builders R.
Variable C : cfg.
Context {ok : shard R -> Prop} {SL : ShardLaws BD ok}.
Hypothesis SF : 1 <= c_sf C.

Local Arguments set_nth : simpl never.

Definition good (s : shard R) : Prop := ok s /\ s_data s <> [].

Lemma good_total : forall ss, Forall good ss -> exists s, from_shards BD ss = Ok s.
Proof.
  intros. apply (shards_total (B := BD)); auto; eapply Forall_impl; try exact H; intros a [? ?]; auto.
Qed.

Lemma age_good : forall st i l, Forall good (age st) -> nth_error (st_levels st) i = Some l ->
  Forall good (lv_shards l).
Proof.
  intros. apply Forall_forall. intros. rewrite Forall_forall in H. apply H. eapply lv_in_age; eauto.
Qed.

Lemma get_tasks_nil : forall n, exists x, get_tasks C (@st_empty R) n = Ok (x, []).
Proof.
  intros. unfold get_tasks, st_empty, tasks_from_level, find_target, can_reconstruct_with, grow. simpl.
  destruct (c_layout C); simpl; eauto.
Qed.

(** Conditions under which the pairwise reconstruction into level [b] succeeds. *)
Definition src_ok (st : structure R) (b : nat) : Prop :=
  forall j l, j < b -> nth_error (st_levels st) j = Some l -> Forall good (lv_shards l).
Definition lev_ok (st : structure R) (b : nat) : Prop :=
  c_layout C = LEVELING -> forall lb, nth_error (st_levels st) b = Some lb -> lv_shards lb <> [] ->
    Forall good (lv_shards lb) /\
    forall i li, b = S i -> nth_error (st_levels st) i = Some li -> lv_shards li <> [].

Lemma pair_level_total : forall lb li,
  c_layout C <> BSM ->
  lv_pending lb = None ->
  (c_layout C = LEVELING -> lv_shards lb <> [] -> lv_no lb = 0) ->
  (c_layout C = LEVELING -> lv_shards li <> [] -> lv_no li = 0) ->
  (c_layout C = TIERING -> lv_count lb < lv_cap lb) ->
  (c_layout C = LEVELING -> lv_shards lb <> [] -> Forall good (lv_shards lb) /\ lv_shards li <> []) ->
  Forall good (lv_shards li) ->
  exists lb',
  match c_layout C with
    | LEVELING => if 0 <? lv_count lb then lv_reconstruct2 BD lb li else Ok li
    | _ => do l1 <- lv_append_level BD lb li; lv_finalize l1
    end = Ok lb'.
Proof.
  intros lb li NB PB NB0 NI0 TI LE GI. destruct (c_layout C) eqn:LY; [| |congruence].
  - destruct (Nat.ltb_spec 0 (lv_count lb)); [|eauto].
    unfold lv_count in H. unfold lv_reconstruct2.
    destruct (lv_shards lb) as [|b bs] eqn:EB; [simpl in H; lia|].
    destruct (LE eq_refl) as [GB NI]; [discriminate|].
    destruct (lv_shards li) as [|n ns] eqn:EI; [congruence|].
    rewrite NB0, NI0 by (auto; discriminate). simpl.
    inv GB. inv GI.
    destruct (good_total [b; n]) as [s ->]; [repeat constructor; auto; apply H2 || apply H4|]. simpl. eauto.
  - unfold lv_append_level. destruct (Nat.eqb_spec (lv_count li) 0).
    + simpl. unfold lv_finalize. rewrite PB. eauto.
    + destruct (good_total _ GI) as [s ->]. simpl.
      destruct (Nat.eqb_spec (lv_count lb) (lv_cap lb)); [specialize (TI eq_refl); lia|].
      simpl. unfold lv_finalize. simpl. rewrite PB. eauto.
Qed.

Lemma reconstruct_pair_total : forall st i,
  shape C st -> c_layout C <> BSM -> i < length (st_levels st) -> room C st (S i) ->
  src_ok st (S i) -> lev_ok st (S i) ->
  exists st', reconstruct_pair BD C st (S i) i = Ok st'.
Proof.
  intros st i SH NB HI [RM1 RM2] SO LO. unfold reconstruct_pair.
  destruct (nth_error (st_levels st) i) as [li|] eqn:EI; [|apply nth_error_None in EI; lia].
  destruct (shape_level C _ _ _ SH EI) as (si & ESI & OKI).
  assert (GI : Forall good (lv_shards li)) by (eapply SO; eauto; lia).
  destruct (Nat.leb_spec (length (st_levels st)) (S i)).
  - assert (E : length (st_levels st) = S i) by lia.
    unfold nth_res. rewrite nth_error_app2 by lia. rewrite E, Nat.sub_diag. simpl.
    rewrite nth_error_app1 by lia. rewrite EI. simpl.
    destruct (pair_level_total (lv_new (S i) (shard_capacity C)) li) as [lb' EB]; auto.
    + simpl. congruence.
    + intro Q. unfold lsok in OKI. rewrite Q in OKI. tauto.
    + intro Q. unfold lv_count, shard_capacity. rewrite Q. simpl. lia.
    + simpl. congruence.
    + setoid_rewrite EB. simpl. eauto.
  - destruct (nth_error (st_levels st) (S i)) as [lb|] eqn:EB; [|apply nth_error_None in EB; lia].
    destruct (shape_level C _ _ _ SH EB) as (sb & ESB & OKB).
    unfold nth_res. rewrite EB, EI. simpl.
    destruct (pair_level_total lb li) as [lb' EL]; auto.
    + apply OKB.
    + intro Q. unfold lsok in OKB. rewrite Q in OKB. tauto.
    + intro Q. unfold lsok in OKI. rewrite Q in OKI. tauto.
    + intro Q. unfold lsok in OKB. rewrite Q in OKB. destruct OKB as (_ & _ & _ & -> & _). auto.
    + intros Q NE. destruct (LO Q _ EB NE) as [G1 G2]. split; auto. eauto.
    + setoid_rewrite EL. simpl. eauto.
Qed.

Lemma exec_pairs_total : forall b ts st,
  map pair_of ts = down b -> Forall (fun t => length (t_sources t) = 1) ts ->
  shape C st -> c_layout C <> BSM -> b <= length (st_levels st) -> room C st b ->
  src_ok st b -> lev_ok st b ->
  exists st', exec_pairs BD C ts st = Ok st'.
Proof.
  induction b; intros ts st ET EF SH NB LB RM SO LO.
  - destruct ts; [|discriminate]. simpl. eauto.
  - destruct ts as [|t ts]; [discriminate|]. simpl in ET.
    injection ET as ET1 ET2 ET3. inv EF.
    destruct t as [srcs tg rc]. simpl in *. subst.
    destruct srcs as [|b' [|]]; simpl in *; try discriminate.
    destruct (reconstruct_pair_total st b') as [st1 E]; auto; try lia.
    rewrite E. simpl.
    apply reconstruct_pair_ok in E as (S1 & G1 & L1 & (l1 & N1 & Z1) & K1 & T1); auto; try lia.
    apply IHb; auto; try lia.
    + split; [lia|]. intros T l Hl. rewrite N1 in Hl. inv Hl. unfold lv_count. rewrite Z1. simpl. lia.
    + intros j l Hj Hl. rewrite (proj1 (K1 j Hj)) in Hl. apply (SO j); auto.
    + intros Q lb Hlb NE. rewrite N1 in Hlb. inv Hlb. congruence.
Qed.

Lemma map_res_downto_total : forall {A} (ls : list A) b, b <= length ls ->
  exists ls', map_res (fun i => nth_res i ls) (downto b) = Ok ls'.
Proof.
  induction b; simpl; intros; eauto.
  unfold nth_res at 1. destruct (nth_error ls b) eqn:E; [|apply nth_error_None in E; lia].
  simpl. destruct IHb as [x ->]; [lia|]. simpl. eauto.
Qed.

Lemma reconstruct_bsm_total : forall st b c, b <= length (st_levels st) -> Forall good (age st) ->
  exists st', reconstruct_bsm BD C st (Task (downto b) b c) = Ok st'.
Proof.
  intros st b c L G. unfold reconstruct_bsm. simpl.
  destruct (map_res_downto_total (st_levels st) b L) as [ls E]. rewrite E. simpl.
  apply (map_res_downto C SF) in E; auto. subst. unfold lv_reconstruct_many.
  change (concat (map lv_shards (rev (firstn b (st_levels st))))) with (AGE (firstn b (st_levels st))).
  destruct (good_total (AGE (firstn b (st_levels st)))) as [s ->].
  - apply Forall_forall. intros x Hx. rewrite Forall_forall in G. apply G. unfold age.
    rewrite <- (firstn_skipn b (st_levels st)), AGE_app. apply in_app_iff. auto.
  - simpl. destruct (if length (st_levels st) <=? b then _ else _) as [levels state].
    destruct (clear_sources C (downto b) b levels state). eauto.
Qed.

Lemma flush_total : forall st d v s,
  shape C st -> Forall good (age st) -> vok d v ->
  (c_layout C = BSM -> forall l, nth_error (st_levels st) 0 = Some l -> lv_shards l = []) ->
  from_view BD d v = Ok s ->
  (c_layout C = LEVELING -> s_data s <> []) ->
  can_reconstruct_with C 0 (v_count v) (st_state (ext0 C st)) = true ->
  exists st', flush_buffer BD C st d v = Ok st'.
Proof.
  intros st d v s SH G VO BS ES NE CR. rewrite flush_ext0 by auto. rewrite CR.
  destruct (ext0_ok C SF st SH) as (SE & AE & NE0).
  assert (BE : c_layout C = BSM -> forall l, nth_error (st_levels (ext0 C st)) 0 = Some l -> lv_shards l = []).
  { intros Q l Hl. unfold ext0 in Hl. destruct (st_levels st) eqn:E.
    - simpl in Hl. inv Hl. auto.
    - rewrite <- E in *. simpl in Hl. rewrite E in Hl. simpl in Hl. apply BS; auto. }
  rewrite <- AE in G. revert CR SE G NE0 BE. clear AE BS SH. generalize (ext0 C st). clear st.
  intros [levels state] CR SE G NE0 BE. simpl in *.
  unfold flush_into_l0. simpl.
  destruct levels as [|l0 levels]; [congruence|].
  destruct state as [|s0 state]; [destruct SE; discriminate|]. simpl.
  change (nth_res 0 (l0 :: levels)) with (Ok l0). simpl.
  change (nth_res 0 (s0 :: state)) with (Ok s0).
  pose proof (proj2 SE 0 l0 s0 eq_refl eq_refl) as (O1 & O2 & O3 & O4).
  unfold can_reconstruct_with in CR. simpl in CR.
  assert (G0 : Forall good (lv_shards l0)) by (apply (age_good _ 0 l0 G eq_refl)).
  assert (GS : c_layout C = LEVELING -> good s).
  { intros. split; auto. exact (proj1 (view_ok _ _ _ VO ES)). }
  destruct (c_layout C) eqn:LY.
  - unfold lv_append_buffer at 1, lv_count at 1. simpl. rewrite ES. simpl.
    destruct (Nat.ltb_spec 0 (lv_count l0)); [|simpl; eauto].
    unfold lv_reconstruct2. simpl. unfold lv_count in H.
    destruct (lv_shards l0) as [|b bs] eqn:EB; [simpl in H; lia|].
    destruct O4 as (_ & _ & _ & _ & NO). rewrite NO by discriminate. simpl.
    inv G0. destruct (good_total [b; s]) as [s' ->]; [repeat constructor; auto; apply H2 || apply GS; auto|].
    simpl. eauto.
  - unfold lv_append_buffer. apply Nat.ltb_lt in CR. destruct O4 as (P1 & P2 & P3 & P4).
    destruct (Nat.eqb_spec (lv_count l0) (lv_cap l0)); [lia|]. rewrite ES. simpl. eauto.
  - unfold lv_append_buffer, lv_count. rewrite (BE eq_refl l0 eq_refl). simpl.
    destruct O4 as [P1 P2]. destruct (lv_cap l0); [lia|]. rewrite ES. simpl. eauto.
Qed.

Theorem recon_total : forall st d v s,
  shape C st -> l0cap C st -> Forall good (age st) -> vok d v -> v_count v <= c_hwm C ->
  1 <= c_hwm C ->
  from_view BD d v = Ok s -> (c_layout C = LEVELING -> s_data s <> []) ->
  exists st', reconstruct_struct BD C st d v = Ok st'.
Proof.
  intros st d v s SH LC G VO VC HW ES NE. unfold reconstruct_struct.
  assert (NEA : Forall nonempty (age st)) by (eapply Forall_impl; [|exact G]; intros a [? ?]; auto).
  assert (OKA : Forall ok (age st)) by (eapply Forall_impl; [|exact G]; intros a [? ?]; auto).
  assert (PW : 1 <= c_sf C ^ 1) by (simpl; lia).
  destruct (st_levels st) as [|l0 lrest] eqn:ELV.
  { destruct st as [lv sv]. simpl in ELV. subst lv. destruct sv; [|destruct SH; discriminate].
    destruct (get_tasks_nil (c_hwm C)) as [x Ex]. unfold st_empty in Ex. rewrite Ex. simpl.
    assert (exec_tasks BD C [] (@Struct R [] []) = Ok (Struct [] [])) as ->
      by (unfold exec_tasks; destruct (c_layout C); auto).
    simpl. eapply flush_total; eauto.
    - simpl. discriminate.
    - unfold ext0. simpl. unfold can_reconstruct_with, level_cap, shard_capacity. simpl.
      destruct (c_layout C); [apply Nat.leb_le; nia|apply Nat.ltb_lt; lia|auto]. }
  destruct (get_tasks_total C SF st (c_hwm C) SH) as [[x ts] ET]; [rewrite ELV; discriminate|].
  rewrite ET. simpl.
  assert (X0 : forall st' : structure R, st_levels st' <> [] -> ext0 C st' = st').
  { intros. unfold ext0. destruct (st_levels st'); [congruence|auto]. }
  apply get_tasks_spec in ET as [(-> & D)|(D & b & T & ET)]; auto.
  - destruct D as [D|D]; [|congruence].
    assert (exec_tasks BD C [] st = Ok st) as -> by (unfold exec_tasks; destruct (c_layout C); auto).
    simpl. eapply flush_total; eauto.
    + intros LY l Hl. destruct (shape_level C _ _ _ SH Hl) as (s' & Es & Ok).
      unfold can_reconstruct_with in D. rewrite Es, LY in D. apply Nat.eqb_eq in D.
      destruct Ok as (O1 & _). rewrite D in O1.
      pose proof (age_good _ _ _ G Hl) as GL.
      assert (F : Forall (fun s => s_data s = []) (lv_shards l)).
      { apply (zero_reccnt_empty BD C SF); auto. eapply Forall_impl; [|exact GL]. intros a [? ?]; auto. }
      destruct (lv_shards l) as [|y ys]; auto. inv F. inv GL. destruct H3. congruence.
    + rewrite X0 by (rewrite ELV; discriminate).
      revert D. unfold can_reconstruct_with. destruct (nth_error (st_state st) 0); auto.
      destruct (c_layout C); auto. rewrite !Nat.leb_le. lia.
  - pose proof T as (s0 & ES0 & TB & TC & TL).
    destruct (shape_state C _ _ _ SH ES0) as (l0' & EL0 & OK0).
    assert (CASE : c_layout C <> BSM -> map pair_of ts = down b ->
      Forall (fun t => length (t_sources t) = 1) ts ->
      exists st', (do st1 <- exec_pairs BD C ts st; flush_buffer BD C st1 d v) = Ok st').
    { intros NB E1 E2.
      assert (RM : room C st b) by (apply target_room; auto).
      assert (SO : src_ok st b) by (intros j l _ Hl; eapply age_good; eauto).
      assert (LO : lev_ok st b).
      { intros LY lb Hlb NEb. split; [eapply age_good; eauto|].
        intros i li -> Hli E.
        destruct (shape_level C _ _ _ SH Hli) as (si & ESI & OKI).
        assert (RZ : ls_rec si = 0).
        { destruct OKI as (O1 & _). rewrite O1. unfold lv_reccnt. rewrite E. auto. }
        unfold lsok in OKI. rewrite LY in OKI. destruct OKI as (_ & _ & _ & _ & _ & RC & _).
        specialize (LC LY s0 ES0).
        destruct i.
        - rewrite ES0 in ESI. inv ESI. unfold can_reconstruct_with in D. rewrite ES0, LY in D.
          apply Nat.leb_gt in D. rewrite RC, RZ in D. unfold level_cap in D. simpl in D. nia.
        - specialize (TL (S i) ltac:(lia)). unfold can_reconstruct_with in TL.
          rewrite ESI, LY in TL. apply Nat.leb_gt in TL. rewrite RC, RZ in TL.
          unfold level_cap in *.
          assert (c_sf C ^ (0 + 1) <= c_sf C ^ (S i + 1)) by (apply Nat.pow_le_mono_r; lia). nia. }
      destruct (exec_pairs_total b ts st) as [st1 E3]; auto; try lia.
      rewrite E3. simpl.
      apply (exec_pairs_ok BD C SF b) in E3 as (S1 & G1 & L1 & _ & Z1); auto; try lia.
      destruct Z1 as [(l1 & N1 & Y1) T1]; [lia|].
      assert (NE1 : st_levels st1 <> []) by (intro Q; rewrite Q in N1; discriminate).
      (* only level 0 matters for the flush *)
      rewrite flush_ext0 by auto. rewrite X0 by auto.
      unfold can_reconstruct_with at 1. rewrite T1.
      assert (CRT : match c_layout C with
              | LEVELING => 0 + v_count v <=? level_cap C 0
              | TIERING => 0 <? shard_capacity C
              | BSM => 0 =? 0 end = true).
      { unfold level_cap, shard_capacity. simpl.
        destruct (c_layout C); [apply Nat.leb_le; nia|apply Nat.ltb_lt; lia|auto]. }
      cbn [ls_rec ls_cnt ls_cap ls_reccap]. rewrite CRT.
      unfold flush_into_l0. destruct st1 as [lv sv]. simpl in *.
      destruct lv as [|z lv]; [congruence|]. destruct sv as [|y sv]; [discriminate|].
      simpl in N1, T1. inv N1. inv T1. simpl.
      change (nth_res 0 (l1 :: lv)) with (Ok l1). simpl.
      destruct (shape_level C _ 0 _ S1 eq_refl) as (q & Eq & OKq). simpl in Eq. inv Eq.
      destruct (c_layout C) eqn:LY; [| |congruence].
      - unfold lv_append_buffer, lv_count. simpl. rewrite ES. simpl. rewrite Y1. simpl. eauto.
      - unfold lv_append_buffer, lv_count. rewrite Y1. simpl.
        unfold lsok in OKq. rewrite LY in OKq.
        destruct OKq as (_ & _ & _ & CAP & _). rewrite CAP.
        destruct (c_sf C); [lia|]. rewrite ES. simpl. eauto. }
    unfold exec_tasks. destruct (c_layout C) eqn:LY.
    + destruct ET. apply CASE; auto. congruence.
    + destruct ET. apply CASE; auto. congruence.
    + destruct ET as [c ->].
      destruct (reconstruct_bsm_total st b c) as [st1 E1]; auto; try lia.
      rewrite E1. simpl.
      apply (reconstruct_bsm_ok BD C SF) in E1 as (S1 & G1 & L1 & (l1 & N1 & Y1) & (q & N2 & Y2) & _); auto;
        [|eapply bsm_src; eauto].
      assert (NE1 : st_levels st1 <> []) by (intro Q; rewrite Q in N1; discriminate).
      rewrite flush_ext0 by auto. rewrite X0 by auto.
      unfold can_reconstruct_with. rewrite N2, LY, Y2. simpl.
      unfold flush_into_l0. destruct st1 as [lv sv]. simpl in *.
      destruct lv as [|z lv]; [congruence|]. destruct sv as [|y sv]; [discriminate|].
      simpl in N1, N2. inv N1. inv N2. simpl. rewrite LY.
      change (nth_res 0 (l1 :: lv)) with (Ok l1). simpl.
      change (nth_res 0 (q :: sv)) with (Ok q).
      destruct (shape_level C _ 0 _ S1 eq_refl) as (q' & Eq & OKq). simpl in Eq. inv Eq.
      unfold lsok in OKq. rewrite LY in OKq. destruct OKq as (_ & _ & _ & _ & CAP).
      unfold lv_append_buffer, lv_count. rewrite Y1. simpl.
      destruct (lv_cap l1); [lia|]. rewrite ES. simpl. eauto.
Qed.

End ST.
Arguments good {R} ok s.

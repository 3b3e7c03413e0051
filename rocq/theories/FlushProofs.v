(** Successive reconstructions of any sizes. *)
From Coq Require Import List Arith ZArith NArith Lia Bool Permutation Sorted.
From Verif Require Import Base ListLemmas RecordModel RecordProofs BufferModel BufferProofs
  MergeModel MergeProofs StructModel ExtModel QueryModel StructProofs StructTotal SortedProofs ExtProofs ContentProofs
  Spec QueryProofs SerialProofs LevelProofs SizeProofs FlushModel FlushSpec.
Import ListNotations.

(** ** Views *)

Section Views.
Context {R : Type} {RO : RecOps R}.

Lemma shows_ok : forall (d : list (wrapped R)) v ws, shows (d, v) ws ->
  vok d v /\ v_count v = length ws /\ v_records d v = Ok ws.
Proof.
  intros d v ws (A & B & D & E).
  assert (VO : vok d v) by (unfold vok; lia).
  assert (VC : v_count v = length ws) by (unfold v_count; lia).
  split; auto. split; auto. rewrite (v_records_ok d v VO), VC. f_equal.
  apply nth_error_ext; [apply ring_length|].
  rewrite ring_length. intros i Hi. rewrite nth_error_ring by auto. rewrite (E i Hi).
  symmetry. apply nth_error_nth_some. apply Nat.mod_upper_bound. lia.
Qed.

Lemma lview_shows : forall ws : list (wrapped R), shows (ws ++ [wzero], lview ws) ws.
Proof.
  intros ws. unfold shows, lview. cbn. rewrite app_length. cbn. split; [lia|]. split; auto. split; [lia|].
  intros i Hi. rewrite Nat.mod_small by lia. rewrite nth_error_app1; auto.
Qed.
End Views.

(** ** The structure *)

Section Gen.
Context {R : Type} {RO : RecOps R}.
Variable BD : builders R.
Context {ok : shard R -> Prop} {SL : ShardLaws BD ok}.
Variable C : cfg.
Hypothesis V : valid_cfg C.

Local Lemma SF : 1 <= c_sf C. Proof. destruct V as (? & ? & ? & ?). auto. Qed.
Local Lemma HW : 1 <= c_hwm C. Proof. destruct V as (? & ? & ? & ?). lia. Qed.

(** The shards in age order after the flushes of [runs]. *)
Inductive fhist : list (list (wrapped R)) -> list (shard R) -> Prop :=
| fh_nil : fhist [] []
| fh_snoc : forall runs ss ws s ss', fhist runs ss -> built BD ws = Ok s -> seg_steps BD (ss ++ [s]) ss' ->
    fhist (runs ++ [ws]) ss'.

(** Sizes, as in SizeProofs but for flushes of up to [n] records. *)
Definition ginv (n k p : nat) (st : structure R) : Prop :=
  match c_layout C with
  | TIERING => tinv C n k st
  | LEVELING => linv C p st
  | BSM => (st_levels st = [] /\ k = 0) \/ binv n k st
  end.

Lemma bsm_first_n : forall n d v st', c_layout C = BSM -> vok d v -> v_count v <= n ->
  reconstruct_struct BD C (@st_empty R) d v = Ok st' -> binv n 1 st'.
Proof.
  intros n d v st' LY VO VN H. unfold reconstruct_struct, st_empty in H.
  mon H. destruct a as [x ts]. mon H. rename a into st1.
  apply (get_tasks_spec C) in E as [(-> & D)|(D & b & T & ET)]; auto.
  - assert (st1 = st_empty) by (unfold exec_tasks in E0; rewrite LY in E0; inv E0; auto). subst st1.
    eapply (binv_flush BD C SF st_empty d v st' n 0); eauto.
    + apply (s_shape (ok := ok) _ _ (empty_sinv C)).
    + intros i ss Hss. destruct i; discriminate.
    + intros ss Hss. discriminate.
  - destruct T as (s0 & E & _). discriminate.
  - exact SF.
  - apply (s_shape (ok := ok) _ _ (empty_sinv C)).
Qed.

Lemma ginv_empty : forall n, ginv n 0 0 st_empty.
Proof.
  intros n. unfold ginv. destruct (c_layout C).
  - constructor; simpl; auto; try lia. intros i ss Hss. destruct i; discriminate.
  - constructor; simpl; auto; intros i; try intros ss; try intros s Hss; try destruct i; discriminate.
  - left. auto.
Qed.

Lemma ginv_step : forall n k p st d v st', sinv C ok st -> (c_layout C = BSM -> Forall nonempty (age st)) ->
  vok d v -> v_count v <= n ->
  ginv n k p st -> reconstruct_struct BD C st d v = Ok st' -> ginv n (S k) (p + v_count v) st'.
Proof.
  intros n k p st d v st' [S1 S2 S3] NE VO VN Z H. unfold ginv in *. destruct (c_layout C) eqn:LY.
  - eapply (linv_step BD C SF); eauto.
  - eapply (tier_step BD C SF); eauto.
  - right. destruct Z as [(Z1 & ->)|Z].
    + destruct st as [ls state]. simpl in Z1. subst ls.
      assert (state = []) by (destruct S1 as [L _]; destruct state; [auto|discriminate]).
      subst state. eapply bsm_first_n; eauto.
    + eapply (binv_step BD C SF); eauto.
Qed.

(** One flush. *)
Lemma flush_step : forall st d v ws st', sinv C ok st -> (c_layout C = BSM -> Forall nonempty (age st)) ->
  shows (d, v) ws -> reconstruct_struct BD C (st_copy st) d v = Ok st' ->
  sinv C ok st' /\ exists s, built BD ws = Ok s /\ seg_steps BD (age st ++ [s]) (age st').
Proof.
  intros st d v ws st' [S1 S2 S3] NE SH H. destruct (shows_ok d v ws SH) as (VO & _ & VR).
  rewrite (st_copy_id C st S1) in H.
  apply (recon_ok BD C SF) in H as (T1 & T2 & _ & s & T3 & T4); auto.
  rewrite (view_built BD _ _ _ VO VR) in T3.
  split; [|exists s; auto]. constructor; auto. apply (seg_steps_ok BD _ _ T4).
  apply Forall_app. split; auto. constructor; auto. exact (proj1 (built_ok BD _ _ T3)).
Qed.

(** A property of the shards that every flush keeps. *)
Variable P : shard R -> Prop.
Hypothesis P_nonempty : forall s, P s -> nonempty s.
Variable Q : list (wrapped R) -> Prop.
Variable A : list (shard R) -> Prop.
Hypothesis A_nil : A [].
Hypothesis P_flush : forall ss ws s ss', A ss -> Forall ok ss -> Forall P ss -> Q ws -> built BD ws = Ok s ->
  seg_steps BD (ss ++ [s]) ss' -> P s /\ A ss' /\ Forall P ss'.
Hypothesis P_built : forall ws s, Q ws -> built BD ws = Ok s -> P s.

Lemma flush_all_inv : forall bs runs st runs0 k p, Forall2 shows bs runs -> Forall Q runs ->
  Forall (fun ws => length ws <= c_hwm C) runs ->
  sinv C ok st -> fhist runs0 (age st) -> A (age st) -> Forall P (age st) -> ginv (c_hwm C) k p st ->
  exists st', flush_all BD C st bs = Ok st' /\ sinv C ok st' /\ fhist (runs0 ++ runs) (age st') /\
    A (age st') /\ Forall P (age st') /\ ginv (c_hwm C) (k + length runs) (p + length (concat runs)) st'.
Proof.
  intros bs runs st runs0 k p F. revert st runs0 k p. induction F; intros st runs0 k p FQ FL S FH HA HP Z.
  - exists st. rewrite app_nil_r. cbn. rewrite !Nat.add_0_r. auto 10.
  - destruct x as [d v]. rename y into ws, l into bs, l' into runs. inv FQ. inv FL. cbn [flush_all].
    destruct (shows_ok d v ws H) as (VO & VC & VR).
    destruct (built_total BD ws) as [s Es].
    assert (G : Forall (good ok) (age st)).
    { pose proof (s_ok _ _ S) as O. rewrite Forall_forall in *. intros x Hx. split; auto. apply P_nonempty. auto. }
    assert (NE : Forall nonempty (age st)) by (eapply Forall_impl; [|exact HP]; apply P_nonempty).
    assert (EV : from_view BD d v = Ok s) by (rewrite (view_built BD _ _ _ VO VR); auto).
    destruct (recon_total BD C SF st d v s (s_shape _ _ S) (s_l0 _ _ S) G VO ltac:(lia) HW EV) as [st1 E1].
    { intros _. apply (P_nonempty s). eapply P_built; eauto. }
    rewrite (st_copy_id C st (s_shape _ _ S)), E1. cbn [bind].
    assert (E1' : reconstruct_struct BD C (st_copy st) d v = Ok st1) by (rewrite (st_copy_id C st (s_shape _ _ S)); auto).
    destruct (flush_step _ _ _ _ _ S (fun _ => NE) H E1') as (S1 & s' & Es' & G1).
    rewrite Es in Es'. inv Es'.
    destruct (P_flush _ _ _ _ HA (s_ok _ _ S) HP H2 Es G1) as (_ & A1 & P1).
    assert (VN : v_count v <= c_hwm C) by lia.
    assert (Z1 : ginv (c_hwm C) (Datatypes.S k) (p + v_count v) st1) by (exact (ginv_step _ _ _ _ _ _ _ S (fun _ => NE) VO VN Z E1)).
    destruct (IHF st1 (runs0 ++ [ws]) _ _ H3 H5 S1 ltac:(econstructor; eauto) A1 P1 Z1)
      as (st' & I1 & I2 & I3 & I4 & I5 & I6).
    exists st'. split; auto. split; auto. rewrite <- app_assoc in I3. split; auto. split; auto. split; auto.
    cbn [length concat]. rewrite app_length.
    replace (k + Datatypes.S (length runs)) with (Datatypes.S k + length runs) by lia.
    replace (p + (length ws + length (concat runs))) with (p + v_count v + length (concat runs)) by lia. auto.
Qed.

End Gen.

(** ** Sorted shards *)

Section Sorted.
Context {R : Type} {RO : RecOps R} {RL : RecLaws R}.
Variable qlt : qorder R.
Context {QO : QOrder qlt}.
Variable C : cfg.
Hypothesis V : valid_cfg C.

Lemma mostly_net : forall ws : list (wrapped R), mostly_plain ws -> (0 < net (map rt ws))%Z /\ Forall nodel ws.
Proof.
  intros ws [H D]. split; [|apply Forall_forall; auto].
  unfold net. rewrite !countb_map. unfold rt. cbn [snd].
  change (countb (fun x => is_ts x) ws) with (countb is_ts ws). lia.
Qed.

Lemma plain_mostly : forall ws : list (wrapped R), ws <> [] -> all_plain ws -> mostly_plain ws.
Proof.
  intros ws NE H. split; [|apply H].
  assert (E1 : countb is_ts ws = 0).
  { clear NE. induction ws as [|w ws IH]; simpl; auto. rewrite (proj1 (H w (or_introl eq_refl))). apply IH.
    intros x Hx. apply H. right. auto. }
  destruct ws as [|w ws]; [congruence|]. rewrite E1. simpl. rewrite (proj1 (H w (or_introl eq_refl))). simpl. lia.
Qed.

Definition fA (ss : list (shard R)) : Prop := Forall nodel (sdata ss).

Lemma built_pos : forall ws s, mostly_plain ws -> built qlt ws = Ok s -> pos_shard s /\ Forall nodel (s_data s) /\
  exists ps, cancel_of (map rt ws) (map rt (s_data s)) ps.
Proof.
  intros ws s M B. rewrite built_sorted in B. destruct (mostly_net ws M) as [M1 M2].
  destruct (shard_of_cancel _ _ B M2) as (N & ps & F). split; [|split; eauto].
  unfold pos_shard. rewrite <- (net_cancel _ _ _ F). auto.
Qed.

Lemma sdata1 : forall s : shard R, sdata [s] = s_data s.
Proof. intros. unfold sdata. simpl. apply app_nil_r. Qed.

Lemma flush_pos : forall ss ws s ss', fA ss -> Forall shard_ok ss -> Forall pos_shard ss -> mostly_plain ws ->
  built qlt ws = Ok s -> seg_steps qlt (ss ++ [s]) ss' -> pos_shard s /\ fA ss' /\ Forall pos_shard ss'.
Proof.
  intros ss ws s ss' A O P M B G. destruct (built_pos _ _ M B) as (PS & N & _). split; auto.
  assert (NA : Forall nodel (sdata (ss ++ [s]))).
  { rewrite sdata_app, sdata1. apply Forall_app. auto. }
  split; [exact (proj1 (seg_steps_cancel qlt _ _ G NA))|].
  eapply (seg_steps_pos qlt); eauto. apply Forall_app. auto.
Qed.

Lemma fhist_cancel : forall runs ss, fhist qlt runs ss -> Forall mostly_plain runs ->
  Forall nodel (sdata ss) /\ exists ps, cancel_of (map rt (concat runs)) (map rt (sdata ss)) ps.
Proof.
  induction 1; intros M.
  - split; [constructor|]. exists []. apply cancel_of_refl.
  - apply Forall_app in M as [M1 M2]. inv M2. destruct (IHfhist M1) as (N & ps & E).
    destruct (built_pos _ _ H4 H0) as (_ & N1 & qs & F).
    assert (NA : Forall nodel (sdata (ss ++ [s]))).
    { rewrite sdata_app, sdata1. apply Forall_app. auto. }
    destruct (seg_steps_cancel qlt _ _ H1 NA) as (N2 & us & G). split; auto.
    exists ((ps ++ qs) ++ us). eapply cancel_of_trans; [|exact G].
    rewrite concat_app. cbn [concat]. rewrite app_nil_r, sdata_app, sdata1, !map_app. apply cancel_of_app; auto.
Qed.

(** All flushes succeed, and what they leave. *)
Lemma flush_facts : forall bs runs, Forall2 shows bs runs -> Forall mostly_plain runs ->
  Forall (fun ws => length ws <= c_hwm C) runs ->
  exists st, flush_all qlt C st_empty bs = Ok st /\ sinv C shard_ok st /\ fhist qlt runs (age st) /\
    Forall pos_shard (age st) /\ ginv C (c_hwm C) (length runs) (length (concat runs)) st.
Proof.
  intros bs runs F M L.
  destruct (flush_all_inv qlt C V pos_shard pos_nonempty mostly_plain fA flush_pos
    (fun ws s Q B => proj1 (built_pos ws s Q B)) bs runs st_empty [] 0 0 F M L) as (st & E1 & E2 & E3 & _ & E5 & E6).
  - apply empty_sinv.
  - constructor.
  - constructor.
  - constructor.
  - apply ginv_empty.
  - exists st. auto.
Qed.

Lemma st_records_perm : forall st : structure R, Permutation (st_records st) (sdata (age st)).
Proof.
  intros. unfold st_records, st_runs.
  assert (E : concat (map (fun l : level R => map s_data (lv_shards l)) (st_levels st)) = map s_data (query_shards st)).
  { unfold query_shards. rewrite concat_map, map_map. auto. }
  rewrite E. unfold sdata. apply concat_perm. apply Permutation_map. apply query_shards_perm.
Qed.

Theorem flushes_succeed : forall bs runs, Forall2 shows bs runs -> Forall mostly_plain runs ->
  Forall (run_size (c_hwm C)) runs -> exists st, flush_all qlt C st_empty bs = Ok st.
Proof.
  intros bs runs F M L. destruct (flush_facts bs runs F M) as (st & E & _).
  - eapply Forall_impl; [|exact L]. intros a [_ ?]. auto.
  - eauto.
Qed.

Lemma flush_result : forall bs runs st, Forall2 shows bs runs -> Forall mostly_plain runs ->
  Forall (run_size (c_hwm C)) runs -> flush_all qlt C st_empty bs = Ok st ->
  sinv C shard_ok st /\ fhist qlt runs (age st) /\
    Forall pos_shard (age st) /\ ginv C (c_hwm C) (length runs) (length (concat runs)) st.
Proof.
  intros bs runs st F M L H. destruct (flush_facts bs runs F M) as (st' & E & G).
  - eapply Forall_impl; [|exact L]. intros a [_ ?]. auto.
  - rewrite H in E. inv E. auto.
Qed.

Theorem flushes_balance : forall bs runs st r, Forall2 shows bs runs -> Forall mostly_plain runs ->
  Forall (run_size (c_hwm C)) runs -> flush_all qlt C st_empty bs = Ok st ->
  n_plain r (st_records st) + n_tomb r (concat runs) = n_tomb r (st_records st) + n_plain r (concat runs) /\
  n_plain r (st_records st) <= n_plain r (concat runs).
Proof.
  intros bs runs st r F M L H. destruct (flush_result _ _ _ F M L H) as (S & FH & P & _).
  destruct (fhist_cancel _ _ FH M) as (N & ps & E).
  destruct (cancel_balance _ _ _ E r) as (k & K1 & K2).
  rewrite <- !n_plain_rt, <- !n_tomb_rt in *.
  assert (A : n_plain r (st_records st) = n_plain r (sdata (age st)) /\ n_tomb r (st_records st) = n_tomb r (sdata (age st))).
  { split; apply countb_perm; apply st_records_perm. }
  destruct A as [-> ->]. lia.
Qed.

Lemma plain_runs : forall runs : list (list (wrapped R)), Forall all_plain runs -> Forall (run_size (c_hwm C)) runs ->
  Forall mostly_plain runs.
Proof.
  intros runs P L. rewrite Forall_forall in *. intros ws W. apply plain_mostly; auto.
  destruct (L ws W) as [L1 _]. destruct ws; [simpl in L1; lia|discriminate].
Qed.

Lemma plain_contents : forall bs runs st, Forall2 shows bs runs -> Forall all_plain runs ->
  Forall (run_size (c_hwm C)) runs -> flush_all qlt C st_empty bs = Ok st ->
  Permutation (map rt (concat runs)) (map rt (sdata (age st))) /\ all_plain (sdata (age st)) /\
  Forall shard_ok (age st) /\ Forall nonempty (age st).
Proof.
  intros bs runs st F P L H. pose proof (plain_runs runs P L) as M.
  destruct (flush_result _ _ _ F M L H) as (S & FH & PP & _).
  destruct (fhist_cancel _ _ FH M) as (N & ps & E).
  assert (PL : forall x, In x (map rt (concat runs)) -> snd x = false).
  { intros x Hx. apply in_map_iff in Hx as (w & <- & Hw). apply in_concat in Hw as (ws & W1 & W2).
    rewrite Forall_forall in P. apply (P ws W1 w W2). }
  destruct (cancel_of_plain _ _ _ PL E) as (-> & Q). split; auto. split; [|split].
  - intros w Hw. rewrite Forall_forall in N. split; [|apply N; auto].
    apply (PL (rt w)). apply (Permutation_in _ (Permutation_sym Q)). apply in_map. auto.
  - apply S.
  - eapply Forall_impl; [|exact PP]. apply pos_nonempty.
Qed.

Lemma map_wrec_rt : forall l : list (wrapped R), map fst (map rt l) = map wrec l.
Proof. intros. rewrite map_map. auto. Qed.

Theorem flushes_contents : forall bs runs st, Forall2 shows bs runs -> Forall all_plain runs ->
  Forall (run_size (c_hwm C)) runs -> flush_all qlt C st_empty bs = Ok st ->
  Permutation (map wrec (st_records st)) (map wrec (concat runs)) /\ all_plain (st_records st).
Proof.
  intros bs runs st F P L H. destruct (plain_contents _ _ _ F P L H) as (Q & A & _). split.
  - rewrite <- !map_wrec_rt. apply Permutation_map. symmetry. rewrite Q. apply Permutation_map.
    symmetry. apply st_records_perm.
  - intros w Hw. apply A. apply (Permutation_in _ (st_records_perm st)). auto.
Qed.

(** ** Sizes *)

Lemma st_runs_lvs : forall st i ls, sinv C shard_ok st -> nth_error (st_runs st) i = Some ls ->
  exists ss, nth_error (lvs st) i = Some ss /\ ls = map s_data ss /\ length (concat ls) = recs ss.
Proof.
  intros st i ls S N. unfold st_runs in N.
  rewrite <- (map_map lv_shards (map s_data)) in N. rewrite nth_error_map in N. fold (lvs st) in N.
  destruct (nth_error (lvs st) i) as [ss|] eqn:E; inv N. exists ss. split; auto. split; auto.
  apply recs_length. eapply lvs_ok; eauto.
Qed.

Theorem flushes_sizes : forall bs runs st i ls, Forall2 shows bs runs -> Forall mostly_plain runs ->
  Forall (run_size (c_hwm C)) runs -> flush_all qlt C st_empty bs = Ok st ->
  nth_error (st_runs st) i = Some ls ->
  length ls <= max_shards C /\
  match c_layout C with
  | LEVELING => (i <= 1 -> length (concat ls) <= c_hwm C * c_sf C ^ (i + 1)) /\
                (2 <= c_sf C -> length (concat ls) <= 2 * (c_hwm C * c_sf C ^ (i + 1)))
  | _ => length (concat ls) <= c_hwm C * c_sf C ^ (i + 1)
  end.
Proof.
  intros bs runs st i ls F M L H N. destruct (flush_result _ _ _ F M L H) as (S & _ & _ & Z).
  destruct (st_runs_lvs _ _ _ S N) as (ss & N1 & EL & ->). rewrite EL, map_length. clear EL.
  pose proof (SF C V) as SF. unfold ginv in Z. unfold max_shards. destruct (c_layout C) eqn:LY.
  - pose proof (li_bound _ _ _ Z _ _ N1) as BD. split; [|split].
    + apply lvs_nth_inv in N1 as (l & N1 & <-).
      destruct (shape_level C _ _ _ (s_shape _ _ S) N1) as (s & Es & OK).
      unfold lsok in OK. rewrite LY in OK. unfold lv_count in OK. tauto.
    + intros I. fold (level_cap C i). destruct i as [|[|]]; [auto|auto|lia].
    + intros S2. fold (level_cap C i). pose proof (lbound_twice C SF S2 i). lia.
  - pose proof N1 as N2. apply lvs_nth_inv in N2 as (l & N2 & EL).
    destruct (shape_level C _ _ _ (s_shape _ _ S) N2) as (s & Es & OK).
    unfold lsok in OK. rewrite LY in OK. unfold lv_count in OK. rewrite EL in OK.
    assert (CN : length ss <= c_sf C) by tauto. split; [auto|].
    eapply Nat.le_trans; [apply (recs_small C SF (c_hwm C) ss i)|].
    + intros x Hx. apply (ti_small _ _ _ _ Z i ss); auto.
    + replace (i + 1) with (Datatypes.S i) by lia. cbn [Nat.pow].
      rewrite (Nat.mul_comm (c_sf C)). rewrite Nat.mul_comm, Nat.mul_assoc.
      apply Nat.mul_le_mono_l. auto.
  - destruct V as (_ & _ & _ & B2). rewrite (B2 LY).
    destruct Z as [(Z & _)|Z].
    { unfold lvs in N1. rewrite Z in N1. destruct i; discriminate. }
    destruct (bi_small _ _ _ Z _ _ N1) as [->|(s & -> & BD)].
    + split; [simpl; lia|apply Nat.le_0_l].
    + split; [simpl; lia|]. unfold recs, sum_list. simpl. rewrite Nat.add_0_r.
      eapply Nat.le_trans; [exact BD|]. apply Nat.mul_le_mono_l.
      destruct i; simpl; [lia|]. replace (i + 1) with (Datatypes.S i) by lia. cbn [Nat.pow]. lia.
Qed.

Theorem flushes_height : forall bs runs st, Forall2 shows bs runs -> Forall mostly_plain runs ->
  Forall (run_size (c_hwm C)) runs -> flush_all qlt C st_empty bs = Ok st ->
  let h := length (st_runs st) in
  match c_layout C with
  | TIERING => 1 <= h -> c_sf C ^ (h - 1) <= length runs
  | BSM => 2 <= h -> 2 ^ (h - 2) + 1 <= length runs
  | LEVELING => 3 <= h -> c_hwm C * c_sf C ^ (h - 1) < length (concat runs)
  end.
Proof.
  intros bs runs st F M L H h. destruct (flush_result _ _ _ F M L H) as (S & _ & _ & Z).
  assert (EH : h = length (lvs st)) by (unfold h, st_runs, lvs; rewrite !map_length; auto).
  clearbody h. subst h. pose proof (SF C V) as SF. unfold ginv in Z. destruct (c_layout C) eqn:LY; intros Hh.
  - exact (li_height _ _ _ Z Hh).
  - assert (NE : lvs st <> []) by (destruct (lvs st); simpl in *; [lia|discriminate]).
    exact (tinv_height C SF _ _ _ Z NE).
  - destruct Z as [(Z & _)|Z]; [rewrite lvs_length, Z in Hh; simpl in Hh; lia|].
    exact (binv_height C SF _ _ _ Z Hh).
Qed.

Theorem flushes_sorted : forall bs runs st ls d, Forall2 shows bs runs -> Forall mostly_plain runs ->
  Forall (run_size (c_hwm C)) runs -> flush_all qlt C st_empty bs = Ok st ->
  In ls (st_runs st) -> In d ls -> d <> [] /\ sorted d.
Proof.
  intros bs runs st ls d F M L H I1 I2. destruct (flush_result _ _ _ F M L H) as (S & _ & P & _).
  unfold st_runs in I1. apply in_map_iff in I1 as (l & <- & Hl). apply in_map_iff in I2 as (s & <- & Hs).
  assert (HA : In s (age st)).
  { apply (Permutation_in _ (query_shards_perm st)). unfold query_shards. apply in_concat.
    exists (lv_shards l). split; auto. apply in_map. auto. }
  split.
  - rewrite Forall_forall in P. apply (pos_nonempty s). auto.
  - pose proof (s_ok _ _ S) as O. rewrite Forall_forall in O. destruct (O s HA) as (_ & _ & SS). exact SS.
Qed.

(** ** Queries *)

Theorem flushes_count : forall bs runs st d v win, Forall2 shows bs runs -> Forall all_plain runs ->
  Forall (run_size (c_hwm C)) runs -> flush_all qlt C st_empty bs = Ok st -> shows (d, v) win ->
  v_count v + st_reccnt st = length (concat runs ++ win).
Proof.
  intros bs runs st d v win F P L H W. destruct (plain_contents _ _ _ F P L H) as (Q & _ & O & _).
  destruct (shows_ok _ _ _ W) as (_ & -> & _). rewrite (st_reccnt_len _ O), app_length.
  apply Permutation_length in Q. rewrite !map_length in Q. lia.
Qed.

Context {KO : KeyOps R} {KL : KeyLaws R}.
Variable lbf : list (wrapped R) -> Z -> res nat.
Hypothesis LB : lb_sound lbf.

Theorem flushes_range_query : forall bs runs st d v win l u, Forall2 shows bs runs -> Forall all_plain runs ->
  Forall (run_size (c_hwm C)) runs -> flush_all qlt C st_empty bs = Ok st -> shows (d, v) win -> all_plain win ->
  exists out, rq_on qlt lbf l u st d v = Ok out /\
    Permutation out (filter (key_in l u) (map wrec (concat runs ++ win))).
Proof.
  intros bs runs st d v win l u F P L H W PW. destruct (plain_contents _ _ _ F P L H) as (Q & A & O & NE).
  destruct (shows_ok _ _ _ W) as (_ & _ & VR).
  destruct (rq_on_ok qlt lbf LB st d v win l u O NE VR) as (evs & M & E).
  eexists. split; [exact E|].
  pose proof (range_inputs st win l u) as RI.
  assert (TI : forall w, In w (filter (inr l u) (sdata (age st) ++ win)) -> is_ts w = false).
  { intros w Hw. apply filter_In in Hw as [Hw _]. apply in_app_iff in Hw as [Hw|Hw]; [apply A|apply PW]; auto. }
  destruct (mrun_plain qlt _ _ M) as [_ PM].
  { apply Forall_forall. intros w Hw. apply TI. apply (Permutation_in _ RI). auto. }
  rewrite filter_all.
  2:{ intros w Hw. rewrite TI; auto. apply (Permutation_in _ RI). apply (Permutation_in _ (Permutation_sym PM)). auto. }
  rewrite <- PM, RI.
  transitivity (filter (key_in l u) (map wrec (sdata (age st) ++ win))).
  - apply Permutation_refl'. clear. induction (sdata (age st) ++ win); simpl; auto.
    unfold inr at 1, in_range, key_in at 1. destruct (_ && _); simpl; rewrite IHl0; auto.
  - apply Permutation_filter. rewrite !map_app. apply Permutation_app_tail.
    rewrite <- !map_wrec_rt. apply Permutation_map. symmetry. auto.
Qed.

Theorem flushes_range_bounds : forall bs runs st d v win l u, Forall2 shows bs runs -> Forall mostly_plain runs ->
  Forall (run_size (c_hwm C)) runs -> flush_all qlt C st_empty bs = Ok st -> shows (d, v) win ->
  exists out, rq_on qlt lbf l u st d v = Ok out /\
    forall r, let ws := concat runs ++ win in
      if key_in l u r then n_plain r ws <= occ r out + n_tomb r ws /\ occ r out <= n_plain r ws
      else occ r out = 0.
Proof.
  intros bs runs st d v win l u F P L H W.
  destruct (flush_result _ _ _ F P L H) as (S & _ & PP & _).
  destruct (shows_ok _ _ _ W) as (_ & _ & VR).
  assert (NE : Forall nonempty (age st)).
  { eapply Forall_impl; [|exact PP]. apply pos_nonempty. }
  destruct (rq_on_ok qlt lbf LB st d v win l u (s_ok _ _ S) NE VR) as (evs & M & E).
  eexists. split; [exact E|]. intros r ws. subst ws.
  pose proof (merge_counts qlt _ _ _ l u r M (range_inputs st win l u)) as MC. cbv zeta in MC.
  destruct (flushes_balance _ _ _ r F P L H) as [B1 B2].
  unfold n_plain, n_tomb in *. rewrite !countb_app in *. rewrite !(countb_perm _ _ _ (st_records_perm st)) in *.
  destruct (key_in l u r); lia.
Qed.

End Sorted.

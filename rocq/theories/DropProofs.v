(** No FSTrie shard is built without records. *)
From Coq Require Import List Arith ZArith NArith Lia Bool Permutation Sorted.
From Verif Require Import Base ListLemmas RecordModel RecordProofs BufferModel BufferProofs
  MergeModel MergeProofs StructModel ExtModel StructProofs StructTotal SortedProofs ExtProofs ContentProofs
  QueryModel Spec QueryProofs SerialProofs LevelProofs SizeProofs KindModel KindSpec KindProofs LearnHist MemModel MemProofs DropModel.
Import ListNotations.

Section Drop.
Variable qlt : qorder crec.
Context {QO : QOrder qlt}.
Variable literal : nat.
Local Notation TS := (trie_shards qlt literal).
Local Notation FS := (fst_shards qlt literal).

Lemma destroy_ok : forall s, trie_ok s -> nonempty s -> fst_destroy s = Ok tt.
Proof.
  intros s (H & _) N. unfold fst_destroy, fst_assigned. rewrite H. unfold nonempty in N.
  destruct (s_data s); [congruence|]. auto.
Qed.
Lemma destroy_inv : forall s, fst_destroy s = Ok tt -> 0 < s_reccnt s.
Proof. intros s H. unfold fst_destroy, fst_assigned in H. destruct (Nat.ltb_spec 0 (s_reccnt s)); [auto|discriminate]. Qed.

(** What the constructors do they do for LoudsPatricia too. *)
Lemma fst_view_le : forall d v, le (from_view FS d v) (from_view TS d v).
Proof. intros d v s H. simpl in *. mon H. mon H. inv H. auto. Qed.
Lemma fst_merge_le : forall ss, le (from_shards FS ss) (from_shards TS ss).
Proof. intros ss s H. simpl in *. mon H. mon H. inv H. auto. Qed.
Theorem fst_refines : forall C ops, le (run_new FS C ops) (run_new TS C ops).
Proof. intros. apply r_run_new; auto using fst_view_le, fst_merge_le. Qed.

Lemma view_nonempty : forall d v s, from_view TS d v = Ok s -> trie_ok s -> nonempty s -> from_view FS d v = Ok s.
Proof. intros d v s H O N. simpl in *. rewrite H. cbn [bind]. rewrite destroy_ok by auto. auto. Qed.
Lemma merge_nonempty : forall ss s, from_shards TS ss = Ok s -> trie_ok s -> nonempty s -> from_shards FS ss = Ok s.
Proof. intros ss s H O N. simpl in *. rewrite H. cbn [bind]. rewrite destroy_ok by auto. auto. Qed.

(** ** With few erases *)

Definition ok1 (s : shard crec) : Prop := trie_ok s /\ Forall (trie_adm_ts literal) (s_data s) /\ pos_shard s.
Definition wadm1 (ws : list (wrapped crec)) : Prop := Forall (trie_adm_ts literal) ws /\ (0 < net (map rt ws))%Z.

Lemma view1 : forall d v s, vgood wadm1 d v -> from_view TS d v = Ok s -> ok1 s.
Proof.
  intros d v s (VO & _ & ws & VR & A & P) H. pose proof (proj1 (view_ok (B := TS) _ _ _ VO H)) as O.
  rewrite (view_built TS _ _ _ VO VR) in H. destruct (cancel_built _ _ H A) as [A' (ps & K)].
  split; auto. split; auto. unfold pos_shard. rewrite <- (net_cancel _ _ _ K). auto.
Qed.
Lemma sdata_forall : forall (P : wrapped crec -> Prop) ss, Forall (fun s => Forall P (s_data s)) ss <-> Forall P (sdata ss).
Proof.
  intros P. induction ss; [split; constructor|]. unfold sdata in *. simpl. rewrite Forall_app. split.
  - intros H. inv H. split; auto. apply IHss. auto.
  - intros [H1 H2]. constructor; auto. apply IHss. auto.
Qed.
Lemma ok1_parts : forall ss, Forall ok1 ss <->
  Forall trie_ok ss /\ Forall (trie_adm_ts literal) (sdata ss) /\ Forall pos_shard ss.
Proof.
  intros ss. rewrite <- sdata_forall. unfold ok1. rewrite !Forall_forall. split.
  - intros H. split; [|split]; intros x Hx; destruct (H x Hx) as (O & A & P); auto.
  - intros (H1 & H2 & H3) x Hx. auto.
Qed.
Lemma merge1 : forall ss s, ss <> [] -> Forall ok1 ss -> from_shards TS ss = Ok s -> ok1 s.
Proof.
  intros ss s NE F H. apply ok1_parts in F as (O & A & P).
  destruct (merge_reduced TS (ok := trie_ok) ss s H NE O A) as (R1 & R2 & R3 & _).
  assert (Forall ok1 [s]) as F by (apply ok1_parts; auto). inv F. auto.
Qed.

Theorem fst_history : forall C ops, valid_cfg C -> Forall (appends C) ops -> no_blank literal ops ->
  blocks_pos (c_lwm C) (map oplog ops) -> le (run_new TS C ops) (run_new FS C ops).
Proof.
  intros C ops V AP NB BP. pose proof V as (LW & WM & SF & _).
  assert (B2 : c_layout C = BSM -> c_sf C = 2) by (destruct V as (_ & _ & _ & B2); auto).
  unfold run_new. apply le_bind; [apply le_refl|]. intros e0 E.
  assert (N : run_new TS C [] = Ok (e0, [])) by (unfold run_new; rewrite E; auto). clear E.
  assert (K : forall post pre rs0 e, ops = pre ++ post -> run_new TS C pre = Ok (e, rs0) ->
    le (run TS C e post) (run FS C e post)).
  { clear e0 N. induction post; intros pre rs0 e EQ Rp; simpl; [apply le_refl|].
    pose proof (trie_admitted_ts literal ops NB) as AD.
    assert (APP : Forall (appends C) pre) by (rewrite EQ in AP; apply Forall_app in AP; tauto).
    destruct (run_hist TS C SF LW WM pre e rs0) as (_ & st & win & pos & I & S & H); auto.
    { intros _ p q e' rs' st win pos tsn E' _ _ H.
      assert (EM : map oplog ops = map oplog p ++ map oplog (q ++ a :: post)) by (rewrite EQ, E', <- app_assoc, map_app; auto).
      destruct (hist_reduced_pos TS C V (adm := trie_adm_ts literal) _ BP AD _ _ _ _ _ EM H) as [P1 _].
      eapply Forall_impl; [|exact P1]. apply pos_nonempty. }
    assert (EM : map oplog ops = map oplog pre ++ map oplog (a :: post)) by (rewrite EQ, map_app; auto).
    destruct (hist_reduced_pos TS C V (adm := trie_adm_ts literal) _ BP AD _ _ _ _ _ EM H) as [P1 P2].
    destruct (hist_reduced TS C (adm := trie_adm_ts literal) _ _ _ _ H) as (A & O & _).
    { intros r ts p Hp. apply AD. rewrite EM. apply in_or_app. auto. }
    apply Forall_app in A as [A1 A2].
    apply le_bind.
    - eapply (a_step TS FS C ok1 wadm1); eauto.
      + exact view1.
      + exact merge1.
      + intros d v G s Hs. destruct (view1 _ _ _ G Hs) as (X1 & _ & X2).
        apply view_nonempty; auto. apply pos_nonempty. auto.
      + intros ss NE F s Hs. destruct (merge1 _ _ NE F Hs) as (X1 & _ & X2).
        apply merge_nonempty; auto. apply pos_nonempty. auto.
      + rewrite (st_copy_id C); apply S.
      + apply ok1_parts. auto.
      + intros L. split; auto.
    - intros [e1 n] E. apply le_bind; [|intros; apply le_refl].
      eapply (IHpost (pre ++ [a])); [rewrite <- app_assoc; auto|]. eapply run_new_snoc; eauto. }
  eapply (K ops []); eauto.
Qed.

Theorem fst_mostly : forall C ops, valid_cfg C -> c_del C = TOMBSTONE -> no_blank literal ops ->
  mostly_inserts (c_lwm C) ops -> exists e, run_new FS C ops = Ok (e, repeat 1 (length ops)) /\
    run_new TS C ops = Ok (e, repeat 1 (length ops)).
Proof.
  intros C ops V TB NB MI. destruct (trie_runs_ts qlt literal C V ops TB NB MI) as [e E]. exists e. split; auto.
  eapply fst_history; eauto using tomb_appends, mostly_blocks.
Qed.

Theorem fst_inserts : forall C ops, valid_cfg C -> insert_only ops -> no_blank literal ops ->
  exists e, run_new FS C ops = Ok (e, repeat 1 (length ops)) /\ run_new TS C ops = Ok (e, repeat 1 (length ops)).
Proof.
  intros C ops V IO NB. destruct (trie_runs qlt literal C V ops IO NB) as [e E]. exists e. split; auto.
  eapply fst_history; eauto using insert_only_appends. apply insert_only_blocks; auto.
Qed.

(** ** The static structure, the destructor and the memory usage *)

Definition ok2 (s : shard crec) : Prop := trie_ok s /\ Forall (trie_adm literal) (s_data s) /\ nonempty s.
Definition wadm2 (ws : list (wrapped crec)) : Prop := Forall (trie_adm literal) ws /\ ws <> [].

Lemma view2 : forall d v s, vgood wadm2 d v -> from_view TS d v = Ok s -> ok2 s.
Proof.
  intros d v s (VO & _ & ws & VR & A & P) H. pose proof (proj1 (view_ok (B := TS) _ _ _ VO H)) as O.
  rewrite (view_built TS _ _ _ VO VR) in H. destruct (keep_built _ _ H A) as [K A'].
  split; auto. split; auto. unfold nonempty. apply (rt_nonempty ws); auto.
Qed.
Lemma ok2_parts : forall ss, Forall ok2 ss <->
  Forall trie_ok ss /\ Forall (trie_adm literal) (sdata ss) /\ Forall nonempty ss.
Proof.
  intros ss. rewrite <- sdata_forall. unfold ok2. rewrite !Forall_forall. split.
  - intros H. split; [|split]; intros x Hx; destruct (H x Hx) as (O & A & P); auto.
  - intros (H1 & H2 & H3) x Hx. auto.
Qed.
Lemma merge2 : forall ss s, ss <> [] -> Forall ok2 ss -> from_shards TS ss = Ok s -> ok2 s.
Proof.
  intros ss s NE F H. apply ok2_parts in F as (O & A & P).
  destruct (merge_kept TS (ok := trie_ok) (adm := trie_adm literal) ss s H NE O A) as (R1 & R2 & R3 & R4).
  assert (Forall ok2 [s]) as F by (apply ok2_parts; auto). inv F. auto.
Qed.

Lemma hist_unflushed : forall C ops ss win pos, hist TS C ops ss win pos -> win = [] -> ops = [].
Proof. destruct 1; intros Q; auto; [destruct win; discriminate|discriminate]. Qed.

Theorem fst_static : forall C ops e rs, valid_cfg C -> insert_only ops -> no_blank literal ops -> ops <> [] ->
  run_new TS C ops = Ok (e, rs) ->
  exists s, create_static_structure FS e = Ok (e, s) /\ s_reccnt s = length ops /\
    create_static_structure TS e = Ok (e, s) /\ fst_destroy s = Ok tt.
Proof.
  intros C ops e rs V IO NB NZ Rn. pose proof V as (LW & WM & SF & _).
  destruct (trie_static qlt literal C V ops e rs IO NB Rn) as (s & E & L & _). exists s.
  assert (D : fst_destroy s = Ok tt).
  { unfold fst_destroy, fst_assigned. rewrite L. destruct ops; [congruence|]. auto. }
  repeat split; auto.
  pose proof (trie_admitted literal ops IO NB) as AD.
  destruct (run_hist TS C SF LW WM ops e rs (kept_bsm_ok TS C V _ AD) (insert_only_appends C _ IO) Rn)
    as (_ & st & win & pos & I & _ & H).
  destruct (hist_kept TS C V _ _ _ _ H AD) as (_ & A & O & N).
  apply Forall_app in A as [A1 A2].
  assert (WN : win <> []).
  { intro Q. apply (hist_unflushed _ _ _ _ _ H) in Q. destruct ops; [congruence|discriminate]. }
  eapply (a_static TS FS C ok2 wadm2); eauto.
  - exact view2.
  - exact merge2.
  - intros d v G x Hx. destruct (view2 _ _ _ G Hx) as (X1 & _ & X2). apply view_nonempty; auto.
  - intros ss NE F x Hx. destruct (merge2 _ _ NE F Hx) as (X1 & _ & X2). apply merge_nonempty; auto.
  - apply ok2_parts. auto.
  - split; auto.
Qed.

Lemma map_res_each : forall {A B} (f : A -> res B) l, (forall x, In x l -> exists y, f x = Ok y) -> exists ys, map_res f l = Ok ys.
Proof.
  intros A B f. induction l; intros H; simpl; [eauto|]. destruct (H a (or_introl eq_refl)) as [y ->].
  destruct IHl as [ys ->]; [intros; apply H; simpl; auto|]. simpl. eauto.
Qed.

Lemma rest_at : forall C e st win pos tsn, valid_cfg C -> einv C e st win pos tsn ->
  (forall l s, In l (st_levels st) -> In s (lv_shards l) -> trie_ok s /\ nonempty s) ->
  destroy_index e = Ok tt /\ forall size wsize, get_memory_usage (fst_mem size) wsize e =
    Ok (e, 2 * c_hwm C * wsize + sum_list (map (fun d => size (map (fun w => c_str (wrec w)) d)) (concat (levels_of e)))).
Proof.
  intros C e st win pos tsn V I F. pose proof V as (LW & WM & SF & _). split.
  - unfold destroy_index. rewrite (i_cur _ _ _ _ _ _ I). simpl.
    destruct (map_res_each fst_destroy (concat (map lv_shards (st_levels st)))) as [ys E]; [|rewrite E; auto].
    intros s Hs. apply in_concat in Hs as (l & Hl & Hs). apply in_map_iff in Hl as (x & <- & Hx).
    destruct (F x s Hx Hs). exists tt. apply destroy_ok; auto.
  - intros size wsize. eapply (memory_at C); eauto. intros d Hd.
    rewrite (levels_of_eq C _ _ _ _ _ I) in Hd. apply in_concat in Hd as (x & Hx & Hd).
    apply in_map_iff in Hx as (ss & <- & Hss). unfold lvs in Hss. apply in_map_iff in Hss as (l & <- & Hl).
    apply in_map_iff in Hd as (s & <- & Hs). destruct (F l s Hl Hs) as [_ N]. unfold nonempty in N. unfold fst_mem.
    destruct (s_data s); [congruence|auto].
Qed.

Theorem fst_rest : forall C ops e rs, valid_cfg C -> Forall (appends C) ops -> no_blank literal ops ->
  blocks_pos (c_lwm C) (map oplog ops) -> run_new TS C ops = Ok (e, rs) ->
  destroy_index e = Ok tt /\ forall size wsize, get_memory_usage (fst_mem size) wsize e =
    Ok (e, 2 * c_hwm C * wsize + sum_list (map (fun d => size (map (fun w => c_str (wrec w)) d)) (concat (levels_of e)))).
Proof.
  intros C ops e rs V AP NB BP Rn. pose proof V as (LW & WM & SF & _).
  pose proof (trie_admitted_ts literal ops NB) as AD.
  assert (POS : forall p q ss win pos, ops = p ++ q -> hist TS C (map oplog p) ss win pos -> Forall pos_shard ss).
  { intros p q ss win pos E H. assert (EM : map oplog ops = map oplog p ++ map oplog q) by (rewrite E, map_app; auto).
    apply (hist_reduced_pos TS C V (adm := trie_adm_ts literal) _ BP AD _ _ _ _ _ EM H). }
  destruct (run_hist TS C SF LW WM ops e rs) as (_ & st & win & pos & I & S & H); auto.
  { intros _ p q e' rs' st win pos tsn E' _ _ H.
    eapply Forall_impl; [|eapply (POS p q); eauto]. apply pos_nonempty. }
  pose proof (POS ops [] _ _ _ (eq_sym (app_nil_r _)) H) as P. pose proof (s_ok _ _ S) as O.
  assert (F : forall l s, In l (st_levels st) -> In s (lv_shards l) -> trie_ok s /\ nonempty s).
  { intros l s Hl Hs. apply In_nth_error in Hl as [i Hi]. assert (In s (age st)) by (eapply lv_in_age; eauto).
    rewrite Forall_forall in O, P. split; auto. apply pos_nonempty. auto. }
  eapply rest_at; eauto.
Qed.

Theorem fst_rest_inserts : forall C ops e rs, valid_cfg C -> insert_only ops -> no_blank literal ops ->
  run_new TS C ops = Ok (e, rs) ->
  destroy_index e = Ok tt /\ forall size wsize, get_memory_usage (fst_mem size) wsize e =
    Ok (e, 2 * c_hwm C * wsize + sum_list (map (fun d => size (map (fun w => c_str (wrec w)) d)) (concat (levels_of e)))).
Proof.
  intros C ops e rs V IO NB H. apply (fst_rest C ops e rs); auto using insert_only_appends. apply insert_only_blocks; auto.
Qed.

Theorem fst_rest_mostly : forall C ops e rs, valid_cfg C -> c_del C = TOMBSTONE -> no_blank literal ops ->
  mostly_inserts (c_lwm C) ops -> run_new TS C ops = Ok (e, rs) ->
  destroy_index e = Ok tt /\ forall size wsize, get_memory_usage (fst_mem size) wsize e =
    Ok (e, 2 * c_hwm C * wsize + sum_list (map (fun d => size (map (fun w => c_str (wrec w)) d)) (concat (levels_of e)))).
Proof.
  intros C ops e rs V TB NB MI H. apply (fst_rest C ops e rs); auto using tomb_appends, mostly_blocks.
Qed.
End Drop.

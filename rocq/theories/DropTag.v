(** With deletes by tagging no FSTrie shard is built without records, if one record of
    each flush stays. *)
From Coq Require Import List Arith ZArith NArith Lia Bool Permutation Sorted.
From Verif Require Import Base ListLemmas RecordModel RecordProofs BufferModel BufferProofs
  MergeModel MergeProofs StructModel ExtModel StructProofs StructTotal SortedProofs ExtProofs ContentProofs
  TagProofs ExecProofs TagContent CountProofs QueryModel Spec QueryProofs SerialProofs LevelProofs SizeProofs
  KindModel KindSpec KindProofs KindTag LearnHist MemModel MemProofs DropModel DropProofs.
Import ListNotations.

Section Drop.
Variable qlt : qorder crec.
Context {QO : QOrder qlt}.
Variable literal : nat.
Local Notation TS := (trie_shards qlt literal).
Local Notation FS := (fst_shards qlt literal).
Variable C : cfg.
Hypothesis V : valid_cfg C.
Hypothesis TG : c_del C = TAGGING.
Variable search : list (list N) -> list N -> option nat.
Hypothesis SE : search_exact search.
Variable full : list (op crec).
Hypothesis NB : no_blank literal full.
Hypothesis DK : distinct_keys full.
Hypothesis SV : survivors (c_lwm C) full.

Local Notation fit := (trie_fit literal).
Definition ok3 (s : shard crec) : Prop := trie_ok s /\ Forall fit (s_data s) /\ kept_shard full s.
Definition wadm3 (ws : list (wrapped crec)) : Prop :=
  Forall fit ws /\ exists w, In w ws /\ keep w = true /\ n_del (wrec w) full = 0.

Lemma view3 : forall d v s, vgood wadm3 d v -> from_view TS d v = Ok s -> ok3 s.
Proof.
  intros d v s (VO & _ & ws & VR & A & w & W1 & W2 & W3) H. pose proof (proj1 (view_ok (B := TS) _ _ _ VO H)) as O.
  rewrite (view_built TS _ _ _ VO VR) in H.
  destruct (tag_built (TagLaws := trie_tags qlt literal) _ _ H A) as [A' P].
  split; auto. split; auto. destruct (bare_in _ _ w P) as (w' & X1 & X2 & X3); auto.
  exists w'. rewrite X3. auto.
Qed.
Lemma ok3_parts : forall ss, Forall ok3 ss <->
  Forall trie_ok ss /\ Forall fit (sdata ss) /\ Forall (kept_shard full) ss.
Proof.
  intros ss. rewrite <- sdata_forall. unfold ok3. rewrite !Forall_forall. split.
  - intros H. split; [|split]; intros x Hx; destruct (H x Hx) as (O & A & P); auto.
  - intros (H1 & H2 & H3) x Hx. auto.
Qed.
Lemma merge3 : forall ss s, ss <> [] -> Forall ok3 ss -> from_shards TS ss = Ok s -> ok3 s.
Proof.
  intros ss s NE F H. apply ok3_parts in F as (O & A & P).
  destruct (merge_shed TS (TL := trie_tags qlt literal) full ss s H NE O A) as (R1 & R2 & _ & R3).
  assert (Forall ok3 [s]) as F by (apply ok3_parts; auto). inv F. auto.
Qed.
Lemma ok3_nonempty : forall s, ok3 s -> trie_ok s /\ nonempty s.
Proof. intros s (O & _ & K). split; auto. eapply kept_nonempty; eauto. Qed.

(** The buffer that is flushed holds a record that stays. *)
Lemma flushed3 : forall ops post st win pos, kinv C (ok := trie_ok) (adm := fit) full ops st win pos ->
  full = ops ++ post -> length win = c_lwm C -> wadm3 win.
Proof.
  intros ops post st win pos [] E L. destruct k_pos as (k & K).
  destruct (SV k) as (r & HR & HD).
  { rewrite E, inserted_app, app_length. nia. }
  assert (EB : firstn (c_lwm C) (skipn (k * c_lwm C) (inserted full)) = map wrec win).
  { rewrite k_win, E, inserted_app, <- K, skipn_app, firstn_app.
    rewrite (firstn_all2 (n := c_lwm C)) by (rewrite skipn_length; lia).
    rewrite skipn_length. replace (c_lwm C - _) with 0 by lia. rewrite firstn_O, app_nil_r. auto. }
  rewrite EB in HR. apply in_map_iff in HR as (w & <- & Hw).
  unfold cont in k_adm. apply Forall_app in k_adm as [_ FP].
  split; auto. exists w. split; auto. split; auto. rewrite Forall_forall in k_keep. auto.
Qed.

Lemma fst_tag_step : forall pre o post e st win pos tsn, full = pre ++ o :: post -> einv C e st win pos tsn ->
  kinv C (ok := trie_ok) (adm := fit) full pre st win pos ->
  le (step TS C e o) (step_by (trie_find search) FS C e o).
Proof.
  intros pre o post e st win pos tsn E I K. pose proof V as (LW & WM & SF & _).
  destruct o as [r|r].
  - change (step_by (trie_find search) FS C e (Ins r)) with (step FS C e (Ins r)).
    eapply (a_step TS FS C ok3 wadm3); eauto.
    + exact view3.
    + exact merge3.
    + intros d v G s Hs. destruct (ok3_nonempty _ (view3 _ _ _ G Hs)). apply view_nonempty; auto.
    + intros ss NE F s Hs. destruct (ok3_nonempty _ (merge3 _ _ NE F Hs)). apply merge_nonempty; auto.
    + pose proof (k_sinv _ _ _ _ _ _ K) as S. rewrite (st_copy_id C); apply S.
    + apply ok3_parts. split; [apply (s_ok _ _ (k_sinv _ _ _ _ _ _ K))|]. split; [|apply (k_shards _ _ _ _ _ _ K SV)].
      pose proof (k_adm _ _ _ _ _ _ K) as A. unfold cont in A. apply Forall_app in A. tauto.
    + intros L. eapply flushed3; eauto.
  - rewrite <- (step_eq TS C TG (trie_find search) e st win pos tsn (Del r) I); [apply le_refl|].
    intros r' s _ Hs.
    pose proof (kinv_nodup _ _ _ _ _ _ _ _ DK E K) as N. unfold cont in N. rewrite map_app in N.
    apply nodup_parts in N as [N _].
    apply (trie_find_rec _ SE).
    + pose proof (s_ok _ _ (k_sinv _ _ _ _ _ _ K)) as O. rewrite Forall_forall in O. auto.
    + pose proof (k_shards _ _ _ _ _ _ K SV) as F. rewrite Forall_forall in F. eapply kept_nonempty; eauto.
    + eapply strs_of_shard; eauto.
Qed.
(** Every shard that is built can be destroyed. *)
Theorem fst_tag_history : le (run_new TS C full) (run_new_by (trie_find search) FS C full).
Proof.
  unfold run_new, run_new_by. apply le_bind; [apply le_refl|]. intros e0 E0.
  assert (K : forall post pre e rs, full = pre ++ post -> run_new TS C pre = Ok (e, rs) ->
    le (run TS C e post) (run_by (trie_find search) FS C e post)).
  { induction post as [|o post IH]; intros pre e rs E Rn; simpl; [apply le_refl|].
    destruct (krun_total TS C (TL := trie_tags qlt literal) V TG full (trie_fine literal full NB) SV pre (o :: post) E)
      as (e' & rs' & st & win & pos & tsn & Rn' & I & K).
    rewrite Rn in Rn'. injection Rn' as <- <-. apply le_bind; [eapply fst_tag_step; eauto|].
    intros [e1 n] ST. apply le_bind; [|intros; apply le_refl].
    apply (IH (pre ++ [o]) e1 (rs ++ [n])).
    - rewrite <- app_assoc. auto.
    - eapply run_new_snoc; eauto. }
  apply (K full [] e0 []); auto. unfold run_new. rewrite E0. auto.
Qed.

Theorem fst_tag_runs : exists e rs, run_new_by (trie_find search) FS C full = Ok (e, rs) /\
  trie_run_new qlt literal search C full = Ok (e, rs).
Proof.
  destruct (trie_tag_runs qlt literal C V TG search SE full NB DK SV) as (e & rs & H). exists e, rs. split; auto.
  apply fst_tag_history. rewrite <- (trie_run_eq qlt literal C V TG search SE full) by auto. auto.
Qed.

Theorem fst_tag_rest : forall e rs, trie_run_new qlt literal search C full = Ok (e, rs) ->
  destroy_index e = Ok tt /\ forall size wsize, get_memory_usage (fst_mem size) wsize e =
    Ok (e, 2 * c_hwm C * wsize + sum_list (map (fun d => size (map (fun w => c_str (wrec w)) d)) (concat (levels_of e)))).
Proof.
  intros e rs H. rewrite (trie_run_eq qlt literal C V TG search SE full) in H by auto.
  destruct (krun_total TS C (TL := trie_tags qlt literal) V TG full (trie_fine literal full NB) SV full [] (eq_sym (app_nil_r _)))
    as (e' & rs' & st & win & pos & tsn & Rn' & I & K).
  rewrite H in Rn'. injection Rn' as <- <-. pose proof (s_ok _ _ (k_sinv _ _ _ _ _ _ K)) as O. pose proof (k_shards _ _ _ _ _ _ K SV) as P.
  assert (F : forall l s, In l (st_levels st) -> In s (lv_shards l) -> trie_ok s /\ nonempty s).
  { intros l s Hl Hs. apply In_nth_error in Hl as [i Hi]. assert (In s (age st)) by (eapply lv_in_age; eauto).
    rewrite Forall_forall in O, P. split; auto. eapply kept_nonempty; eauto. }
  eapply rest_at; eauto.
Qed.
End Drop.

Section Static.
Variable qlt : qorder crec.
Context {QO : QOrder qlt}.
Variable literal : nat.
Local Notation TS := (trie_shards qlt literal).
Local Notation FS := (fst_shards qlt literal).
Variable C : cfg.
Hypothesis V : valid_cfg C.
Hypothesis TG : c_del C = TAGGING.
Variable search : list (list N) -> list N -> option nat.
Hypothesis SE : search_exact search.

Theorem fst_tag_static : forall ops e rs, no_blank literal ops -> distinct_keys ops -> survivors (c_lwm C) ops ->
  trie_run_new qlt literal search C ops = Ok (e, rs) -> (exists w, In w (buffer_records e) /\ is_del w = false) ->
  exists s, create_static_structure FS e = Ok (e, s) /\ s_reccnt s = length (live ops) /\
    create_static_structure TS e = Ok (e, s) /\ fst_destroy s = Ok tt.
Proof.
  intros ops e rs NB DK SV H U. pose proof V as (LW & WM & SF & _).
  destruct (trie_tag_static qlt literal C V TG search SE ops e rs NB DK SV H) as (s & E & L & _); auto.
  rewrite (trie_run_eq qlt literal C V TG search SE ops) in H by auto.
  destruct (krun_total TS C (TL := trie_tags qlt literal) V TG ops (trie_fine literal ops NB) SV ops [] (eq_sym (app_nil_r _)))
    as (e' & rs' & st & win & pos & tsn & Rn' & I & K).
  rewrite H in Rn'. injection Rn' as <- <-. rewrite (proj2 (stored_eq C V _ _ _ _ _ I)) in U. destruct U as (w & W1 & W2).
  pose proof (k_adm _ _ _ _ _ _ K) as A. unfold cont in A. apply Forall_app in A as [A1 A2].
  assert (G : create_static_structure FS e = Ok (e, s)).
  { refine (a_static TS FS C (ok3 literal []) (wadm3 literal []) _ _ _ _ _ _ _ e st win pos tsn I _ _ _ _ E); auto.
    - apply view3. auto.
    - apply merge3. auto.
    - intros d v G x Hx. destruct (ok3_nonempty _ _ _ (view3 _ _ _ _ _ _ G Hx)). apply view_nonempty; auto.
    - intros ss NE F x Hx. destruct (ok3_nonempty _ _ _ (merge3 _ _ _ _ _ NE F Hx)). apply merge_nonempty; auto.
    - apply ok3_parts. split; [apply (s_ok _ _ (k_sinv _ _ _ _ _ _ K))|]. split; auto.
      eapply Forall_impl; [|apply (k_shards _ _ _ _ _ _ K SV)]. intros x (y & Y1 & Y2 & _). exists y. auto.
    - intros Q. subst win. contradiction.
    - split; auto. exists w. split; auto. split; auto. unfold keep. rewrite W2. auto. }
  exists s. split; auto. split; auto. split; auto.
  unfold fst_destroy, fst_assigned. rewrite L.
  assert (Z : In (wrec w) (live ops)).
  { apply (Permutation_in _ (k_live _ _ _ _ _ _ K (distinct_keys_inserts _ DK))). unfold lv. apply in_map.
    apply filter_In. split; [apply in_or_app; auto|]. unfold keep. rewrite W2. auto. }
  destruct (live ops); [contradiction|]. auto.
Qed.
End Static.

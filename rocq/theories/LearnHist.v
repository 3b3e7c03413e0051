(** Histories of indexes whose shards are built by different constructors that agree
    where both succeed. *)
From Coq Require Import List Arith ZArith NArith Lia Bool Permutation Sorted.
From Verif Require Import Base ListLemmas RecordModel RecordProofs BufferModel BufferProofs MergeModel MergeProofs
  StructModel ExtModel StructProofs StructTotal SortedProofs ExtProofs Spec QueryProofs SerialProofs BsmProofs LearnModel LearnSpec LearnProofs.
Import ListNotations.

(** [y] succeeds whenever [x] does, with the same result. *)
Definition le {A} (x y : res A) : Prop := forall a, x = Ok a -> y = Ok a.

Lemma le_refl : forall {A} (x : res A), le x x.
Proof. intros A x a H. auto. Qed.
Lemma le_bind : forall {A B} (x y : res A) (f g : A -> res B),
  le x y -> (forall a, x = Ok a -> le (f a) (g a)) -> le (bind x f) (bind y g).
Proof.
  intros A B x y f g H K b E. destruct x as [a|]; [|discriminate]. rewrite (H a eq_refl). simpl in *.
  apply (K a eq_refl). auto.
Qed.

Ltac le_tac := repeat first
  [ apply le_refl
  | apply le_bind; [|intros]
  | match goal with |- le (match ?x with _ => _ end) _ => destruct x end
  | match goal with |- le (let '(_, _) := ?x in _) _ => destruct x end
  | solve [auto] ].

(** ** Refinement: no condition *)

Section Refine.
Context {R : Type} {RO : RecOps R}.
Variables B1 B2 : builders R.
Variable C : cfg.
Hypothesis RV : forall d v, le (from_view B1 d v) (from_view B2 d v).
Hypothesis RS : forall ss, le (from_shards B1 ss) (from_shards B2 ss).

Lemma r_bsm : forall st t, le (reconstruct_bsm B1 C st t) (reconstruct_bsm B2 C st t).
Proof. intros. unfold reconstruct_bsm, lv_reconstruct_many. le_tac. Qed.

Lemma r_pair : forall st b i, le (reconstruct_pair B1 C st b i) (reconstruct_pair B2 C st b i).
Proof.
  intros. unfold reconstruct_pair, lv_reconstruct2, lv_append_level.
  destruct (if length (st_levels st) <=? b then _ else _) as [levels state]. le_tac.
Qed.

Lemma r_pairs : forall ts st, le (exec_pairs B1 C ts st) (exec_pairs B2 C ts st).
Proof.
  induction ts; intros; simpl; [apply le_refl|]. apply le_bind; [apply le_refl|]. intros.
  apply le_bind; [apply r_pair|]. auto.
Qed.

Lemma r_exec : forall ts st, le (exec_tasks B1 C ts st) (exec_tasks B2 C ts st).
Proof.
  intros. unfold exec_tasks. pose proof r_bsm. pose proof r_pairs.
  destruct (c_layout C); auto. destruct ts; [apply le_refl|auto].
Qed.

Lemma r_flush : forall st d v, le (flush_buffer B1 C st d v) (flush_buffer B2 C st d v).
Proof.
  intros. unfold flush_buffer, flush_into_l0, lv_append_buffer, lv_reconstruct2.
  destruct (can_reconstruct_with _ _ _ _); [|apply le_refl].
  destruct (if length (st_levels st) =? 0 then _ else _) as [levels state]. le_tac.
Qed.

Lemma r_recon : forall st d v, le (reconstruct_struct B1 C st d v) (reconstruct_struct B2 C st d v).
Proof.
  intros. unfold reconstruct_struct. apply le_bind; [apply le_refl|]. intros [x ts] _.
  apply le_bind; [apply r_exec|]. intros. apply r_flush.
Qed.

Lemma r_append : forall e r ts, le (internal_append B1 C e r ts) (internal_append B2 C e r ts).
Proof.
  intros. unfold internal_append, schedule_reconstruction.
  apply le_bind; [|intros; apply le_refl].
  destruct (buf_at_lwm (e_buf e) && negb (e_flag e)); [|apply le_refl].
  apply le_bind; [apply le_refl|]. intros e1 _.
  destruct (ep_ptr (e_next e1)); [|apply le_refl].
  apply le_bind; [apply le_refl|]. intros [b1 v] _.
  apply le_bind; [apply r_recon|]. intros. apply le_refl.
Qed.

Lemma r_step : forall e o, le (step B1 C e o) (step B2 C e o).
Proof.
  intros e [r|r]; simpl; [apply r_append|]. unfold erase. destruct (c_del C); [apply r_append|apply le_refl].
Qed.

Lemma r_run : forall ops e, le (run B1 C e ops) (run B2 C e ops).
Proof.
  induction ops; intros e; simpl; [apply le_refl|]. apply le_bind; [apply r_step|]. intros [e1 n] _.
  apply le_bind; [apply IHops|]. intros. apply le_refl.
Qed.

Theorem r_run_new : forall ops, le (run_new B1 C ops) (run_new B2 C ops).
Proof. intros. unfold run_new. apply le_bind; [apply le_refl|]. intros. apply r_run. Qed.

Lemma r_combined : forall ls, le (combined_shards B1 ls) (combined_shards B2 ls).
Proof.
  induction ls; simpl; [apply le_refl|]. destruct (0 <? lv_reccnt a); auto.
  apply le_bind; [unfold lv_combined; le_tac|]. intros o _. destruct o; [|apply le_refl].
  apply le_bind; [auto|]. intros. apply le_refl.
Qed.

Theorem r_static : forall e, le (create_static_structure B1 e) (create_static_structure B2 e).
Proof.
  intros. unfold create_static_structure, with_epoch, static_on.
  apply le_bind; [apply le_refl|]. intros [e1 ep] _. apply le_bind; [apply le_refl|]. intros [b1 v] _.
  apply le_bind; [|intros; apply le_refl].
  apply le_bind; [apply r_combined|]. intros. apply le_bind; [|intros; auto].
  destruct (0 <? v_count v); le_tac.
Qed.
End Refine.

(** ** Agreement, when shards are [ok], the records flushed [wadm], views and lists of
    merged shards not empty *)

Section Agree.
Context {R : Type} {RO : RecOps R} {RL : RecLaws R}.
Variables B1 B2 : builders R.
Variable C : cfg.
Variable ok : shard R -> Prop.
Variable wadm : list (wrapped R) -> Prop.
Definition vgood (d : list (wrapped R)) (v : view) : Prop :=
  vok d v /\ 0 < v_count v /\ exists ws, v_records d v = Ok ws /\ wadm ws.
Hypothesis SF : 1 <= c_sf C.
Hypothesis LW : 1 <= c_lwm C.
Hypothesis WM : c_lwm C <= c_hwm C.
Hypothesis VK : forall d v s, vgood d v -> from_view B1 d v = Ok s -> ok s.
Hypothesis SK : forall ss s, ss <> [] -> Forall ok ss -> from_shards B1 ss = Ok s -> ok s.
Hypothesis HV : forall d v, vgood d v -> le (from_view B1 d v) (from_view B2 d v).
Hypothesis HS : forall ss, ss <> [] -> Forall ok ss -> le (from_shards B1 ss) (from_shards B2 ss).

Local Arguments set_nth : simpl never.

Definition lok (l : level R) : Prop :=
  Forall ok (lv_shards l) /\ (forall s, lv_pending l = Some s -> ok s).
Definition oks (st : structure R) : Prop := Forall lok (st_levels st).

Lemma lok_new : forall i c, lok (lv_new i c).
Proof. split; simpl; [constructor|discriminate]. Qed.

Lemma set_forall : forall {A} (P : A -> Prop) i x l, P x -> Forall P l -> Forall P (set_nth i x l).
Proof.
  intros A P i x l Hx H. apply Forall_forall. intros y Hy. apply In_nth_error in Hy as [j Hj].
  destruct (Nat.eq_dec i j).
  - subst. pose proof (nth_some_lt _ _ _ Hj) as L. rewrite set_nth_length in L.
    rewrite nth_error_set_nth_eq in Hj by auto. inv Hj. auto.
  - rewrite nth_error_set_nth_neq in Hj by auto. rewrite Forall_forall in H. apply H. eapply nth_error_In; eauto.
Qed.

Lemma a_rec2 : forall b n, lok b -> lok n -> le (lv_reconstruct2 B1 b n) (lv_reconstruct2 B2 b n).
Proof.
  intros b n [Hb _] [Hn _]. unfold lv_reconstruct2. destruct (negb _); [apply le_refl|].
  destruct (lv_shards b); [apply le_refl|]. destruct (lv_shards n); [apply le_refl|].
  apply le_bind; [|intros; apply le_refl]. inv Hb. inv Hn. apply HS; [discriminate|]. repeat constructor; auto.
Qed.
Lemma lok_rec2 : forall b n l, lok b -> lok n -> lv_reconstruct2 B1 b n = Ok l -> lok l.
Proof.
  intros b n l [Hb _] [Hn _] H. unfold lv_reconstruct2 in H. destruct (negb _); [discriminate|].
  destruct (lv_shards b); [discriminate|]. destruct (lv_shards n); [discriminate|]. mon H. inv H.
  split; simpl; [|discriminate]. constructor; auto. inv Hb. inv Hn.
  eapply SK; [| |exact E]; [discriminate|]. repeat constructor; auto.
Qed.
Lemma a_applev : forall b n, lok n -> le (lv_append_level B1 b n) (lv_append_level B2 b n).
Proof.
  intros b n [Hn _]. unfold lv_append_level. destruct (Nat.eqb_spec (lv_count n) 0); [apply le_refl|].
  apply le_bind; [|intros; apply le_refl]. apply HS; auto. unfold lv_count in n0. intro Q. rewrite Q in n0. auto.
Qed.
Lemma lok_applev : forall b n l, lok b -> lok n -> lv_append_level B1 b n = Ok l -> lok l.
Proof.
  intros b n l [Hb Pb] [Hn _] H. unfold lv_append_level in H. destruct (Nat.eqb_spec (lv_count n) 0) as [Z|Z]; [inv H; split; auto|].
  mon H. assert (K : ok a) by (eapply SK; [| |exact E]; auto; unfold lv_count in Z; intro Q; rewrite Q in Z; auto). destruct (lv_count b =? lv_cap b); inv H; split; simpl; auto.
  - intros s Q. inv Q. auto.
  - apply Forall_app. auto.
Qed.
Lemma lok_fin : forall (b l : level R), lok b -> lv_finalize b = Ok l -> lok l.
Proof.
  intros b l [Hb Pb] H. unfold lv_finalize in H. destruct (lv_pending b) eqn:E; [|inv H; split; auto; congruence].
  destruct (lv_cap b =? 0); inv H. split; simpl; [|discriminate]. constructor; auto.
Qed.

Lemma a_pair : forall st b i, oks st -> le (reconstruct_pair B1 C st b i) (reconstruct_pair B2 C st b i).
Proof.
  intros st b i H. unfold reconstruct_pair.
  destruct (if length (st_levels st) <=? b then _ else _) as [levels state] eqn:EL.
  assert (K : Forall lok levels).
  { destruct (length (st_levels st) <=? b); inv EL; auto. apply Forall_app. split; auto.
    constructor; auto. apply lok_new. }
  apply le_bind; [apply le_refl|]. intros lb E1. apply le_bind; [apply le_refl|]. intros li E2.
  assert (lok lb /\ lok li) as [Lb Li].
  { unfold nth_res in *. destruct (nth_error levels b) eqn:Q1; inv E1. destruct (nth_error levels i) eqn:Q2; inv E2.
    rewrite Forall_forall in K. split; apply K; eapply nth_error_In; eauto. }
  apply le_bind; [|intros; apply le_refl].
  destruct (c_layout C).
  - destruct (0 <? lv_count lb); [apply a_rec2; auto|apply le_refl].
  - apply le_bind; [apply a_applev; auto|intros; apply le_refl].
  - apply le_bind; [apply a_applev; auto|intros; apply le_refl].
Qed.

Lemma oks_pair : forall st b i st', oks st -> reconstruct_pair B1 C st b i = Ok st' -> oks st'.
Proof.
  intros st b i st' H E. unfold reconstruct_pair in E.
  destruct (if length (st_levels st) <=? b then _ else _) as [levels state] eqn:EL.
  assert (K : Forall lok levels).
  { destruct (length (st_levels st) <=? b); inv EL; auto. apply Forall_app. split; auto.
    constructor; auto. apply lok_new. }
  mon E. rename a into lb. mon E. rename a into li.
  assert (lok lb /\ lok li) as [Lb Li].
  { unfold nth_res in *. destruct (nth_error levels b) eqn:Q1; inv E0. destruct (nth_error levels i) eqn:Q2; inv E1.
    rewrite Forall_forall in K. split; apply K; eapply nth_error_In; eauto. }
  mon E. inv E. unfold oks. simpl. apply set_forall; [apply lok_new|]. apply set_forall; auto.
  destruct (c_layout C).
  - destruct (0 <? lv_count lb); [|inv E2; auto]. eapply lok_rec2; [| |exact E2]; auto.
  - mon E2. eapply lok_fin; [|exact E2]. eapply lok_applev; [| |exact E]; auto.
  - mon E2. eapply lok_fin; [|exact E2]. eapply lok_applev; [| |exact E]; auto.
Qed.

Lemma a_pairs : forall ts st, oks st -> le (exec_pairs B1 C ts st) (exec_pairs B2 C ts st).
Proof.
  induction ts; intros st H; simpl; [apply le_refl|]. apply le_bind; [apply le_refl|]. intros i _.
  apply le_bind; [apply a_pair; auto|]. intros st' E. apply IHts. eapply oks_pair; eauto.
Qed.
Lemma oks_pairs : forall ts st st', oks st -> exec_pairs B1 C ts st = Ok st' -> oks st'.
Proof.
  induction ts; intros st st' H E; simpl in E; [inv E; auto|]. mon E. mon E.
  eapply IHts; [|exact E]. eapply oks_pair; eauto.
Qed.

Lemma a_bsm : forall st b c l, oks st -> 1 <= b <= length (st_levels st) ->
  nth_error (st_levels st) 0 = Some l -> lv_shards l <> [] ->
  le (reconstruct_bsm B1 C st (Task (downto b) b c)) (reconstruct_bsm B2 C st (Task (downto b) b c)).
Proof.
  intros st b c l H Hb N NE. unfold reconstruct_bsm. cbn [t_sources t_target].
  apply le_bind; [apply le_refl|]. intros ls E. apply (map_res_downto C SF) in E; [|lia].
  apply le_bind; [|intros; apply le_refl]. unfold lv_reconstruct_many.
  apply le_bind; [|intros; apply le_refl]. subst ls.
  change (concat (map lv_shards (rev (firstn b (st_levels st))))) with (AGE (firstn b (st_levels st))).
  apply HS.
  - destruct (st_levels st) as [|x xs]; [discriminate|]. inv N. destruct b; [lia|]. simpl.
    rewrite AGE_cons. intro Q. apply app_eq_nil in Q as [_ Q]. auto.
  - unfold AGE. apply Forall_concat, Forall_map, Forall_rev, Forall_forall. intros x Hx.
    assert (Hx' : In x (st_levels st)) by (rewrite <- (firstn_skipn b (st_levels st)); apply in_or_app; auto).
    unfold oks in H. rewrite Forall_forall in H. apply H. auto.
Qed.

Lemma oks_clear : forall srcs t (ls : list (level R)) state ls' state',
  clear_sources C srcs t ls state = (ls', state') -> Forall lok ls -> Forall lok ls'.
Proof.
  induction srcs; intros t ls state ls' state' E H; simpl in E; [inv E; auto|].
  eapply IHsrcs; [exact E|]. apply set_forall; auto. apply lok_new.
Qed.
Lemma oks_bsm : forall st b c st' l, oks st -> 1 <= b <= length (st_levels st) ->
  nth_error (st_levels st) 0 = Some l -> lv_shards l <> [] ->
  reconstruct_bsm B1 C st (Task (downto b) b c) = Ok st' -> oks st'.
Proof.
  intros st b c st' l H Hb N NE E. unfold reconstruct_bsm in E. cbn [t_sources t_target] in E. mon E.
  apply (map_res_downto C SF) in E0; [|lia]. subst a. mon E. unfold lv_reconstruct_many in E0. mon E0. inv E0.
  match type of E with context [clear_sources _ _ _ _ _] => idtac | _ => idtac end.
  destruct (if length (st_levels st) <=? b then _ else _) as [levels state] eqn:EL.
  destruct (clear_sources C (downto b) b levels state) as [levels' state'] eqn:EC. inv E.
  unfold oks. simpl. eapply oks_clear; [exact EC|].
  assert (K : lok (Level b 1 [a0] None)).
  { split; simpl; [|discriminate]. constructor; auto. eapply SK; [| |exact E1].
    { change (concat (map lv_shards (rev (firstn b (st_levels st))))) with (AGE (firstn b (st_levels st))).
      destruct (st_levels st) as [|y ys]; [discriminate|]. inv N. destruct b; [lia|]. simpl.
      rewrite AGE_cons. intro Q. apply app_eq_nil in Q as [_ Q]. auto. }
    apply Forall_concat, Forall_map, Forall_rev, Forall_forall. intros x Hx.
    assert (Hx' : In x (st_levels st)) by (rewrite <- (firstn_skipn b (st_levels st)); apply in_or_app; auto).
    unfold oks in H. rewrite Forall_forall in H. apply H. auto. }
  destruct (length (st_levels st) <=? b); inv EL.
  - apply Forall_app. split; auto.
  - apply set_forall; auto.
Qed.

Lemma a_flush : forall st d v, oks st -> vgood d v ->
  le (flush_buffer B1 C st d v) (flush_buffer B2 C st d v).
Proof.
  intros st d v H VO. unfold flush_buffer, flush_into_l0.
  destruct (can_reconstruct_with _ _ _ _); [|apply le_refl].
  destruct (if length (st_levels st) =? 0 then _ else _) as [levels state] eqn:EL.
  assert (K : Forall lok levels).
  { destruct (length (st_levels st) =? 0); inv EL; auto. apply Forall_app. split; auto.
    constructor; auto. apply lok_new. }
  apply le_bind; [apply le_refl|]. intros l0 E1.
  assert (L0 : lok l0).
  { unfold nth_res in *. destruct (nth_error levels 0) eqn:Q1; inv E1.
    rewrite Forall_forall in K. apply K; eapply nth_error_In; eauto. }
  apply le_bind; [|intros; apply le_refl].
  pose proof (HV d v VO) as V.
  assert (AB : forall l, le (lv_append_buffer B1 l d v) (lv_append_buffer B2 l d v)).
  { intros l. unfold lv_append_buffer. destruct (lv_count l =? lv_cap l).
    - destruct (lv_pending l); [apply le_refl|]. apply le_bind; [auto|intros; apply le_refl].
    - apply le_bind; [auto|intros; apply le_refl]. }
  destruct (c_layout C); [|apply AB|apply AB].
  apply le_bind; [apply AB|]. intros tmp E. destruct (0 <? lv_count l0); [|apply le_refl].
  apply a_rec2; auto. unfold lv_append_buffer, lv_count in E. simpl in E. mon E. inv E. split; simpl; [|discriminate].
  constructor; auto. eapply VK; eauto.
Qed.

Lemma a_recon : forall st d v, shape C st -> Forall ok (age st) -> vgood d v ->
  le (reconstruct_struct B1 C st d v) (reconstruct_struct B2 C st d v).
Proof.
  intros st d v SH OK VO.
  assert (H : oks st).
  { apply Forall_forall. intros l Hl. apply In_nth_error in Hl as [i Hi].
    destruct (shape_level C _ _ _ SH Hi) as (s & _ & O). split.
    - apply Forall_forall. intros x Hx. rewrite Forall_forall in OK. apply OK. eapply lv_in_age; eauto.
    - destruct O as (_ & _ & P & _). rewrite P. discriminate. }
  unfold reconstruct_struct. apply le_bind; [apply le_refl|]. intros [x ts] E.
  apply get_tasks_spec in E as [(-> & _)|(D & b & T & E)]; auto.
  - apply le_bind; [unfold exec_tasks; destruct (c_layout C); apply le_refl|].
    intros st' E'. apply a_flush; auto. unfold exec_tasks in E'. destruct (c_layout C); inv E'; auto.
  - destruct T as (s0 & ES0 & TB & _). unfold exec_tasks. destruct (c_layout C) eqn:LY.
    + apply le_bind; [apply a_pairs; auto|]. intros. apply a_flush; auto. eapply oks_pairs; eauto.
    + apply le_bind; [apply a_pairs; auto|]. intros. apply a_flush; auto. eapply oks_pairs; eauto.
    + destruct E as [c ->].
      destruct (shape_state C _ _ _ SH ES0) as (l0 & EL0 & OK0).
      assert (NE : lv_shards l0 <> []).
      { unfold can_reconstruct_with in D. rewrite ES0, LY in D. apply Nat.eqb_neq in D.
        destruct OK0 as (O1 & _). intro Q. apply D. rewrite O1. unfold lv_reccnt. rewrite Q. auto. }
      apply le_bind; [eapply a_bsm; eauto|]. intros st1 E1. apply a_flush; auto. eapply oks_bsm; [| | | |exact E1]; eauto.
Qed.

(** ** Appends and histories *)

Lemma win_good : forall e st win pos tsn, einv C e st win pos tsn -> wadm win -> 0 < length win ->
  vgood (b_data (e_buf e)) (bview C win pos tsn).
Proof.
  intros e st win pos tsn I A L. split; [eapply einv_vok; eauto|]. split; [rewrite bview_count; auto|].
  exists win. split; auto. eapply einv_records; eauto.
Qed.

Lemma a_append : forall e st win pos tsn r ts, einv C e st win pos tsn -> shape C (st_copy st) -> Forall ok (age st) ->
  (length win = c_lwm C -> wadm win) -> le (internal_append B1 C e r ts) (internal_append B2 C e r ts).
Proof.
  intros e st win pos tsn r ts I SH OK WA. unfold internal_append.
  apply le_bind; [|intros; apply le_refl].
  assert (CT : buf_at_lwm (e_buf e) = true -> vgood (b_data (e_buf e)) (bview C win pos tsn)).
  { intros Q. eapply win_good; eauto; destruct I; unfold buf_at_lwm, buf_count in Q; apply Nat.leb_le in Q;
      rewrite i_head in Q; simpl in Q; [apply WA|]; lia. }
  destruct (buf_at_lwm (e_buf e)) eqn:AT; [|apply le_refl].
  specialize (CT eq_refl). destruct I.
  destruct e as [b cnt flag nx cur prev]. destruct b as [lw hw cap tail hd old d tn flt].
  destruct prev as [pp pr]. destruct old as [oi orf].
  simpl in *. subst. simpl.
  unfold schedule_reconstruction, create_new_epoch, get_active_epoch. simpl.
  unfold end_job. simpl. rewrite i_prev. simpl.
  unfold buf_get_view, buf_get_head. simpl.
  destruct (Nat.eqb_spec oi pos); [congruence|]. rewrite Nat.eqb_refl. simpl.
  apply le_bind; [|intros; apply le_refl]. apply a_recon; auto. rewrite copy_age. auto.
Qed.

Lemma a_step : forall e st win pos tsn o, einv C e st win pos tsn -> shape C (st_copy st) -> Forall ok (age st) ->
  (length win = c_lwm C -> wadm win) -> le (step B1 C e o) (step B2 C e o).
Proof.
  intros e st win pos tsn o I SH OK WA. destruct o; simpl; [eapply a_append; eauto|].
  unfold erase. destruct (c_del C); [eapply a_append; eauto|apply le_refl].
Qed.

Lemma a_combined : forall ls, Forall (fun l => Forall ok (lv_shards l)) ls ->
  le (combined_shards B1 ls) (combined_shards B2 ls).
Proof.
  induction ls; simpl; intros F; [apply le_refl|]. inv F. destruct (0 <? lv_reccnt a); auto.
  apply le_bind.
  - unfold lv_combined. destruct (Nat.eqb_spec (lv_count a) 0); [apply le_refl|].
    apply le_bind; [|intros; apply le_refl]. apply HS; auto. intro Q. unfold lv_count in n. rewrite Q in n. auto.
  - intros o _. destruct o; [|apply le_refl]. apply le_bind; [auto|]. intros. apply le_refl.
Qed.
Lemma combined_ok : forall ls ss, Forall (fun l => Forall ok (lv_shards l)) ls ->
  combined_shards B1 ls = Ok ss -> Forall ok ss.
Proof.
  induction ls; simpl; intros ss F E; [inv E; auto|]. inv F. destruct (0 <? lv_reccnt a); auto.
  mon E. destruct a0; [|discriminate]. mon E. inv E. constructor; auto.
  unfold lv_combined in E0. destruct (Nat.eqb_spec (lv_count a) 0) as [Z|Z]; [discriminate|]. mon E0. inv E0.
  eapply SK; [| |exact E]; auto. unfold lv_count in Z. intro Q. rewrite Q in Z. auto.
Qed.

Lemma a_static : forall e st win pos tsn, einv C e st win pos tsn -> Forall ok (age st) -> win <> [] -> wadm win ->
  le (create_static_structure B1 e) (create_static_structure B2 e).
Proof.
  intros e st win pos tsn I OK NE WA.
  assert (W : 0 < length win) by (destruct win; [congruence|simpl; lia]).
  pose proof (win_good _ _ _ _ _ I WA W) as VO.
  unfold create_static_structure. rewrite !(with_epoch_eq C _ _ _ _ _ _ I).
  apply le_bind; [|intros; apply le_refl]. unfold static_on.
  assert (F : Forall (fun l => Forall ok (lv_shards l)) (rev (st_levels st))).
  { apply Forall_rev, Forall_forall. intros l Hl. apply In_nth_error in Hl as [i Hi].
    apply Forall_forall. intros x Hx. rewrite Forall_forall in OK. apply OK. eapply lv_in_age; eauto. }
  apply le_bind; [apply a_combined; auto|]. intros ss E.
  rewrite bview_count by auto. destruct (Nat.ltb_spec 0 (length win)); [|lia].
  apply le_bind.
  - apply le_bind; [|intros; apply le_refl]. apply HV; auto.
  - intros bs Eb. mon Eb. inv Eb. apply HS.
    + intro Q. apply app_eq_nil in Q as [_ Q]. discriminate.
    + apply Forall_app. split; [eapply combined_ok; eauto|]. constructor; auto.
      eapply VK; eauto.
Qed.

End Agree.

(** ** PGM and TrieSpline *)

Section Learned.
Context {R : Type} {RO : RecOps R} {RL : RecLaws R} {KO : KeyOps R} {KL : KeyLaws R}.
Variable qlt : qorder R.
Context {QO : QOrder qlt}.

Lemma pgm_view_le1 : forall d v, le (from_view (pgm_shards qlt) d v) (from_view (qlt : builders R) d v).
Proof.
  intros d v s H. simpl in *. mon H. inv H. destruct (v_copy d v) as [l|] eqn:EV.
  - destruct (pgm_view d v l EV) as (p & E1 & E2 & _). congruence.
  - unfold pgm_from_view in E. rewrite EV in E. discriminate.
Qed.
Lemma pgm_view_le2 : forall d v, le (from_view (qlt : builders R) d v) (from_view (pgm_shards qlt) d v).
Proof.
  intros d v s H. simpl in *. destruct (v_copy d v) as [l|] eqn:EV.
  - destruct (pgm_view d v l EV) as (p & E1 & E2 & _). rewrite E1. simpl. congruence.
  - unfold shard_from_view, sorted_array_from_view in H. rewrite EV in H. discriminate.
Qed.
Lemma pgm_merge_le1 : forall ss, le (from_shards (pgm_shards qlt) ss) (from_shards (qlt : builders R) ss).
Proof.
  intros ss s H. simpl in *. pose proof (pgm_merge_eq qlt ss) as K.
  destruct (shard_from_shards qlt ss); [destruct K as (ks & K & _)|]; rewrite K in H; simpl in H; congruence.
Qed.
Lemma pgm_merge_le2 : forall ss, le (from_shards (qlt : builders R) ss) (from_shards (pgm_shards qlt) ss).
Proof.
  intros ss s H. simpl in *. pose proof (pgm_merge_eq qlt ss) as K. rewrite H in K.
  destruct K as (ks & K & _). rewrite K. auto.
Qed.

Theorem pgm_history : forall C ops e rs,
  run_new (pgm_shards qlt) C ops = Ok (e, rs) <-> run_new (qlt : builders R) C ops = Ok (e, rs).
Proof.
  intros. split; apply r_run_new; auto using pgm_view_le1, pgm_view_le2, pgm_merge_le1, pgm_merge_le2.
Qed.
Theorem pgm_static : forall e e' s,
  create_static_structure (pgm_shards qlt) e = Ok (e', s) <-> create_static_structure (qlt : builders R) e = Ok (e', s).
Proof.
  intros. split; apply r_static; auto using pgm_view_le1, pgm_view_le2, pgm_merge_le1, pgm_merge_le2.
Qed.

Lemma sp_map : forall ss : list (shard R), map sp_shard (map sp_of ss) = ss.
Proof. intros. rewrite map_map. apply map_id. Qed.

Lemma ts_view_le1 : forall d v, le (from_view (spline_shards qlt) d v) (from_view (qlt : builders R) d v).
Proof.
  intros d v s H. simpl in *. mon H. destruct a as [t b]. inv H. apply ts_view_refines in E. auto.
Qed.
Lemma ts_merge_le1 : forall ss, le (from_shards (spline_shards qlt) ss) (from_shards (qlt : builders R) ss).
Proof.
  intros ss s H. simpl in *. mon H. destruct a as [t b]. inv H. apply ts_merge_refines in E.
  rewrite sp_map in E. auto.
Qed.
Lemma ts_view_le2 : forall d v, vgood (fun _ => True) d v ->
  le (from_view (qlt : builders R) d v) (from_view (spline_shards qlt) d v).
Proof.
  intros d v (VO & VC & _) s H. simpl in *. destruct (ts_view d v VO VC) as (t & b & s' & E1 & E2 & E3 & _).
  rewrite E1. simpl. congruence.
Qed.
Lemma ts_merge_le2 : forall ss, ss <> [] -> Forall shard_ok ss ->
  le (from_shards (qlt : builders R) ss) (from_shards (spline_shards qlt) ss).
Proof.
  intros ss NE F s H. simpl in *.
  destruct (ts_merge qlt (map sp_of ss) s) as (t & b & E1 & E2 & _).
  - intro Q. apply map_eq_nil in Q. auto.
  - apply Forall_map. eapply Forall_impl; [|exact F]. intros a (_ & _ & A). apply of_exact. auto.
  - rewrite sp_map. auto.
  - rewrite sp_map. auto.
  - rewrite E1. simpl. congruence.
Qed.

Lemma sorted_view_ok : forall d v s, vgood (fun _ => True) d v -> from_view (qlt : builders R) d v = Ok s -> shard_ok s.
Proof. intros d v s (VO & _) H. exact (proj1 (view_ok _ _ _ VO H)). Qed.
Lemma sorted_merge_ok : forall ss s, ss <> [] -> Forall shard_ok ss -> from_shards (qlt : builders R) ss = Ok s -> shard_ok s.
Proof. intros ss s _ F H. exact (shards_ok _ _ H F). Qed.

Theorem spline_refines : forall C ops, le (run_new (spline_shards qlt) C ops) (run_new (qlt : builders R) C ops).
Proof. intros. apply r_run_new; auto using ts_view_le1, ts_merge_le1. Qed.
Theorem spline_static_refines : forall e,
  le (create_static_structure (spline_shards qlt) e) (create_static_structure (qlt : builders R) e).
Proof. intros. apply r_static; auto using ts_view_le1, ts_merge_le1. Qed.

Theorem spline_history : forall C ops, valid_cfg C ->
  le (run_new (qlt : builders R) C ops) (run_new (spline_shards qlt) C ops).
Proof.
  intros C ops V. pose proof V as (LW & WM & SF & _).
  unfold run_new. apply le_bind; [apply le_refl|]. intros e0 E.
  assert (N : run_new (qlt : builders R) C [] = Ok (e0, [])) by (unfold run_new; rewrite E; auto). clear E.
  assert (K : forall ops pre rs0 e, run_new (qlt : builders R) C pre = Ok (e, rs0) ->
    le (run (qlt : builders R) C e ops) (run (spline_shards qlt) C e ops)).
  { clear ops e0 N. induction ops; intros pre rs0 e Rp; simpl; [apply le_refl|].
    destruct (run_any qlt C V _ _ _ Rp) as (st & win & pos & tsn & k & [I SH OK _ _ _ _ _ _ _ _ _]).
    apply le_bind.
    - eapply (a_step (qlt : builders R) (spline_shards qlt) C shard_ok (fun _ => True));
        eauto using ts_view_le2, ts_merge_le2, sorted_view_ok, sorted_merge_ok.
    - intros [e1 n] E. apply le_bind; [|intros; apply le_refl].
      eapply (IHops (pre ++ [a])). eapply run_new_snoc; eauto. }
  eapply (K ops []). exact N.
Qed.

Theorem spline_inserts : forall C ops, valid_cfg C -> insert_only ops ->
  exists e, run_new (spline_shards qlt) C ops = Ok (e, repeat 1 (length ops)) /\
    run_new (qlt : builders R) C ops = Ok (e, repeat 1 (length ops)).
Proof.
  intros C ops V IO. assert (AP : Forall (appends C) ops).
  { apply Forall_forall. intros o Ho. destruct (IO o Ho) as [r ->]. right. auto. }
  destruct (run_ok qlt C V ops AP (insert_only_blocks C V ops IO)) as [e E].
  exists e. split; auto. apply spline_history; auto.
Qed.

Theorem spline_static : forall C ops e rs, valid_cfg C -> Exists (appends C) ops ->
  run_new (qlt : builders R) C ops = Ok (e, rs) ->
  le (create_static_structure (qlt : builders R) e) (create_static_structure (spline_shards qlt) e).
Proof.
  intros C ops e rs V NE Rn. pose proof V as (LW & WM & SF & _).
  destruct (run_any qlt C V _ _ _ Rn) as (st & win & pos & tsn & k & [I _ OK _ _ _ _ _ _ _ SM _]).
  eapply (a_static (qlt : builders R) (spline_shards qlt) C shard_ok (fun _ => True));
    eauto using ts_view_le2, ts_merge_le2, sorted_view_ok, sorted_merge_ok.
  intro Q. specialize (SM Q). apply Exists_exists in NE as (o & Ho & A).
  apply in_split in Ho as (l1 & l2 & ->). unfold applog in SM. rewrite flat_map_app in SM.
  apply app_eq_nil in SM as [_ SM]. simpl in SM. apply app_eq_nil in SM as [SM _].
  destruct o; [discriminate|]. destruct A as [A|A]; [rewrite A in SM|]; discriminate.
Qed.
End Learned.

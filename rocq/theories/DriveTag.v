(** Filling an index with tagging deletes. *)
From Coq Require Import List Arith ZArith NArith Lia Bool Permutation Sorted.
From Verif Require Import Base ListLemmas RecordModel RecordProofs BufferModel BufferProofs
  MergeModel MergeProofs StructModel ExtModel StructProofs StructTotal SortedProofs ExtProofs ContentProofs
  TagProofs ExecProofs LevelProofs QueryModel Spec QueryProofs SerialProofs TagContent SizeProofs CountProofs BsmProofs
  DriveModel DriveSpec DriveProofs.
Import ListNotations.

Section DT.
Context {R : Type} {RO : RecOps R} {RL : RecLaws R}.
Variable qlt : qorder R.
Context {QO : QOrder qlt}.
Variable C : cfg.
Hypothesis V : valid_cfg C.

(** Every erase of a history erases a live record. *)
Definition erases_live (ops : list (op R)) : Prop :=
  forall pre r post, ops = pre ++ Del r :: post -> exists x, In x (live pre) /\ req r x = true.

Lemma exec_ones : forall full ops rs st win pos tsn,
  c_del C = TAGGING -> distinct_inserts full -> erases_live full ->
  exec qlt C ops rs st win pos tsn -> forall post, full = ops ++ post -> rs = repeat 1 (length ops).
Proof.
  intros full ops rs st win pos tsn TG D EL H.
  assert (K : forall (ops : list (op R)) o rs, rs = repeat 1 (length ops) -> rs ++ [1] = repeat 1 (length (ops ++ [o]))).
  { intros ops' o rs' ->. rewrite app_length, repeat_app. auto. }
  induction H; intros post E; auto; try (apply K; eapply IHexec; rewrite <- app_assoc in E; eauto; fail).
  exfalso. rewrite <- app_assoc in E. simpl in E.
  destruct (EL ops r post E) as (x & IX & RX).
  pose proof (exec_live qlt C V full _ _ _ _ _ _ TG D H _ E) as P.
  apply (Permutation_in x (Permutation_sym P)) in IX. unfold lv in IX.
  apply in_map_iff in IX as (z & <- & Hz). apply filter_In in Hz as [Hz _]. unfold cont in Hz.
  rewrite req_sym in RX.
  apply in_app_iff in Hz as [Hz|Hz]; [rewrite (miss_age _ _ H1 z Hz) in RX|rewrite (H2 z Hz) in RX]; discriminate.
Qed.

Lemma never_erased_live : forall (ops : list (op R)) x, In x (inserted ops) -> n_del x ops = 0 -> In x (live ops).
Proof.
  intros ops. induction ops as [|o ops IH] using rev_ind; intros x I N; [destruct I|].
  unfold inserted in I. rewrite flat_map_app in I. fold (inserted ops) in I.
  unfold n_del in N. rewrite countb_app in N. fold (n_del x ops) in N.
  rewrite live_app. destruct o as [r|r]; simpl in *.
  - apply in_app_iff in I as [I|I]; apply in_app_iff; [left; apply IH; auto; lia|right; auto].
  - rewrite app_nil_r in I. apply filter_In. split; [apply IH; auto; lia|].
    rewrite req_sym. destruct (req x r); auto. lia.
Qed.

Lemma n_del_erased : forall x (ops : list (op R)), n_del x ops = countb (req x) (erased ops).
Proof. intros x. induction ops as [|[r|r] ops IH]; simpl; auto. unfold n_del in *. simpl. f_equal. auto. Qed.

(** The records at different positions are erased. *)
Lemma erased_once : forall recs js (ops : list (op R)) pre r post, all_different recs -> NoDup js ->
  map Some (erased ops) = map (nth_error recs) js -> ops = pre ++ Del r :: post -> n_del r pre = 0.
Proof.
  intros recs js ops pre r post AD ND M ->. rewrite n_del_erased.
  unfold erased in M. rewrite flat_map_app in M. fold (erased pre) in M. cbn [flat_map app] in M. fold (erased post) in M.
  rewrite map_app in M. symmetry in M. apply map_eq_app in M as (j1 & j2 & -> & M1 & M2).
  cbn [map] in M2. destruct j2 as [|j j2]; [discriminate|]. cbn [map] in M2. injection M2 as M2 _.
  destruct (Nat.eq_dec (countb (req r) (erased pre)) 0) as [|NZ]; auto. exfalso.
  assert (P : 0 < countb (req r) (erased pre)) by lia. apply countb_pos in P as (x & IX & RX).
  apply (in_map Some) in IX. rewrite <- M1 in IX. apply in_map_iff in IX as (i & NI & II).
  pose proof (AD j i r x M2 NI RX) as ->. apply NoDup_remove_2 in ND. apply ND. apply in_app_iff. auto.
Qed.

Lemma different_count : forall recs r, all_different recs -> countb (req r) recs <= 1.
Proof.
  induction recs as [|a recs IH]; intros r AD; simpl; [lia|].
  assert (AD' : all_different recs).
  { intros i j x y H1 H2 Q. specialize (AD (S i) (S j) x y H1 H2 Q). lia. }
  specialize (IH r AD'). destruct (req r a) eqn:E; [|lia].
  destruct (Nat.eq_dec (countb (req r) recs) 0) as [->|NZ]; [lia|]. exfalso.
  assert (P : 0 < countb (req r) recs) by lia. apply countb_pos in P as (x & IX & RX).
  apply In_nth_error in IX as (i & NI). rewrite req_sym in E.
  specialize (AD 0 (S i) a x eq_refl NI (req_trans _ _ _ E RX)). lia.
Qed.

Lemma different_slice : forall recs i n, all_different recs -> all_different (slice i n recs).
Proof.
  intros recs i n AD a b x y H1 H2 Q. unfold slice in *.
  assert (K : forall k z, nth_error (firstn n (skipn i recs)) k = Some z -> nth_error recs (i + k) = Some z).
  { intros k z H. rewrite <- nth_error_skipn. revert H. generalize (skipn i recs). clear.
    revert n. induction k; intros [|n] [|y l] H; try discriminate; simpl in *; auto. apply (IHk n). auto. }
  specialize (AD (i + a) (i + b) x y (K _ _ H1) (K _ _ H2) Q). lia.
Qed.

Lemma nodup_slice : forall i n (l : list nat), NoDup l -> NoDup (slice i n l).
Proof.
  intros i n l ND. unfold slice.
  assert (L : forall a b : list nat, NoDup (a ++ b) -> NoDup b).
  { induction a; simpl; auto. intros b H. inversion H; auto. }
  assert (F : forall m (a : list nat), NoDup a -> NoDup (firstn m a)).
  { induction m; intros [|x a] H; simpl; try constructor; inversion H; subst; auto.
    intros I. apply H2. rewrite <- (firstn_skipn m a). apply in_app_iff. auto. }
  apply F. rewrite <- (firstn_skipn i l) in ND. eapply L; eauto.
Qed.

Theorem tagging_ones : forall ops e rs, c_del C = TAGGING -> bsm_safe qlt C ops -> distinct_inserts ops ->
  erases_live ops -> run_new qlt C ops = Ok (e, rs) -> rs = repeat 1 (length ops).
Proof.
  intros ops e rs TG B D EL H. destruct (run_state qlt C V _ _ _ B H) as (st & win & pos & tsn & _ & _ & X).
  eapply (exec_ones ops ops rs st win pos tsn TG D EL X []). rewrite app_nil_r. auto.
Qed.

Local Lemma LW : 1 <= c_lwm C. Proof. destruct V as (? & ? & ? & ?). auto. Qed.
Local Lemma WM : c_lwm C <= c_hwm C. Proof. destruct V as (? & ? & ? & ?). auto. Qed.
Local Lemma SF : 1 <= c_sf C. Proof. destruct V as (? & ? & ? & ?). auto. Qed.

(** [tagging_runs_ok] of CountProofs.v for records without keys. *)
Theorem tag_run_ok : forall ops, c_del C = TAGGING -> survivors (c_lwm C) ops ->
  exists e rs, run_new qlt C ops = Ok (e, rs).
Proof.
  intros ops TG SV.
  assert (K : forall ops' pre e rs0 st win pos tsn, einv C e st win pos tsn -> sinv C shard_ok st ->
    exec qlt C pre rs0 st win pos tsn -> ops = pre ++ ops' ->
    exists e' rs, run qlt C e ops' = Ok (e', rs)).
  { induction ops' as [|o ops' IH]; intros pre e rs0 st win pos tsn I S X E; simpl; eauto.
    pose proof (exec_tagged qlt C V ops _ _ _ _ _ _ TG X _ E) as T.
    assert (NE : Forall nonempty (age st)).
    { eapply Forall_impl; [|apply (tg_shards _ _ _ _ _ _ T SV)]. apply kept_nonempty. }
    assert (ST : exists e1 n, step qlt C e o = Ok (e1, n)).
    { destruct o as [r|r].
      - destruct (append_total qlt C SF LW WM e st win pos tsn r false I S) as (e1 & A).
        + intros L. split; auto. intros s _ ES. rewrite built_sorted in ES.
          apply (kept_nonempty ops). eapply kept_flush; eauto.
        + simpl. unfold insert. eauto.
      - destruct (erase_step qlt C SF LW WM e st win pos tsn r I S TG) as (e1 & n & _ & _ & A & _).
        simpl. eauto. }
    destruct ST as (e1 & n & ST). rewrite ST. simpl.
    destruct (exec_step qlt C SF LW WM _ _ _ _ _ _ _ _ _ _ I S X (fun _ => NE) ST)
      as (st1 & win1 & pos1 & tsn1 & I1 & S1 & X1).
    destruct (IH (pre ++ [o]) _ _ _ _ _ _ I1 S1 X1) as (e' & rs & ->).
    - rewrite <- app_assoc. auto.
    - simpl. eauto. }
  destruct (new_total (R := R) C SF LW WM (proj2 (proj2 (proj2 V)))) as [e0 E0].
  pose proof (new_einv C SF LW WM _ E0) as I0.
  destruct (K ops [] _ _ _ _ _ _ I0 (empty_sinv C) (x_nil qlt C) eq_refl) as (e & rs & RN).
  exists e, rs. unfold run_new. rewrite E0. simpl. auto.
Qed.

End DT.

Section DT2.
Context {R : Type} {RO : RecOps R} {RL : RecLaws R}.
Variable qlt : qorder R.
Context {QO : QOrder qlt}.

Theorem driver_tagging : forall C recs dels coin stop di c fuel e0, valid_cfg C -> c_del C = TAGGING ->
  all_different recs -> NoDup dels ->
  stop <= length recs -> di + countb coin (seq c stop) <= length dels -> 0 < fuel -> ext_new C = Ok e0 ->
  exists ops d', inserted ops = firstn stop recs /\
    map Some (erased ops) = map (nth_error recs) (slice di (d' - di) dels) /\
    erases_present [] ops /\
    (survivors (c_lwm C) ops ->
     exists e, insert_records qlt C recs dels true coin fuel 0 stop di c e0 = Ok (e, d') /\
       run_new qlt C ops = Ok (e, repeat 1 (length ops)) /\
       Permutation (map wrec (filter (fun w => negb (is_del w)) (stored e))) (live ops)).
Proof.
  intros C recs dels coin stop di c fuel e0 V TG AD ND L LD FU N0.
  destruct (driver_calls qlt C recs dels true coin 0 stop di c ltac:(lia) ltac:(rewrite Nat.sub_0_r; auto))
    as (ops & d' & I & _ & ER & _ & EP & _ & K).
  exists ops, d'. rewrite Nat.sub_0_r in I. split; auto. split; auto. split; auto. intros SV.
  assert (D : distinct_inserts ops).
  { intros r. rewrite n_ins_inserted, I. apply different_count, different_slice; auto. }
  assert (EL : erases_live ops).
  { intros pre r post E. exists r. split; [|apply req_refl]. apply never_erased_live; [apply (EP pre r post E)|].
    eapply erased_once; [exact AD| |exact ER|exact E]. apply nodup_slice. auto. }
  assert (B : bsm_safe qlt C ops) by (intros _; apply (few_never_empty qlt C V); right; right; auto).
  destruct (tag_run_ok qlt C V ops TG SV) as (e & rs & RN).
  pose proof (tagging_ones qlt C V ops e rs TG B D EL RN) as ->.
  exists e. destruct (K fuel e0 FU) as (K1 & _).
  split; [eapply K1; [eapply from_new; eauto|apply all_ones]|]. split; auto.
  apply (tagging_live qlt C V ops e _ TG B D RN).
Qed.
End DT2.

(** Tombstone counts, tagging erases, and range counts. *)
From Coq Require Import List Arith ZArith NArith Lia Bool Permutation Sorted.
From Verif Require Import Base ListLemmas RecordModel RecordProofs BufferModel BufferProofs
  MergeModel MergeProofs StructModel ExtModel StructProofs StructTotal SortedProofs ExtProofs ContentProofs
  TagProofs ExecProofs LevelProofs QueryModel Spec QueryProofs SerialProofs TagContent SizeProofs.
Import ListNotations.

Section CP.
Context {R : Type} {RO : RecOps R} {RL : RecLaws R}.
Variable qlt : qorder R.
Context {QO : QOrder qlt}.
Variable C : cfg.
Hypothesis V : valid_cfg C.

Local Lemma LW : 1 <= c_lwm C. Proof. destruct V as (? & ? & ? & ?). auto. Qed.
Local Lemma WM : c_lwm C <= c_hwm C. Proof. destruct V as (? & ? & ? & ?). auto. Qed.
Local Lemma SF : 1 <= c_sf C. Proof. destruct V as (? & ? & ? & ?). auto. Qed.

Local Arguments set_nth : simpl never.
Local Arguments nth_error : simpl never.

Lemma run_state : forall ops e rs, bsm_safe qlt C ops -> run_new qlt C ops = Ok (e, rs) ->
  exists st win pos tsn, einv C e st win pos tsn /\ sinv C shard_ok st /\ exec qlt C ops rs st win pos tsn.
Proof. intros. apply (run_exec qlt C SF LW WM); auto. apply safe_fine. auto. Qed.

(** ** Tombstone counts *)

Lemma exec_tsn : forall ops rs st win pos tsn, exec qlt C ops rs st win pos tsn ->
  tsn = ts_appended C ops.
Proof.
  assert (A : forall o (r : R) ts ops tsn, appends C o -> oplog o = (r, ts) -> tsn = ts_appended C ops ->
     (if ts then S tsn else tsn) = ts_appended C (ops ++ [o])).
  { intros o r ts ops tsn AP E ->. unfold ts_appended, appends in *. rewrite countb_app.
    destruct (c_del C), o; simpl in *; inv E; try lia; auto. destruct AP; discriminate. }
  unfold ts_appended in *.
  induction 1; eauto; try (rewrite H0 in *; auto).
  destruct (c_del C); auto.
Qed.

Lemma countb_set_del : forall (l : list (wrapped R)) i w, nth_error l i = Some w ->
  countb is_ts (set_nth i (set_delete w) l) = countb is_ts l.
Proof.
  intros l i w H. destruct (set_nth_split i (set_delete w) w l H) as (a & b & -> & _ & ->).
  rewrite !countb_app. simpl. rewrite is_ts_set_delete. auto.
Qed.

Lemma exec_win_ts : forall ops rs st win pos tsn, exec qlt C ops rs st win pos tsn ->
  countb is_ts win <= tsn /\ (pos = 0 -> sdata (age st) = [] /\ countb is_ts win = tsn).
Proof.
  induction 1; simpl.
  - auto.
  - destruct IHexec as [I1 I2]. rewrite countb_app. simpl. rewrite append_rec_ts.
    split; [destruct ts; lia|]. intros P. destruct (I2 P) as [-> <-]. split; auto. destruct ts; lia.
  - destruct IHexec as [I1 I2]. rewrite append_rec_ts. split; [destruct ts; lia|].
    pose proof LW. lia.
  - destruct IHexec as [I1 I2]. split; auto. intros P. destruct (I2 P) as [E _].
    destruct (tag_perm _ _ _ H1) as (w & rest & _ & P1 & _). rewrite E in P1.
    apply Permutation_nil in P1. discriminate.
  - destruct H2 as (H2 & _). rewrite (countb_set_del _ _ _ H2). auto.
  - auto.
Qed.

Lemma shard_ts : forall e st win pos tsn p, einv C e st win pos tsn ->
  countb p (shard_records e) = countb p (sdata (age st)).
Proof.
  intros e st win pos tsn p I. destruct (stored_eq C V _ _ _ _ _ I) as [P E].
  apply (countb_perm p) in P. unfold stored in P. rewrite E, !countb_app in P. lia.
Qed.

(** ** Tagging erases *)

Lemma sym_req : forall a b : R, req a b = req b a.
Proof. intros. apply req_sym. Qed.

Lemma no_match_count : forall r (l : list (wrapped R)) p, no_match r l ->
  countb (fun w => req r (wrec w) && p w) l = 0.
Proof.
  intros r l p H. apply countb_false. intros w Hw. rewrite req_sym, (H w Hw). auto.
Qed.

Lemma n_live_perm : forall r (a b : list (wrapped R)), Permutation a b -> n_live r a = n_live r b.
Proof. intros. apply countb_perm. auto. Qed.
Lemma n_tagged_perm : forall r (a b : list (wrapped R)), Permutation a b -> n_tagged r a = n_tagged r b.
Proof. intros. apply countb_perm. auto. Qed.

(** What an erase changes, given that it tags [w]. *)
Lemma tag_counts : forall r (w : wrapped R) rest before after,
  req (wrec w) r = true -> is_ts w = false -> Permutation before (w :: rest) ->
  Permutation after (set_delete w :: rest) ->
  (forall x, req x r = false -> n_live x after = n_live x before) /\
  (exists i, i <= 1 /\ (forall x, req x r = true -> n_live x before = n_live x after + i) /\
     (n_tagged r before = 0 -> i = 1)).
Proof.
  intros r w rest before after RQ PL P1 P2. split.
  - intros x NX. rewrite (n_live_perm _ _ _ P1), (n_live_perm _ _ _ P2). unfold n_live. simpl.
    rewrite (req_congr_r _ _ x RQ), NX. auto.
  - exists (if is_del w then 0 else 1). split; [destruct (is_del w); lia|]. split.
    + intros x RX. rewrite (n_live_perm _ _ _ P1), (n_live_perm _ _ _ P2). unfold n_live. simpl.
      rewrite is_ts_set_delete, is_del_set_delete, PL, (req_congr_r _ _ x RQ), RX.
      simpl. destruct (is_del w); simpl; lia.
    + rewrite (n_tagged_perm _ _ _ P1). unfold n_tagged. simpl.
      rewrite sym_req, RQ. simpl. destruct (is_del w); simpl; [lia|auto].
Qed.

Lemma plain_stored : forall e st win pos tsn, einv C e st win pos tsn ->
  Permutation (stored e) (cont st win).
Proof. intros. apply (stored_eq C V _ _ _ _ _ H). Qed.

Lemma erase_tagging : forall (ops : list (op R)) e st win pos tsn r, c_del C = TAGGING ->
  einv C e st win pos tsn -> Forall plain (cont st win) -> (inserted ops <> [] -> win <> []) ->
  exists e' n, erase qlt C e r = Ok (e', n) /\
    (0 < n_live r (stored e) -> n = 1) /\
    (n = 0 -> n_live r (stored e) = 0 /\ n_tagged r (stored e) = 0) /\
    (inserted ops <> [] -> n = 1 -> 0 < n_live r (stored e) + n_tagged r (stored e)) /\
    (forall x, req x r = false -> n_live x (stored e') = n_live x (stored e)) /\
    (exists i, i <= 1 /\ (forall x, req x r = true -> n_live x (stored e) = n_live x (stored e') + i) /\
       (inserted ops <> [] -> n_tagged r (stored e) = 0 -> i = n)).
Proof.
  intros ops e st win pos tsn r TG I tg_plain NW.
  pose proof (plain_stored _ _ _ _ _ I) as P0.
  destruct (erase_any qlt C SF LW WM e st win pos tsn r I TG) as (e' & n & st' & win' & E & I' & K).
  pose proof (plain_stored _ _ _ _ _ I') as P1.
  exists e', n. split; auto.
  assert (HIT : forall w rest, n = 1 -> req (wrec w) r = true -> Permutation (cont st win) (w :: rest) ->
    Permutation (cont st' win') (set_delete w :: rest) ->
    (0 < n_live r (stored e) -> n = 1) /\
    (n = 0 -> n_live r (stored e) = 0 /\ n_tagged r (stored e) = 0) /\
    (inserted ops <> [] -> n = 1 -> 0 < n_live r (stored e) + n_tagged r (stored e)) /\
    (forall x, req x r = false -> n_live x (stored e') = n_live x (stored e)) /\
    (exists i, i <= 1 /\ (forall x, req x r = true -> n_live x (stored e) = n_live x (stored e') + i) /\
       (inserted ops <> [] -> n_tagged r (stored e) = 0 -> i = n))).
  { intros w rest N RQ Q1 Q2.
    assert (PW : is_ts w = false).
    { rewrite Forall_forall in tg_plain. apply tg_plain. apply (Permutation_in _ (Permutation_sym Q1)).
      simpl; auto. }
    destruct (tag_counts r w rest (stored e) (stored e') RQ PW) as (T1 & i & T2 & T3 & T4).
    { eapply Permutation_trans; eauto. }
    { eapply Permutation_trans; eauto. }
    split; [auto|]. split; [lia|]. split; [|split; [auto|]].
    - intros _ _. rewrite (n_live_perm r _ _ (Permutation_trans P0 Q1)).
      rewrite (n_tagged_perm r _ _ (Permutation_trans P0 Q1)). unfold n_live, n_tagged. simpl.
      rewrite sym_req, RQ, PW. simpl. destruct (is_del w); simpl; lia.
    - exists i. split; auto. split; auto. intros _ Z. rewrite N. auto. }
  destruct K as [(K1 & -> & K2)|[(K1 & -> & K2 & i & w & K3 & ->)|(K1 & -> & -> & K3 & K4 & K5)]].
  - destruct (tag_perm _ _ _ K1) as (w & rest & RQ & Q1 & Q2).
    apply (HIT w (rest ++ win)); auto; unfold cont.
    + rewrite Q1. auto.
    + rewrite Q2. auto.
  - destruct K3 as (M1 & M2 & _). destruct (set_one _ _ _ M1) as (rest & Q1 & Q2).
    apply (HIT w (sdata (age st) ++ rest)); auto; unfold cont.
    + rewrite Q1. symmetry. apply Permutation_cons_app. auto.
    + rewrite Q2. symmetry. apply Permutation_cons_app. auto.
  - assert (NM : no_match r (cont st win)).
    { intros w Hw. unfold cont in Hw. apply in_app_iff in Hw as [Hw|Hw]; [|auto].
      eapply miss_age; eauto. }
    assert (Z : n_live r (stored e) = 0 /\ n_tagged r (stored e) = 0).
    { rewrite (n_live_perm _ _ _ P0), (n_tagged_perm _ _ _ P0). split.
      - unfold n_live. erewrite countb_ext; [apply (no_match_count r _ (fun w => negb (is_ts w) && negb (is_del w)) NM)|].
        intros. cbv beta. rewrite andb_assoc. auto.
      - apply (no_match_count r _ is_del NM). }
    assert (SAME : forall x, n_live x (stored e') = n_live x (stored e)).
    { intros. rewrite (n_live_perm x _ _ P0), (n_live_perm x _ _ P1). auto. }
    split; [lia|]. split; [auto|]. split; [|split; [auto|]].
    + intros NI N1. rewrite (K4 (NW NI)) in N1. discriminate.
    + exists 0. split; [lia|]. split; [intros; rewrite SAME; lia|].
      intros NI _. rewrite (K4 (NW NI)). auto.
Qed.

(** ** Contents of histories without re-insertion *)

Lemma live_app : forall (ops : list (op R)) o, live (ops ++ [o]) =
  match o with Ins r => live ops ++ [r] | Del r => filter (fun x => negb (req r x)) (live ops) end.
Proof. intros. unfold live. rewrite fold_left_app. auto. Qed.

Definition unique (l : list R) : Prop := forall r, countb (req r) l <= 1.

Lemma n_ins_inserted : forall r (ops : list (op R)), n_ins r ops = countb (req r) (inserted ops).
Proof.
  intros. unfold n_ins, inserted. induction ops as [|[x|x] ops IH]; simpl; auto.
Qed.

(** Every stored copy was inserted. *)
Lemma exec_inserted : forall full ops rs st win pos tsn,
  c_del C = TAGGING ->
  exec qlt C ops rs st win pos tsn -> forall post, full = ops ++ post ->
  exists x, Permutation (inserted ops) (map wrec (cont st win) ++ x).
Proof.
  intros full ops rs st win pos tsn TG H. induction H; intros post E.
  - exists []. simpl. auto.
  - rewrite <- app_assoc in E. destruct (IHexec _ E) as (x & P).
    destruct (tagging_ins C _ _ _ TG H0 H1) as [-> ->]. exists x.
    rewrite inserted_app, P. simpl. unfold cont. rewrite !map_app. simpl.
    rewrite <- !app_assoc. apply Permutation_app_head. apply Permutation_app_head. 
    apply Permutation_app_comm.
  - rewrite <- app_assoc in E. destruct (IHexec _ E) as (x & P).
    destruct (tagging_ins C _ _ _ TG H0 H1) as [-> ->].
    pose proof (exec_tagged qlt C V full _ _ _ _ _ _ TG H _ E) as T. destruct T.
    destruct (sinv_flush qlt C V _ _ _ _ _ _ _ tg_sinv H3 H4 H5 H7 H6) as [S1 SS].
    destruct (flush_sheds qlt _ _ _ _ tg_plain H5 SS) as [(y & PY & _) _].
    apply (Permutation_map (fun t => fst (fst t))) in PY. rewrite map_app, !map_map in PY.
    exists (map (fun t => fst (fst t)) y ++ x). rewrite inserted_app. simpl.
    unfold cont in *. rewrite map_app. simpl.
    rewrite P. change (fun x => fst (fst (bare x))) with (@wrec R) in PY. rewrite PY.
    rewrite <- !app_assoc. apply Permutation_app_head. rewrite app_assoc. symmetry.
    apply (Permutation_cons_append).
  - rewrite <- app_assoc in E. destruct (IHexec _ E) as (x & P). exists x.
    rewrite inserted_app, app_nil_r, P. apply Permutation_app_tail. unfold cont. rewrite !map_app.
    apply Permutation_app_tail. destruct (tag_perm _ _ _ H1) as (w & rest & _ & P1 & P2).
    rewrite P1, P2. auto.
  - rewrite <- app_assoc in E. destruct (IHexec _ E) as (x & P). exists x.
    rewrite inserted_app, app_nil_r, P. apply Permutation_app_tail. unfold cont. rewrite !map_app.
    apply Permutation_app_head. destruct H2 as (M1 & _). destruct (set_one _ _ _ M1) as (rest & P1 & P2).
    rewrite P2, P1. auto.
  - rewrite <- app_assoc in E. destruct (IHexec _ E) as (x & P). exists x.
    rewrite inserted_app, app_nil_r. auto.
Qed.

Definition lv (l : list (wrapped R)) : list R := map wrec (filter keep l).

Lemma lv_perm : forall a b, Permutation a b -> Permutation (lv a) (lv b).
Proof. intros. apply Permutation_map, Permutation_filter. auto. Qed.

Lemma lv_app : forall a b, lv (a ++ b) = lv a ++ lv b.
Proof. intros. unfold lv. rewrite filter_app, map_app. auto. Qed.

Lemma bare_lv : forall a b, bsheds (map bare a) (map bare b) -> Permutation (lv a) (lv b).
Proof.
  intros a b (x & P & F).
  assert (K : forall l : list (wrapped R), lv l = map (fun t => fst (fst t)) (filter (fun t => negb (snd t)) (map bare l))).
  { induction l; simpl; auto. unfold lv in *. simpl. unfold keep. unfold bare at 1. simpl.
    destruct (is_del a0); simpl; auto. f_equal. auto. }
  rewrite !K. apply Permutation_map. rewrite (Permutation_filter _ _ _ P), filter_app.
  rewrite (filter_none _ x), app_nil_r; auto.
  intros t Ht. rewrite Forall_forall in F. rewrite (F t Ht). auto.
Qed.

Lemma filter_lv_tag : forall r (w : wrapped R) rest, req (wrec w) r = true ->
  (forall x, In x rest -> req (wrec x) r = false) ->
  lv (set_delete w :: rest) = filter (fun x => negb (req r x)) (lv (w :: rest)).
Proof.
  intros r w rest RQ N. unfold lv. simpl. unfold keep at 1. rewrite is_del_set_delete. simpl.
  assert (K : filter (fun x => negb (req r x)) (map wrec (filter keep rest)) = map wrec (filter keep rest)).
  { apply filter_all. intros x Hx. apply in_map_iff in Hx as (y & <- & Hy).
    apply filter_In in Hy as [Hy _]. rewrite sym_req, (N y Hy). auto. }
  destruct (keep w); simpl; [|auto]. rewrite (sym_req r), RQ. simpl. auto.
Qed.

Lemma unique_rest : forall r (w : wrapped R) rest x ops, distinct_inserts ops ->
  Permutation (inserted ops) (map wrec (w :: rest) ++ x) -> req (wrec w) r = true ->
  forall y, In y rest -> req (wrec y) r = false.
Proof.
  intros r w rest x ops D P RQ y Hy. destruct (req (wrec y) r) eqn:E; auto. exfalso.
  specialize (D r). rewrite n_ins_inserted, (countb_perm _ _ _ P), countb_app in D. simpl in D.
  rewrite (sym_req r), RQ in D.
  assert (0 < countb (req r) (map wrec rest)); [|lia].
  apply countb_pos. exists (wrec y). split; [apply in_map; auto|]. rewrite sym_req. auto.
Qed.

Lemma distinct_prefix : forall a b : list (op R), distinct_inserts (a ++ b) -> distinct_inserts a.
Proof.
  intros a b D r. specialize (D r). unfold n_ins in *. rewrite countb_app in D. lia.
Qed.

Lemma exec_live : forall full ops rs st win pos tsn,
  c_del C = TAGGING -> distinct_inserts full ->
  exec qlt C ops rs st win pos tsn -> forall post, full = ops ++ post ->
  Permutation (lv (cont st win)) (live ops).
Proof.
  intros full ops rs st win pos tsn TG D H. induction H; intros post E.
  - simpl. auto.
  - rewrite <- app_assoc in E. pose proof (IHexec _ E) as P.
    destruct (tagging_ins C _ _ _ TG H0 H1) as [-> ->]. rewrite live_app, <- P.
    unfold cont. rewrite app_assoc, lv_app. apply Permutation_app_head.
    unfold lv. simpl. unfold keep. rewrite append_rec_del. simpl. auto.
  - rewrite <- app_assoc in E. pose proof (IHexec _ E) as P.
    destruct (tagging_ins C _ _ _ TG H0 H1) as [-> ->].
    pose proof (exec_tagged qlt C V full _ _ _ _ _ _ TG H _ E) as T. destruct T.
    destruct (sinv_flush qlt C V _ _ _ _ _ _ _ tg_sinv H3 H4 H5 H7 H6) as [S1 SS].
    destruct (flush_sheds qlt _ _ _ _ tg_plain H5 SS) as [BS _].
    rewrite live_app, <- P, (bare_lv _ _ BS). unfold cont. rewrite lv_app.
    apply Permutation_app_head. unfold lv. simpl. unfold keep. rewrite append_rec_del. simpl. auto.
  - rewrite <- app_assoc in E. pose proof (IHexec _ E) as P.
    destruct (exec_inserted full _ _ _ _ _ _ TG H _ E) as (x & PX).
    destruct (tag_perm _ _ _ H1) as (w & rest & RQ & P1 & P2).
    rewrite live_app, <- (Permutation_filter _ _ _ P).
    assert (Q1 : Permutation (cont st win) (w :: rest ++ win)) by (unfold cont; rewrite P1; auto).
    assert (Q2 : Permutation (cont st' win) (set_delete w :: rest ++ win)) by (unfold cont; rewrite P2; auto).
    rewrite (lv_perm _ _ Q2). rewrite (Permutation_filter _ _ _ (lv_perm _ _ Q1)).
    rewrite <- filter_lv_tag; auto.
    eapply (unique_rest r w (rest ++ win) x ops); auto.
    + rewrite E in D. eapply distinct_prefix; eauto.
    + rewrite PX. apply Permutation_app_tail. apply Permutation_map. auto.
  - rewrite <- app_assoc in E. pose proof (IHexec _ E) as P.
    destruct (exec_inserted full _ _ _ _ _ _ TG H _ E) as (x & PX).
    destruct H2 as (M1 & RQ & _). destruct (set_one _ _ _ M1) as (rest & P1 & P2).
    rewrite live_app, <- (Permutation_filter _ _ _ P).
    assert (Q1 : Permutation (cont st win) (w :: sdata (age st) ++ rest)).
    { unfold cont; rewrite P1. symmetry. apply Permutation_cons_app. auto. }
    assert (Q2 : Permutation (cont st (set_nth i (set_delete w) win)) (set_delete w :: sdata (age st) ++ rest)).
    { unfold cont; rewrite P2. symmetry. apply Permutation_cons_app. auto. }
    rewrite (lv_perm _ _ Q2). rewrite (Permutation_filter _ _ _ (lv_perm _ _ Q1)).
    rewrite <- filter_lv_tag; auto.
    eapply (unique_rest r w (sdata (age st) ++ rest) x ops); auto.
    + rewrite E in D. eapply distinct_prefix; eauto.
    + rewrite PX. apply Permutation_app_tail. apply Permutation_map. auto.
  - rewrite <- app_assoc in E. pose proof (IHexec _ E) as P.
    rewrite live_app, <- (Permutation_filter _ _ _ P).
    rewrite filter_all; auto. intros y Hy. apply in_map_iff in Hy as (z & <- & Hz).
    apply filter_In in Hz as [Hz _]. unfold cont in Hz. rewrite sym_req.
    apply in_app_iff in Hz as [Hz|Hz]; [rewrite (miss_age _ _ H1 z Hz)|rewrite (H2 z Hz)]; auto.
Qed.

Theorem tagging_live : forall ops e rs, c_del C = TAGGING -> bsm_safe qlt C ops -> distinct_inserts ops ->
  run_new qlt C ops = Ok (e, rs) ->
  Permutation (map wrec (filter (fun w => negb (is_del w)) (stored e))) (live ops) /\
  Forall (fun w => is_ts w = false) (stored e).
Proof.
  intros ops e rs TG B D H. destruct (run_state _ _ _ B H) as (st & win & pos & tsn & I & S & X).
  pose proof (plain_stored _ _ _ _ _ I) as P0. split.
  - eapply Permutation_trans; [apply (lv_perm _ _ P0)|].
    apply (exec_live ops ops rs st win pos tsn TG D X []). rewrite app_nil_r. auto.
  - rewrite P0. apply (exec_tagged qlt C V ops ops rs st win pos tsn TG X []). rewrite app_nil_r. auto.
Qed.

(** A computable form of [distinct_inserts]. *)
Lemma distinct_bool : forall (ops : list (op R)),
  forallb (fun r => n_ins r ops <=? 1) (inserted ops) = true -> distinct_inserts ops.
Proof.
  intros ops H r. destruct (Nat.leb_spec (n_ins r ops) 1); auto. exfalso.
  assert (E : exists x, In x (inserted ops) /\ req r x = true).
  { rewrite n_ins_inserted in H0. apply countb_pos. lia. }
  destruct E as (x & Hx & RX). rewrite forallb_forall in H. specialize (H x Hx).
  apply Nat.leb_le in H. rewrite n_ins_inserted in *.
  rewrite (countb_ext (req r) (req x)) in H0; [lia|].
  intros y _. rewrite !(req_sym _ y). apply req_congr_r. auto.
Qed.

(** ** Range counts *)

Context {KO : KeyOps R} {KL : KeyLaws R}.
Variable lbf : list (wrapped R) -> Z -> res nat.
Hypothesis LB : lb_sound lbf.

Definition rcp (l u : Z) (w : wrapped R) : bool := key_in l u (wrec w) && negb (is_del w).

Lemma rc_count_filter : forall l u ws, rc_count (filter (inr l u) ws) =
  (countb (rcp l u) ws, countb (fun w => rcp l u w && is_ts w) ws).
Proof.
  intros. unfold rc_count. induction ws as [|w ws IH]; simpl; auto. inv IH.
  unfold rcp, inr, in_range, key_in in *. destruct (_ && (rkey (wrec w) <=? u)%Z); simpl; auto.
Qed.

Lemma rc_local_inv : forall l u s x, shard_ok s -> rc_local lbf l u s = Ok x ->
  x = [] /\ (forall w, In w (s_data s) -> (rkey (wrec w) < l)%Z) \/
  x = [rc_count (filter (inr l u) (s_data s))].
Proof.
  intros l u s x O H. unfold rc_local in H. mon H. destruct (s_data s) as [|w d] eqn:ED.
  - unfold local_slice in E. rewrite ED in E. mon E.
    destruct O as [O1 _]. rewrite ED in O1. simpl in O1. rewrite O1 in E.
    destruct (Nat.eqb_spec a0 0); inv E; inv H. left. split; auto. intros w [].
  - destruct (slice_ok lbf LB l u s O) as (o & E' & F & N).
    { unfold nonempty. rewrite ED. discriminate. }
    rewrite E in E'. inv E'. rewrite <- ED. destruct o as [y|].
    + right. inv H. auto.
    + left. inv H. split; auto. apply N. auto.
Qed.

Lemma rc_local_total : forall l u s, shard_ok s -> (exists w, In w (s_data s) /\ (l <= rkey (wrec w))%Z) ->
  rc_local lbf l u s = Ok [rc_count (filter (inr l u) (s_data s))].
Proof.
  intros l u s O (w & Hw & Kw).
  destruct (slice_ok lbf LB l u s O) as (o & E' & F & N).
  { unfold nonempty. intros Q. rewrite Q in Hw. destruct Hw. }
  unfold rc_local. rewrite E'. simpl. destruct o as [y|].
  - rewrite <- F. auto.
  - destruct N as [N _]. destruct (N eq_refl) as [N1 _]. specialize (N1 w Hw). lia.
Qed.

Lemma rc_combine_all : forall ps : list (nat * nat),
  rc_combine (map (fun p => [p]) ps) =
  Ok (sum_list (map fst ps) - (if sum_list (map fst ps) <? sum_list (map snd ps)
      then sum_list (map fst ps) else sum_list (map snd ps))).
Proof.
  intros. unfold rc_combine.
  assert (E : map_res (nth_res 0) (map (fun p : nat * nat => [p]) ps) = Ok ps).
  { induction ps; simpl; auto. rewrite IHps. auto. }
  rewrite E. auto.
Qed.

Lemma rc_combine_inv : forall rs n, rc_combine rs = Ok n ->
  Forall (fun r => r <> []) rs.
Proof.
  intros rs n H. unfold rc_combine in H. mon H. apply map_res_ok in E. clear H n.
  induction E; auto. constructor; auto. destruct x; [discriminate|congruence].
Qed.

Lemma sum_counts : forall p (xs : list (list (wrapped R))),
  sum_list (map (fun x => countb p x) xs) = countb p (concat xs).
Proof.
  induction xs; simpl; auto. rewrite countb_app, <- IHxs. auto.
Qed.

Lemma rc_value : forall l u (xs : list (list (wrapped R))),
  rc_combine (map (fun x => [rc_count (filter (inr l u) x)]) xs) =
  Ok (countb (fun w => rcp l u w && negb (is_ts w)) (concat xs)).
Proof.
  intros. rewrite <- (map_map (fun x => rc_count (filter (inr l u) x)) (fun p => [p])).
  rewrite rc_combine_all. do 1 f_equal.
  rewrite !map_map.
  rewrite (map_ext (fun x => fst (rc_count (filter (inr l u) x))) (fun x => countb (rcp l u) x))
    by (intros; rewrite rc_count_filter; auto).
  rewrite (map_ext (fun x => snd (rc_count (filter (inr l u) x)))
             (fun x => countb (fun w => rcp l u w && is_ts w) x))
    by (intros; rewrite rc_count_filter; auto).
  rewrite !sum_counts.
  assert (K : forall ws : list (wrapped R), countb (rcp l u) ws =
     countb (fun w => rcp l u w && is_ts w) ws + countb (fun w => rcp l u w && negb (is_ts w)) ws).
  { clear. induction ws; simpl; auto. rewrite IHws. destruct (rcp l u a), (is_ts a); simpl; lia. }
  rewrite K. destruct (Nat.ltb_spec (countb (fun w => rcp l u w && is_ts w) (concat xs) +
    countb (fun w => rcp l u w && negb (is_ts w)) (concat xs))
    (countb (fun w => rcp l u w && is_ts w) (concat xs))); lia.
Qed.

Lemma concat_query : forall (st : structure R) win,
  Permutation (concat (win :: map s_data (query_shards st))) (cont st win).
Proof.
  intros. simpl. unfold cont. rewrite Permutation_app_comm. apply Permutation_app_tail.
  unfold sdata. apply concat_perm. apply Permutation_map. apply query_shards_perm.
Qed.

Lemma range_count_inv : forall e st win pos tsn l u e' n, einv C e st win pos tsn -> Forall shard_ok (age st) ->
  range_count lbf e l u = Ok (e', n) -> e' = e /\ n = counted l u (stored e).
Proof.
  intros e st win pos tsn l u e' n I S H. unfold range_count, rc_on in H.
  rewrite (with_epoch_eq C _ _ _ _ _ _ I) in H.
  destruct (einv_records C SF LW WM _ _ _ _ _ I) as [VR _].
  unfold rc_local_buffer in H. rewrite VR in H. cbn [bind] in H. mon H. mon E. inv H. split; auto.
  assert (EA : a0 = map (fun x => [rc_count (filter (inr l u) x)]) (map s_data (query_shards st))).
  { pose proof (rc_combine_inv _ _ E) as NE. inv NE. apply map_res_ok in E0.
    assert (O : Forall shard_ok (query_shards st)).
    { rewrite (query_shards_perm st). auto. }
    clear -E0 O H2 LB KL RL. revert O. induction E0; intros O; simpl; auto. inv O. inv H2.
    f_equal; auto. destruct (rc_local_inv _ _ _ _ H3 H) as [(Q & _)|Q]; auto. congruence. }
  rewrite EA in E.
  change ([rc_count (filter (fun w => in_range l u (wrec w)) win)] ::
    map (fun x => [rc_count (filter (inr l u) x)]) (map s_data (query_shards st)))
    with (map (fun x => [rc_count (filter (inr l u) x)]) (win :: map s_data (query_shards st))) in E.
  rewrite rc_value in E. inv E. unfold counted.
  rewrite (countb_perm _ _ _ (concat_query st win)), (countb_perm _ _ _ (plain_stored _ _ _ _ _ I)).
  auto.
Qed.

Lemma range_count_total : forall e st win pos tsn l u, einv C e st win pos tsn -> Forall shard_ok (age st) ->
  Forall (fun s => exists w, In w (s_data s) /\ (l <= rkey (wrec w))%Z) (age st) ->
  range_count lbf e l u = Ok (e, counted l u (stored e)).
Proof.
  intros e st win pos tsn l u I S F. unfold range_count, rc_on.
  rewrite (with_epoch_eq C _ _ _ _ _ _ I).
  destruct (einv_records C SF LW WM _ _ _ _ _ I) as [VR _].
  unfold rc_local_buffer. rewrite VR. cbn [bind].
  rewrite (map_res_total _ (fun s => [rc_count (filter (inr l u) (s_data s))])).
  2:{ intros s Hs. assert (HA : In s (age st)) by (apply (Permutation_in _ (query_shards_perm st)); auto).
      apply rc_local_total.
      - rewrite Forall_forall in S. auto.
      - rewrite Forall_forall in F. auto. }
  cbn [bind].
  rewrite <- (map_map s_data (fun x => [rc_count (filter (inr l u) x)])).
  change ([rc_count (filter (fun w => in_range l u (wrec w)) win)] ::
    map (fun x => [rc_count (filter (inr l u) x)]) (map s_data (query_shards st)))
    with (map (fun x => [rc_count (filter (inr l u) x)]) (win :: map s_data (query_shards st))).
  rewrite rc_value. cbn [bind]. do 2 f_equal. unfold counted.
  rewrite (countb_perm _ _ _ (concat_query st win)), (countb_perm _ _ _ (plain_stored _ _ _ _ _ I)).
  auto.
Qed.

Theorem range_count_stored : forall ops e rs l u e' n, bsm_safe qlt C ops ->
  run_new qlt C ops = Ok (e, rs) -> range_count lbf e l u = Ok (e', n) ->
  e' = e /\ n = counted l u (stored e).
Proof.
  intros ops e rs l u e' n B H Q. destruct (run_state _ _ _ B H) as (st & win & pos & tsn & I & S & X).
  eapply range_count_inv; eauto. apply S.
Qed.

Lemma levels_age : forall e st win pos tsn s, einv C e st win pos tsn ->
  In s (age st) -> exists ls, In ls (levels_of e) /\ In (s_data s) ls.
Proof.
  intros e st win pos tsn s I H. rewrite (levels_of_eq C _ _ _ _ _ I). unfold age, AGE in H.
  apply in_concat in H as (ss & Hss & Hs). apply in_map_iff in Hss as (l & <- & Hl).
  rewrite <- in_rev in Hl. exists (map s_data (lv_shards l)). split; [|apply in_map; auto].
  apply in_map. unfold lvs. apply in_map. auto.
Qed.

Lemma counted_lv : forall l u ws, Forall (fun w => is_ts w = false) ws ->
  counted l u ws = length (filter (key_in l u) (map wrec (filter (fun w => negb (is_del w)) ws))).
Proof.
  intros l u ws F. unfold counted. induction F; simpl; auto. rewrite H, andb_true_r, IHF.
  destruct (is_del x); simpl; [rewrite andb_false_r; auto|].
  rewrite andb_true_r. destruct (key_in l u (wrec x)); auto.
Qed.

Theorem range_count_tagging : forall ops e rs l u e' n, c_del C = TAGGING -> bsm_safe qlt C ops ->
  distinct_inserts ops -> run_new qlt C ops = Ok (e, rs) -> range_count lbf e l u = Ok (e', n) ->
  n = length (filter (key_in l u) (live ops)).
Proof.
  intros ops e rs l u e' n TG B D H Q.
  destruct (range_count_stored _ _ _ _ _ _ _ B H Q) as [_ ->].
  destruct (tagging_live _ _ _ TG B D H) as [P F]. rewrite (counted_lv _ _ _ F).
  apply Permutation_length. apply Permutation_filter. auto.
Qed.

Theorem range_count_inserts : forall ops e rs l u e' n, insert_only ops ->
  run_new qlt C ops = Ok (e, rs) -> range_count lbf e l u = Ok (e', n) ->
  n = length (filter (key_in l u) (inserted ops)).
Proof.
  intros ops e rs l u e' n IO H Q.
  assert (B : bsm_safe qlt C ops) by (intros _; apply (few_never_empty qlt C V); left; auto).
  destruct (range_count_stored _ _ _ _ _ _ _ B H Q) as [_ ->].
  destruct (run_facts qlt C V ops e rs (insert_only_appends C _ IO) (insert_only_ok qlt C V _ IO) H)
    as (st & win & pos & I & S & HH & _ & _).
  destruct (hist_plain qlt C _ _ _ _ HH (insert_only_plain _ IO)) as (P & _ & F).
  destruct (hist_cancel qlt C _ _ _ _ HH) as (N & _).
  pose proof (plain_stored _ _ _ _ _ I) as P0. unfold cont in P0.
  rewrite counted_lv.
  - apply Permutation_length. apply Permutation_filter. rewrite (inserted_log _ IO).
    rewrite filter_all.
    + rewrite P0. apply (Permutation_map fst) in P. symmetry.
      eapply Permutation_trans; [exact P|]. rewrite map_map. auto.
    + intros w Hw. rewrite P0 in Hw. rewrite Forall_forall in N. rewrite (N w Hw). auto.
  - rewrite P0. auto.
Qed.

End CP.

Section TR.
Context {R : Type} {RO : RecOps R} {RL : RecLaws R} {KO : KeyOps R} {KL : KeyLaws R}.
Variable qlt : qorder R.
Context {QO : QOrder qlt}.
Variable C : cfg.
Hypothesis V : valid_cfg C.
Variable lbf : list (wrapped R) -> Z -> res nat.
Hypothesis LB : lb_sound lbf.

Local Lemma LW' : 1 <= c_lwm C. Proof. destruct V as (? & ? & ? & ?). auto. Qed.
Local Lemma WM' : c_lwm C <= c_hwm C. Proof. destruct V as (? & ? & ? & ?). auto. Qed.
Local Lemma SF' : 1 <= c_sf C. Proof. destruct V as (? & ? & ? & ?). auto. Qed.

Theorem tagging_runs_ok : forall ops, c_del C = TAGGING -> survivors (c_lwm C) ops ->
  exists e rs, run_new qlt C ops = Ok (e, rs) /\
    (forall l u, exists out, range_query qlt lbf e l u = Ok (e, out)) /\
    get_record_count e = Ok (e, length (stored e)).
Proof.
  intros ops TG SV.
  assert (K : forall ops' pre e rs0 st win pos tsn, einv C e st win pos tsn -> sinv C shard_ok st ->
    exec qlt C pre rs0 st win pos tsn -> ops = pre ++ ops' ->
    exists e' rs, run qlt C e ops' = Ok (e', rs)).
  { induction ops' as [|o ops' IH]; intros pre e rs0 st win pos tsn I S X E; simpl; eauto.
    pose proof (exec_tagged qlt C V ops _ _ _ _ _ _ TG X _ E) as T.
    assert (NE : Forall nonempty (age st)).
    { eapply Forall_impl; [|apply (tg_shards _ _ _ _ _ _ T SV)]. apply kept_nonempty. }
    assert (ST : exists e1 n, step qlt C e o = Ok (e1, n)).
    { destruct o as [r|r].
      - destruct (append_total qlt C SF' LW' WM' e st win pos tsn r false I S) as (e1 & A).
        + intros L. split; auto. intros s _ ES. rewrite built_sorted in ES.
          apply (kept_nonempty ops). eapply kept_flush; eauto.
        + simpl. unfold insert. eauto.
      - destruct (erase_step qlt C SF' LW' WM' e st win pos tsn r I S TG) as (e1 & n & _ & _ & A & _).
        simpl. eauto. }
    destruct ST as (e1 & n & ST). rewrite ST. simpl.
    destruct (exec_step qlt C SF' LW' WM' _ _ _ _ _ _ _ _ _ _ I S X (fun _ => NE) ST)
      as (st1 & win1 & pos1 & tsn1 & I1 & S1 & X1).
    destruct (IH (pre ++ [o]) _ _ _ _ _ _ I1 S1 X1) as (e' & rs & ->).
    - rewrite <- app_assoc. auto.
    - simpl. eauto. }
  destruct (new_total (R := R) C SF' LW' WM' (proj2 (proj2 (proj2 V)))) as [e0 E0].
  pose proof (new_einv C SF' LW' WM' _ E0) as I0.
  destruct (K ops [] _ _ _ _ _ _ I0 (empty_sinv C) (x_nil qlt C) eq_refl) as (e & rs & RN).
  exists e, rs. unfold run_new. rewrite E0. simpl. split; auto.
  assert (B : bsm_safe qlt C ops) by (intros _; apply (few_never_empty qlt C V); right; right; auto).
  destruct (run_state qlt C V ops e rs B) as (st & win & pos & tsn & I & S & X).
  { unfold run_new. rewrite E0. auto. }
  pose proof (exec_tagged qlt C V ops _ _ _ _ _ _ TG X [] (eq_sym (app_nil_r _))) as T.
  split; [|eapply record_count_stored; eauto; apply S].
  intros l u.
  assert (NE : Forall nonempty (age st)).
  { eapply Forall_impl; [|apply (tg_shards _ _ _ _ _ _ T SV)]. apply kept_nonempty. }
  destruct (range_query_ok qlt C SF' LW' WM' lbf LB _ _ _ _ _ l u I (s_ok _ _ S) NE) as (evs & M & EQ). eauto.
Qed.

End TR.

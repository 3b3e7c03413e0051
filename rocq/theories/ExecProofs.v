(** Serial executions with both delete policies: [exec] lists the states an
    execution passes through, as structures and buffer windows. *)
From Coq Require Import List Arith ZArith NArith Lia Bool Permutation Sorted.
From Verif Require Import Base ListLemmas RecordModel RecordProofs BufferModel BufferProofs
  MergeModel MergeProofs StructModel ExtModel StructProofs StructTotal SortedProofs ExtProofs TagProofs.
Import ListNotations.

Section XP.
Context {R : Type} {RO : RecOps R} {RL : RecLaws R}.
Variable qlt : qorder R.
Context {QO : QOrder qlt}.
Variable C : cfg.
Hypothesis SF : 1 <= c_sf C.
Hypothesis LW : 1 <= c_lwm C.
Hypothesis WM : c_lwm C <= c_hwm C.

Local Arguments set_nth : simpl never.

(** [exec ops rs st win pos tsn]: after the calls [ops], which returned [rs], the
    structure is [st], the buffer holds [win] from position [pos], and [tsn]
    tombstones have been appended. *)
Inductive exec : list (op R) -> list nat -> structure R -> list (wrapped R) -> nat -> nat -> Prop :=
| x_nil : exec [] [] st_empty [] 0 0
| x_app : forall ops rs st win pos tsn o r ts,
    exec ops rs st win pos tsn -> appends C o -> oplog o = (r, ts) -> length win < c_lwm C ->
    exec (ops ++ [o]) (rs ++ [1]) st (win ++ [append_rec r ts (posmod C (pos + length win))]) pos
         (if ts then S tsn else tsn)
| x_flush : forall ops rs st win pos tsn o r ts d s st',
    exec ops rs st win pos tsn -> appends C o -> oplog o = (r, ts) -> length win = c_lwm C ->
    vok d (bview C win pos tsn) -> v_copy d (bview C win pos tsn) = Ok win ->
    shard_of win = Ok s ->
    reconstruct_struct qlt C st d (bview C win pos tsn) = Ok st' ->
    (c_layout C = BSM -> Forall nonempty (age st)) ->
    exec (ops ++ [o]) (rs ++ [1]) st' [append_rec r ts (posmod C (pos + length win))]
         (pos + length win) (if ts then S tsn else tsn)
| x_tag : forall ops rs st win pos tsn r st',
    exec ops rs st win pos tsn -> c_del C = TAGGING -> tagged_delete r st = Some st' ->
    exec (ops ++ [Del r]) (rs ++ [1]) st' win pos tsn
| x_tagbuf : forall ops rs st win pos tsn r i w,
    exec ops rs st win pos tsn -> c_del C = TAGGING -> tagged_delete r st = None ->
    first_match r win i w ->
    exec (ops ++ [Del r]) (rs ++ [1]) st (set_nth i (set_delete w) win) pos tsn
| x_miss : forall ops rs st win pos tsn r n,
    exec ops rs st win pos tsn -> c_del C = TAGGING -> tagged_delete r st = None ->
    no_match r win -> (win <> [] -> n = 0) -> n <= 1 ->
    exec (ops ++ [Del r]) (rs ++ [n]) st win pos tsn.

(** A tagging erase. *)
Lemma erase_any : forall e st win pos tsn r,
  einv C e st win pos tsn -> c_del C = TAGGING ->
  exists e' n st' win', erase qlt C e r = Ok (e', n) /\ einv C e' st' win' pos tsn /\
    ((tagged_delete r st = Some st' /\ win' = win /\ n = 1) \/
     (tagged_delete r st = None /\ st' = st /\ n = 1 /\
        exists i w, first_match r win i w /\ win' = set_nth i (set_delete w) win) \/
     (tagged_delete r st = None /\ st' = st /\ win' = win /\ no_match r win /\
        (win <> [] -> n = 0) /\ n <= 1)).
Proof.
  intros e st win pos tsn r I TG. pose proof (einv_vok C SF LW WM _ _ _ _ _ I) as VO.
  destruct I.
  destruct e as [b cnt flag nx cur prev]. destruct b as [lw hw cap tail hd old d tn flt].
  destruct prev as [pp pr]. destruct old as [oi orf]. simpl in *. subst.
  unfold erase. rewrite TG. unfold tag_erase. simpl. unfold buf_get_view, buf_get_head. simpl.
  destruct (Nat.eqb_spec oi pos); [congruence|]. rewrite Nat.eqb_refl. simpl.
  unfold get_active_epoch. simpl.
  destruct (tagged_delete r st) as [st'|] eqn:ET.
  - rewrite Nat.eqb_refl. unfold end_job. simpl.
    assert (EP1 : ep_is match pp with
       | Some q => if ep_no q =? cnt then Some (Epoch (ep_no q) st' (ep_head q)) else Some q
       | None => None end (Epoch cnt st pos) = false).
    { unfold ep_is in *. simpl in *. destruct pp as [q|]; auto. rewrite i_prev. auto. }
    rewrite EP1. simpl. unfold buf_release. simpl.
    destruct (Nat.eqb_spec oi pos); [congruence|]. simpl.
    eexists _, 1, st', win. split; [reflexivity|].
    split; [|left; auto].
    constructor; simpl; auto.
  - unfold end_job. simpl. rewrite i_prev. simpl.
    set (v := View (c_hwm C + (c_hwm C + 0)) pos (pos + length win) tsn) in *.
    destruct (v_delete_record d v r) as [d' found] eqn:EV.
    unfold buf_release. simpl. destruct (Nat.eqb_spec oi pos); [congruence|]. simpl.
    assert (VW : win = [] \/ v_head v < v_tail v).
    { destruct win; auto. right. simpl. lia. }
    assert (VC : v_count v = length win) by (unfold v_count; simpl; lia).
    destruct VW as [->|VW].
    + (* empty view: every slot is scanned *)
      assert (LD : length d' = length d).
      { unfold v_delete_record in EV.
        repeat match type of EV with
        | context [match ?x with _ => _ end] => destruct x
        end; inv EV; auto using set_nth_length. }
      eexists _, _, st, []. split; [reflexivity|].
      split; [|right; right; repeat split; auto].
      * constructor; simpl; auto. lia.
      * intros w [].
      * congruence.
      * destruct found; lia.
    + destruct (v_delete_spec d v r VO VW) as [(i & w & F & E)|(N & E)];
        rewrite EV in E; inv E.
      * rewrite VC in F. simpl in F. rewrite i_win in F.
        assert (IL : i < length win) by (destruct F as (F & _); eapply nth_some_lt; eauto).
        eexists _, 1, st, (set_nth i (set_delete w) win). split; [reflexivity|].
        split; [|right; left; repeat split; auto; exists i, w; auto].
        constructor; simpl; auto; rewrite ?set_nth_length; auto.
        rewrite ring_set by lia. rewrite i_win. auto.
      * rewrite VC in N. simpl in N. rewrite i_win in N.
        eexists _, 0, st, win. split; [reflexivity|].
        split; [|right; right; repeat split; auto].
        constructor; simpl; auto.
Qed.

Lemma erase_step : forall e st win pos tsn r,
  einv C e st win pos tsn -> sinv C shard_ok st -> c_del C = TAGGING ->
  exists e' n st' win', erase qlt C e r = Ok (e', n) /\ einv C e' st' win' pos tsn /\ sinv C shard_ok st' /\
    ((tagged_delete r st = Some st' /\ win' = win /\ n = 1) \/
     (tagged_delete r st = None /\ st' = st /\ n = 1 /\
        exists i w, first_match r win i w /\ win' = set_nth i (set_delete w) win) \/
     (tagged_delete r st = None /\ st' = st /\ win' = win /\ no_match r win /\
        (win <> [] -> n = 0) /\ n <= 1)).
Proof.
  intros e st win pos tsn r I S TG.
  destruct (erase_any e st win pos tsn r I TG) as (e' & n & st' & win' & E & I' & K).
  exists e', n, st', win'. split; [auto|]. split; [auto|]. split; [|auto].
  destruct K as [(K & _)|[(_ & -> & _)|(_ & -> & _)]]; auto.
  destruct (tagged_shape C r st st' K) as (T1 & T2 & T3 & _).
  destruct S as [S1 S2 S3]. constructor; auto.
Qed.

(** Under BSM every shard on the way holds a record. *)
Definition bsm_fine (ops : list (op R)) : Prop :=
  c_layout C = BSM ->
  forall pre post e rs st win pos tsn, ops = pre ++ post -> run_new qlt C pre = Ok (e, rs) ->
    einv C e st win pos tsn -> exec pre rs st win pos tsn ->
    Forall nonempty (age st).

Lemma exec_append : forall e st win pos tsn o e' n ops rs,
  einv C e st win pos tsn -> sinv C shard_ok st -> exec ops rs st win pos tsn -> appends C o ->
  (c_layout C = BSM -> Forall nonempty (age st)) ->
  step qlt C e o = Ok (e', n) ->
  exists st' win' pos' tsn', einv C e' st' win' pos' tsn' /\ sinv C shard_ok st' /\
    exec (ops ++ [o]) (rs ++ [n]) st' win' pos' tsn'.
Proof.
  intros e st win pos tsn o e' n ops rs I S H AP NE A. rewrite step_append in A by auto.
  destruct (oplog o) as [r ts] eqn:EO. simpl in A.
  destruct (Nat.eq_dec (length win) (c_lwm C)).
  - pose proof (append_flush qlt C SF LW WM e st win pos tsn r ts I (s_shape _ _ S) e0) as K.
    destruct (reconstruct_struct _ _ _ _ _) as [st'|] eqn:ER; [|congruence].
    destruct K as (e'' & A' & I'). rewrite A in A'. inv A'.
    destruct S as [S1 S2 S3].
    pose proof (einv_vok C SF LW WM _ _ _ _ _ I) as VO.
    destruct (recon_ok qlt C SF _ _ _ _ S1 VO S3 NE ER) as (T1 & T2 & _ & s & T3 & T4).
    destruct (einv_records C SF LW WM _ _ _ _ _ I) as [_ VC].
    simpl in T3. rewrite (sfv_shard_of _ _ _ VC) in T3.
    eexists st', _, _, _. split; [exact I'|]. split.
    + constructor; auto. eapply (seg_steps_ok qlt); [exact T4|]. apply Forall_app. split; auto.
      constructor; auto. apply shard_of_ok in T3 as (_ & _ & _ & ?). auto.
    + eapply x_flush; eauto.
  - assert (L : length win < c_lwm C) by (destruct I; lia).
    destruct (append_room qlt C SF LW WM e st win pos tsn r ts I L) as (e'' & A' & I').
    rewrite A in A'. inv A'.
    eexists st, _, _, _. split; [exact I'|]. split; auto. apply x_app; auto.
Qed.

Lemma exec_step : forall e st win pos tsn o e' n ops rs,
  einv C e st win pos tsn -> sinv C shard_ok st -> exec ops rs st win pos tsn ->
  (c_layout C = BSM -> Forall nonempty (age st)) ->
  step qlt C e o = Ok (e', n) ->
  exists st' win' pos' tsn', einv C e' st' win' pos' tsn' /\ sinv C shard_ok st' /\
    exec (ops ++ [o]) (rs ++ [n]) st' win' pos' tsn'.
Proof.
  intros e st win pos tsn o e' n ops rs I S H NE A.
  destruct o as [r|r].
  { eapply exec_append; eauto. right. auto. }
  destruct (c_del C) eqn:CD.
  { eapply exec_append; eauto. left. auto. }
  simpl in A.
  destruct (erase_step e st win pos tsn r I S CD) as (e1 & n1 & st' & win' & E & I' & S' & K).
  rewrite A in E. inv E.
  destruct K as [(K1 & -> & ->)|[(K1 & -> & -> & i & w & K2 & ->)|(K1 & -> & -> & K2 & K3 & K4)]].
  - exists st', win, pos, tsn. split; auto. split; auto. apply x_tag with st; auto.
  - eexists st, _, pos, tsn. split; [exact I'|]. split; auto. apply x_tagbuf; auto.
  - exists st, win, pos, tsn. split; auto. split; auto. apply x_miss; auto.
Qed.

Theorem run_exec : forall ops e rs,
  bsm_fine ops -> run_new qlt C ops = Ok (e, rs) ->
  exists st win pos tsn, einv C e st win pos tsn /\ sinv C shard_ok st /\ exec ops rs st win pos tsn.
Proof.
  intros ops e rs B H. unfold run_new in H. mon H. rename a into e0.
  assert (N : run_new qlt C [] = Ok (e0, [])) by (unfold run_new; rewrite E; auto).
  apply (new_einv C SF LW WM) in E.
  assert (K : forall ops pre e rs0 st win pos tsn e' rs,
    run_new qlt C pre = Ok (e, rs0) ->
    einv C e st win pos tsn -> sinv C shard_ok st -> exec pre rs0 st win pos tsn ->
    bsm_fine (pre ++ ops) -> run qlt C e ops = Ok (e', rs) ->
    exists st' win' pos' tsn', einv C e' st' win' pos' tsn' /\ sinv C shard_ok st' /\
      exec (pre ++ ops) (rs0 ++ rs) st' win' pos' tsn').
  { clear ops e rs B H e0 E N. induction ops; intros pre e rs0 st win pos tsn e' rs Rp I S H B Rn; simpl in *.
    - inv Rn. rewrite !app_nil_r. eauto 10.
    - mon Rn. destruct a0 as [e1 n]. mon Rn. destruct a0 as [e2 ns]. inv Rn.
      assert (B0 : c_layout C = BSM -> Forall nonempty (age st)).
      { intro Q. eapply (B Q pre); eauto. }
      pose proof (run_new_snoc qlt C _ _ _ _ _ _ Rp E) as Rp'.
      destruct (exec_step _ _ _ _ _ _ _ _ _ _ I S H B0 E) as (st1 & win1 & pos1 & tsn1 & I1 & S1 & H1).
      replace (pre ++ a :: ops) with ((pre ++ [a]) ++ ops) in * by (rewrite <- app_assoc; auto).
      destruct (IHops _ _ _ _ _ _ _ _ _ Rp' I1 S1 H1 B E0) as (st' & win' & pos' & tsn' & Q).
      exists st', win', pos', tsn'. rewrite <- (app_assoc rs0) in Q. auto. }
  apply (K ops [] _ [] _ _ _ _ _ _ N E (empty_sinv C) x_nil B H).
Qed.

(** Without erases of shards, an execution never gets stuck except in a flush. *)
Lemma exec_pos : forall ops rs st win pos tsn, exec ops rs st win pos tsn ->
  length win <= c_lwm C /\ length rs = length ops /\ pos + length win <= length ops.
Proof.
  clear SF WM. induction 1; simpl; rewrite ?app_length; simpl; rewrite ?set_nth_length; try lia.
Qed.

End XP.

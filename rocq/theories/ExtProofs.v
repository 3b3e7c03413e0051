(** Serial executions: invariant of the extension between operations, and the
    abstract history of shards and buffer contents that an execution follows. *)
From Coq Require Import List Arith ZArith NArith Lia Bool Permutation Sorted.
From Verif Require Import Base ListLemmas RecordModel RecordProofs BufferModel BufferProofs
  MergeModel MergeProofs StructModel ExtModel StructProofs StructTotal.
Import ListNotations.

Section EP.
Context {R : Type} {RO : RecOps R}.
Variable BD : builders R.
Variable C : cfg.
Context {ok : shard R -> Prop} {SL : ShardLaws BD ok}.
Hypothesis SF : 1 <= c_sf C.
Hypothesis LW : 1 <= c_lwm C.
Hypothesis WM : c_lwm C <= c_hwm C.

Local Arguments set_nth : simpl never.

(** The state between two operations: no reference is held, no reconstruction is
    pending, [win] is the content of the buffer, [pos] the position of its first
    record, [st] the structure of the current epoch. *)
Record einv (e : ext R) (st : structure R) (win : list (wrapped R)) (pos tsn : nat) : Prop := {
  i_lwm : b_lwm (e_buf e) = c_lwm C;
  i_hwm : b_hwm (e_buf e) = c_hwm C;
  i_cap : b_cap (e_buf e) = 2 * c_hwm C;
  i_len : length (b_data (e_buf e)) = 2 * c_hwm C;
  i_head : b_head (e_buf e) = BH pos 0;
  i_oref : href (b_old (e_buf e)) = 0;
  i_oidx : hidx (b_old (e_buf e)) <> pos;
  i_tail : b_tail (e_buf e) = pos + length win;
  i_win : ring (b_data (e_buf e)) pos (length win) = win;
  i_cnt : length win <= c_lwm C;
  i_tsn : b_tscnt (e_buf e) = tsn;
  i_flag : e_flag e = false;
  i_next : e_next e = ep_null;
  i_cur : e_cur e = EP (Some (Epoch (e_cnt e) st pos)) 0;
  i_pref : ep_ref (e_prev e) = 0;
  i_prev : ep_is (ep_ptr (e_prev e)) (Epoch (e_cnt e) st pos) = false
}.

(** The view of the whole buffer. *)
Definition bview (win : list (wrapped R)) (pos tsn : nat) : view :=
  View (2 * c_hwm C) pos (pos + length win) tsn.

Lemma bview_count : forall win pos tsn, v_count (bview win pos tsn) = length win.
Proof. intros. unfold v_count, bview. simpl. lia. Qed.

Lemma einv_vok : forall e st win pos tsn, einv e st win pos tsn ->
  vok (b_data (e_buf e)) (bview win pos tsn).
Proof.
  intros. destruct H. unfold vok, bview. simpl. rewrite i_len0.
  repeat split; lia.
Qed.

Lemma einv_records : forall e st win pos tsn, einv e st win pos tsn ->
  v_records (b_data (e_buf e)) (bview win pos tsn) = Ok win /\
  v_copy (b_data (e_buf e)) (bview win pos tsn) = Ok win.
Proof.
  intros. rewrite v_records_ok, v_copy_ok by (eapply einv_vok; eauto).
  rewrite bview_count. simpl. destruct H. rewrite i_win0. auto.
Qed.

(** Read-only jobs leave the state alone. *)
Lemma with_epoch_eq : forall {A} (f : structure R -> list (wrapped R) -> view -> res A) e st win pos tsn,
  einv e st win pos tsn ->
  with_epoch e f = do a <- f st (b_data (e_buf e)) (bview win pos tsn); Ok (e, a).
Proof.
  intros A f e st win pos tsn [].
  destruct e as [b cnt flag nx cur prev]. destruct b as [lw hw cap tail hd old d ts flt].
  destruct prev as [pp pr]. destruct old as [oi orf]. simpl in *. subst.
  unfold with_epoch, get_active_epoch. simpl. unfold buf_get_view, buf_get_head. simpl.
  destruct (Nat.eqb_spec oi pos); [congruence|]. rewrite Nat.eqb_refl. simpl.
  unfold bview. destruct (f st d _); simpl; auto.
  unfold buf_release. simpl. destruct (Nat.eqb_spec oi pos); [congruence|]. simpl.
  unfold end_job. simpl. rewrite i_prev0. simpl. auto.
Qed.

Lemma st_copy_id : forall st : structure R, shape C st -> st_copy st = st.
Proof.
  intros [ls state] SH. unfold st_copy. simpl. f_equal.
  rewrite <- (map_id ls) at 2. apply map_ext_in. intros l Hl.
  apply In_nth_error in Hl as (i & Hi).
  destruct (shape_level C (Struct ls state) i l SH Hi) as (s & _ & (_ & _ & P & _)).
  destruct l. simpl in *. subst. auto.
Qed.

Definition posmod (p : nat) : nat := p mod (2 * c_hwm C).

Lemma append_room : forall e st win pos tsn r ts,
  einv e st win pos tsn -> length win < c_lwm C ->
  exists e', internal_append BD C e r ts = Ok (e', 1) /\
    einv e' st (win ++ [append_rec r ts (posmod (pos + length win))]) pos
         (if ts then S tsn else tsn).
Proof.
  intros e st win pos tsn r ts [] L.
  destruct e as [b cnt flag nx cur prev]. destruct b as [lw hw cap tail hd old d tn flt].
  simpl in *. subst.
  unfold internal_append, buf_at_lwm, buf_count. simpl.
  replace (pos + length win - pos) with (length win) by lia.
  destruct (Nat.leb_spec (c_lwm C) (length win)); [lia|]. simpl.
  unfold buf_append. simpl.
  replace (pos + length win - pos) with (length win) by lia.
  destruct (Nat.leb_spec (c_hwm C) (length win)); [lia|].
  eexists. split; [reflexivity|].
  constructor; simpl; auto.
  - rewrite set_nth_length. auto.
  - rewrite app_length. simpl. lia.
  - rewrite app_length. simpl. rewrite Nat.add_1_r. unfold posmod.
    replace (2 * c_hwm C) with (length d) by lia.
    replace (c_hwm C + (c_hwm C + 0)) with (length d) by lia.
    rewrite ring_snoc by lia. rewrite i_win0. auto.
  - rewrite app_length. simpl. lia.
Qed.

Lemma append_flush_copy : forall e st win pos tsn r ts,
  einv e st win pos tsn -> length win = c_lwm C ->
  match reconstruct_struct BD C (st_copy st) (b_data (e_buf e)) (bview win pos tsn) with
  | Ok st' => exists e', internal_append BD C e r ts = Ok (e', 1) /\
      einv e' st' [append_rec r ts (posmod (pos + length win))] (pos + length win)
           (if ts then S tsn else tsn)
  | Fail f => internal_append BD C e r ts = Fail f
  end.
Proof.
  intros e st win pos tsn r ts [] L.
  destruct e as [b cnt flag nx cur prev]. destruct b as [lw hw cap tail hd old d tn flt].
  destruct prev as [pp pr]. destruct old as [oi orf].
  simpl in *. subst.
  unfold internal_append, buf_at_lwm, buf_count. simpl.
  replace (pos + length win - pos) with (length win) by lia.
  destruct (Nat.leb_spec (c_lwm C) (length win)); [|lia]. simpl.
  unfold schedule_reconstruction, create_new_epoch, get_active_epoch. simpl.
  unfold end_job. simpl. rewrite i_prev0. simpl.
  unfold buf_get_view, buf_get_head. simpl.
  destruct (Nat.eqb_spec oi pos); [congruence|]. rewrite Nat.eqb_refl. simpl.
  unfold bview.
  destruct (reconstruct_struct BD C (st_copy st) d _) as [st'|f]; simpl; auto.
  unfold buf_release. simpl. destruct (Nat.eqb_spec oi pos); [congruence|]. simpl.
  unfold advance_epoch, retire_epoch. simpl.
  assert (RE : (match pp with
      | Some _ => Ok (Ext (Buf (c_lwm C) (c_hwm C) (2 * c_hwm C) (pos + length win) (BH pos 0)
                           (BH oi 0) d tsn flt) (S cnt) true
                         (EP (Some (Epoch (S cnt) st' pos)) 0)
                         (EP (Some (Epoch cnt st pos)) 0) ep_null)
      | None => Ok (Ext (Buf (c_lwm C) (c_hwm C) (2 * c_hwm C) (pos + length win) (BH pos 0)
                           (BH oi 0) d tsn flt) (S cnt) true
                         (EP (Some (Epoch (S cnt) st' pos)) 0)
                         (EP (Some (Epoch cnt st pos)) 0) {| ep_ptr := pp; ep_ref := 0 |})
      end) =
      Ok (Ext (Buf (c_lwm C) (c_hwm C) (2 * c_hwm C) (pos + length win) (BH pos 0)
                           (BH oi 0) d tsn flt) (S cnt) true
                         (EP (Some (Epoch (S cnt) st' pos)) 0)
                         (EP (Some (Epoch cnt st pos)) 0) ep_null)).
  { destruct pp; auto. }
  cbn [Nat.mul Nat.add] in *.
  rewrite RE.
  simpl. unfold buf_advance_head. simpl.
  destruct (Nat.ltb_spec pos (pos + length win)); [|lia]. simpl.
  rewrite Nat.leb_refl. simpl.
  unfold buf_append. simpl. rewrite Nat.sub_diag.
  destruct (Nat.leb_spec (c_hwm C) 0); [lia|].
  eexists. split; [reflexivity|].
  constructor; simpl; auto; try lia.
  - rewrite set_nth_length. auto.
  - unfold posmod. replace (2 * c_hwm C) with (length d) by lia.
    try replace (c_hwm C + (c_hwm C + 0)) with (length d) by lia.
    pose proof (ring_snoc d (pos + length win) 0
      (append_rec r ts ((pos + length win) mod length d)) ltac:(lia) ltac:(lia)) as RS.
    rewrite Nat.add_0_r in RS. exact RS.
  - apply Nat.eqb_neq. lia.
Qed.

Lemma append_flush : forall e st win pos tsn r ts,
  einv e st win pos tsn -> shape C st -> length win = c_lwm C ->
  match reconstruct_struct BD C st (b_data (e_buf e)) (bview win pos tsn) with
  | Ok st' => exists e', internal_append BD C e r ts = Ok (e', 1) /\
      einv e' st' [append_rec r ts (posmod (pos + length win))] (pos + length win)
           (if ts then S tsn else tsn)
  | Fail f => internal_append BD C e r ts = Fail f
  end.
Proof.
  intros e st win pos tsn r ts I SH L. pose proof (append_flush_copy e st win pos tsn r ts I L) as K.
  rewrite (st_copy_id st SH) in K. auto.
Qed.

(** ** The new extension *)

Lemma new_einv : forall e, ext_new (R := R) C = Ok e -> einv e st_empty [] 0 0.
Proof.
  intros e H. unfold ext_new, buf_new, buf_create in H. cbn [Nat.eqb] in H. cbv zeta in H.
  destruct ((c_hwm C <? 2 * c_hwm C) && (c_lwm C <=? c_hwm C)); [|discriminate].
  cbn [bind] in H.
  destruct (match c_layout C with BSM => _ | _ => _ end); [discriminate|].
  inv H. constructor; simpl; auto; try lia.
  rewrite repeat_length. lia.
Qed.

Lemma new_total : (c_layout C = BSM -> c_sf C = 2) -> exists e, ext_new (R := R) C = Ok e.
Proof.
  intros. unfold ext_new, buf_new, buf_create. cbn [Nat.eqb]. cbv zeta.
  destruct (Nat.ltb_spec (c_hwm C) (2 * c_hwm C)); [|lia].
  destruct (Nat.leb_spec (c_lwm C) (c_hwm C)); [|lia]. simpl.
  destruct (c_layout C); eauto. rewrite H by auto. simpl. eauto.
Qed.

(** ** Histories of appends *)

(** [hist ops ss win pos]: after the appends [ops] (record, tombstone flag) the
    shards in age order are [ss] and the buffer holds [win] from position [pos]. *)
Inductive hist : list (R * bool) -> list (shard R) -> list (wrapped R) -> nat -> Prop :=
| h_nil : hist [] [] [] 0
| h_app : forall ops ss win pos r ts,
    hist ops ss win pos -> length win < c_lwm C ->
    hist (ops ++ [(r, ts)]) ss (win ++ [append_rec r ts (posmod (pos + length win))]) pos
| h_flush : forall ops ss win pos r ts s ss',
    hist ops ss win pos -> length win = c_lwm C ->
    built BD win = Ok s -> seg_steps BD (ss ++ [s]) ss' ->
    hist (ops ++ [(r, ts)]) ss' [append_rec r ts (posmod (pos + length win))] (pos + length win).

(** The records appended by [ops] from position [p] on. *)
Fixpoint entries (p : nat) (ops : list (R * bool)) : list (wrapped R) :=
  match ops with
  | [] => []
  | (r, ts) :: ops' => append_rec r ts (posmod p) :: entries (S p) ops'
  end.

Lemma entries_length : forall ops p, length (entries p ops) = length ops.
Proof. induction ops as [|[r ts] ops]; simpl; intros; auto. Qed.

Lemma entries_app : forall a b p, entries p (a ++ b) = entries p a ++ entries (p + length a) b.
Proof.
  induction a as [|[r ts] a]; simpl; intros.
  - rewrite Nat.add_0_r. auto.
  - rewrite IHa. do 3 f_equal. lia.
Qed.

Lemma hist_win : forall ops ss win pos, hist ops ss win pos ->
  win = entries pos (skipn pos ops) /\ pos + length win = length ops /\
  length win <= c_lwm C /\ (exists k, pos = k * c_lwm C) /\ (pos = 0 \/ win <> []).
Proof.
  induction 1.
  - simpl. repeat split; auto; try lia. exists 0. auto.
  - destruct IHhist as (E & L & K & M & NZ). rewrite !app_length. simpl.
    split; [|repeat split; auto; try lia].
    + rewrite skipn_app. replace (pos - length ops) with 0 by lia. simpl.
      rewrite entries_app. simpl. rewrite E at 1. do 4 f_equal.
      rewrite skipn_length. lia.
    + right. destruct win; discriminate.
  - destruct IHhist as (E & L & K & (k & M) & _). rewrite !app_length. simpl.
    split; [|repeat split; auto; try lia].
    + rewrite L. rewrite skipn_app. rewrite skipn_all. rewrite Nat.sub_diag. simpl. auto.
    + exists (S k). rewrite H0, M. lia.
    + right. discriminate.
Qed.

(** ** Executions follow histories *)

Definition oplog (o : op R) : R * bool := match o with Ins r => (r, false) | Del r => (r, true) end.

(** Well-formedness kept next to [einv]. *)
Record sinv (st : structure R) : Prop := {
  s_shape : shape C st;
  s_l0 : l0cap C st;
  s_ok : Forall ok (age st)
}.

Lemma seg_steps_ok : forall a b, seg_steps BD a b -> Forall ok a -> Forall ok b.
Proof.
  induction 1; auto. intros F. apply IHseg_steps. clear -H F SL. inv H.
  - apply Forall_app in F as [F1 F2]. apply Forall_app in F2 as [F2 F3].
    apply Forall_app. split; auto. constructor; auto. eapply shards_ok; eauto.
  - apply Forall_app in F as [F1 F2]. apply Forall_app in F2 as [F2 F3].
    apply Forall_app. auto.
Qed.

(** One append. *)
Lemma append_hist : forall e st win pos tsn r ts e' n ops,
  einv e st win pos tsn -> sinv st -> hist ops (age st) win pos ->
  (c_layout C = BSM -> Forall nonempty (age st)) ->
  internal_append BD C e r ts = Ok (e', n) ->
  n = 1 /\ exists st' win' pos', einv e' st' win' pos' (if ts then S tsn else tsn) /\ sinv st' /\
    hist (ops ++ [(r, ts)]) (age st') win' pos'.
Proof.
  intros e st win pos tsn r ts e' n ops I S H NE A.
  destruct (Nat.eq_dec (length win) (c_lwm C)).
  - pose proof (append_flush e st win pos tsn r ts I (s_shape _ S) e0) as K.
    destruct (reconstruct_struct _ _ _ _ _) as [st'|] eqn:ER; [|congruence].
    destruct K as (e'' & A' & I'). rewrite A in A'. inv A'. split; auto.
    destruct S as [S1 S2 S3].
    apply (recon_ok BD C SF) in ER as (T1 & T2 & _ & s & T3 & T4); auto; [|eapply einv_vok; eauto].
    destruct (einv_records _ _ _ _ _ I) as [VC _].
    rewrite (view_built BD _ _ _ (einv_vok _ _ _ _ _ I) VC) in T3.
    exists st', [append_rec r ts (posmod (pos + length win))], (pos + length win).
    split; [exact I'|]. split.
    + constructor; auto. eapply seg_steps_ok; [exact T4|]. apply Forall_app. split; auto.
      constructor; auto. exact (proj1 (built_ok BD _ _ T3)).
    + eapply h_flush; eauto.
  - assert (L : length win < c_lwm C) by (destruct I; lia).
    destruct (append_room e st win pos tsn r ts I L) as (e'' & A' & I').
    rewrite A in A'. inv A'. split; auto.
    exists st, (win ++ [append_rec r ts (posmod (pos + length win))]), pos.
    split; [exact I'|]. split; auto. apply h_app; auto.
Qed.

Lemma append_total : forall e st win pos tsn r ts,
  einv e st win pos tsn -> sinv st ->
  (length win = c_lwm C -> Forall nonempty (age st) /\
     (forall s, c_layout C = LEVELING -> built BD win = Ok s -> s_data s <> [])) ->
  exists e', internal_append BD C e r ts = Ok (e', 1).
Proof.
  intros e st win pos tsn r ts I S NE.
  destruct (Nat.eq_dec (length win) (c_lwm C)).
  - pose proof (append_flush e st win pos tsn r ts I (s_shape _ S) e0) as K.
    destruct (NE e0) as [NE1 NE2].
    destruct (built_total BD win) as [s Es].
    destruct (einv_records _ _ _ _ _ I) as [VC _].
    pose proof (view_built BD _ _ _ (einv_vok _ _ _ _ _ I) VC) as EV. rewrite Es in EV.
    destruct S as [S1 S2 S3].
    assert (G : Forall (good ok) (age st)).
    { rewrite Forall_forall in *. intros x Hx. split; auto. apply NE1. auto. }
    destruct (recon_total BD C SF st (b_data (e_buf e)) (bview win pos tsn) s) as [st' ER]; auto.
    + eapply einv_vok; eauto.
    + rewrite bview_count. lia.
    + lia.
    + rewrite ER in K. destruct K as (e' & ? & _). eauto.
  - assert (L : length win < c_lwm C) by (destruct I; lia).
    destruct (append_room e st win pos tsn r ts I L) as (e'' & A' & I'). eauto.
Qed.

Lemma empty_sinv : sinv (@st_empty R).
Proof.
  constructor.
  - split; auto. intros i l s H. destruct i; discriminate.
  - intros _ s H. discriminate.
  - constructor.
Qed.

(** Under BSM every shard on the way holds a record (otherwise a flush can be
    dropped: see C12). *)
Definition bsm_ok (ops : list (op R)) : Prop :=
  c_layout C = BSM ->
  forall pre post e rs st win pos tsn, ops = pre ++ post -> run_new BD C pre = Ok (e, rs) ->
  einv e st win pos tsn -> hist (map oplog pre) (age st) win pos -> Forall nonempty (age st).

Lemma run_snoc : forall ops e0 e rs o e' n, run BD C e0 ops = Ok (e, rs) -> step BD C e o = Ok (e', n) ->
  run BD C e0 (ops ++ [o]) = Ok (e', rs ++ [n]).
Proof.
  induction ops; intros e0 e rs o e' n Rn St; simpl in *.
  - inv Rn. rewrite St. auto.
  - mon Rn. destruct a0 as [e1 k]. mon Rn. destruct a0 as [e2 ns]. inv Rn. rewrite E. cbn [bind].
    rewrite (IHops _ _ _ _ _ _ E0 St). auto.
Qed.
Lemma run_new_snoc : forall ops e rs o e' n, run_new BD C ops = Ok (e, rs) -> step BD C e o = Ok (e', n) ->
  run_new BD C (ops ++ [o]) = Ok (e', rs ++ [n]).
Proof.
  intros ops e rs o e' n Rn St. unfold run_new in *. mon Rn. rewrite E. cbn [bind]. eapply run_snoc; eauto.
Qed.

(** Operations that append a record: inserts, and erases under tombstones. *)
Definition is_ins (o : op R) : bool := match o with Ins _ => true | Del _ => false end.
Definition appends (o : op R) : Prop := c_del C = TOMBSTONE \/ is_ins o = true.

Lemma step_append : forall e o, appends o ->
  step BD C e o = internal_append BD C e (fst (oplog o)) (snd (oplog o)).
Proof.
  intros e o [TB|I]; destruct o; simpl; auto; try discriminate. unfold erase. rewrite TB. auto.
Qed.

Lemma run_hist_from : forall ops pre rs0 e st win pos tsn e' rs,
  run_new BD C pre = Ok (e, rs0) ->
  einv e st win pos tsn -> sinv st -> hist (map oplog pre) (age st) win pos ->
  bsm_ok (pre ++ ops) -> Forall appends ops ->
  run BD C e ops = Ok (e', rs) ->
  rs = repeat 1 (length ops) /\
  exists st' win' pos', einv e' st' win' pos' (tsn + countb snd (map oplog ops)) /\ sinv st' /\
    hist (map oplog (pre ++ ops)) (age st') win' pos'.
Proof.
  induction ops; intros pre rs0 e st win pos tsn e' rs Rp I S H B AP Rn; simpl in *.
  - inv Rn. split; auto. rewrite app_nil_r, Nat.add_0_r. eauto 10.
  - mon Rn. destruct a0 as [e1 n]. mon Rn. destruct a0 as [e2 ns]. inv Rn.
    inv AP. pose proof (run_new_snoc _ _ _ _ _ _ Rp E) as Rp'.
    rewrite step_append in E by auto. destruct (oplog a) as [r ts] eqn:EO. simpl in *.
    assert (B0 : c_layout C = BSM -> Forall nonempty (age st)).
    { intro Q. eapply (B Q pre); eauto. }
    destruct (append_hist _ _ _ _ _ _ _ _ _ _ I S H B0 E) as (-> & st1 & win1 & pos1 & I1 & S1 & H1).
    replace (pre ++ a :: ops) with ((pre ++ [a]) ++ ops) in * by (rewrite <- app_assoc; auto).
    assert (H1' : hist (map oplog (pre ++ [a])) (age st1) win1 pos1).
    { rewrite map_app. simpl. rewrite EO. auto. }
    destruct (IHops _ _ _ _ _ _ _ _ _ Rp' I1 S1 H1' B H3 E0) as (-> & st' & win' & pos' & I' & S' & H').
    split; auto. exists st', win', pos'. split; auto.
    replace (tsn + ((if ts then 1 else 0) + countb snd (map oplog ops)))
      with ((if ts then Datatypes.S tsn else tsn) + countb snd (map oplog ops)) by (destruct ts; lia). auto.
Qed.

Theorem run_hist : forall ops e rs,
  bsm_ok ops -> Forall appends ops -> run_new BD C ops = Ok (e, rs) ->
  rs = repeat 1 (length ops) /\
  exists st win pos, einv e st win pos (countb snd (map oplog ops)) /\ sinv st /\
    hist (map oplog ops) (age st) win pos.
Proof.
  intros ops e rs B AP H. unfold run_new in H. mon H. rename a into e0.
  assert (N : run_new BD C [] = Ok (e0, [])) by (unfold run_new; rewrite E; auto).
  apply new_einv in E.
  apply (run_hist_from ops [] [] _ _ _ _ 0 _ _ N E empty_sinv h_nil B AP H).
Qed.

(** Every history whose shards never become empty runs to the end. *)
Definition never_empty (ops : list (R * bool)) : Prop :=
  forall pre post ss win pos, ops = pre ++ post -> hist pre ss win pos ->
    Forall nonempty ss /\
    (length win = c_lwm C -> forall s, built BD win = Ok s -> s_data s <> []).

Theorem run_total : forall ops,
  (c_layout C = BSM -> c_sf C = 2) -> never_empty (map oplog ops) -> Forall appends ops ->
  exists e, run_new BD C ops = Ok (e, repeat 1 (length ops)).
Proof.
  intros ops B2 NE AP. unfold run_new.
  destruct (new_total B2) as [e0 E0]. rewrite E0. simpl. apply new_einv in E0.
  assert (K : forall ops pre e st win pos tsn,
    einv e st win pos tsn -> sinv st -> hist pre (age st) win pos ->
    never_empty (pre ++ map oplog ops) -> Forall appends ops ->
    exists e', run BD C e ops = Ok (e', repeat 1 (length ops))).
  { clear ops NE AP e0 E0. induction ops; intros; simpl; eauto.
    inv H3. rewrite step_append by auto. destruct (oplog a) as [r ts] eqn:EO. simpl in H2. rewrite EO in H2. simpl.
    destruct (H2 pre _ _ _ _ eq_refl H1) as [N1 N2].
    destruct (append_total _ _ _ _ _ r ts H H0) as [e1 A]; eauto.
    rewrite A. simpl.
    destruct (append_hist _ _ _ _ _ _ _ _ _ _ H H0 H1 (fun _ => N1) A)
      as (_ & st1 & win1 & pos1 & I1 & S1 & H1').
    replace (pre ++ (r, ts) :: map oplog ops) with ((pre ++ [(r, ts)]) ++ map oplog ops) in *
      by (rewrite <- app_assoc; auto).
    destruct (IHops _ _ _ _ _ _ I1 S1 H1' H2 H7) as [e2 ->]. simpl. eauto. }
  apply (K ops [] _ _ _ _ 0 E0 empty_sinv h_nil NE AP).
Qed.

End EP.
Arguments sinv {R} C ok st.

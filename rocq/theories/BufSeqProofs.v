(** Sequential use of a buffer of any capacity. *)
From Coq Require Import List Arith ZArith NArith Lia Bool.
From Verif Require Import Base ListLemmas RecordModel RecordProofs BufferModel BufferProofs BufSpec
  MergeModel MergeProofs StructModel ExtModel ContentProofs.
Import ListNotations.

Section BS.
Context {R : Type} {RO : RecOps R}.

(** [log]: the accepted records so far; [h]: the head. *)
Record binv (b : buffer R) (log : list (R * bool)) (h : nat) : Prop := {
  v_cap_len : length (b_data b) = b_cap b;
  v_cap_hwm : b_hwm b < b_cap b;
  v_tail_eq : b_tail b = length log;
  v_head_eq : hidx (b_head b) = h;
  v_head_le : h <= length log;
  v_cnt_le : length log - h <= b_hwm b;
  v_cont : map rt (ring (b_data b) h (length log - h)) = skipn h log
}.

Lemma skipn_skipn' : forall {A} (l : list A) a b, skipn a (skipn b l) = skipn (b + a) l.
Proof. induction l; intros a' [|b]; cbn [skipn Nat.add]; auto. apply skipn_nil. Qed.

Lemma create_inv : forall lwm hwm cap b, buf_create lwm hwm cap = Ok b -> binv b [] 0.
Proof.
  intros lwm hwm cap b H. unfold buf_create in H.
  set (c := if cap =? 0 then 2 * hwm else cap) in *.
  destruct (Nat.ltb_spec hwm c); [|discriminate]. destruct (lwm <=? hwm); [|discriminate].
  inv H. constructor; cbn; auto; try lia. apply repeat_length.
Qed.

Lemma get_head_inv : forall b log h t b' x, binv b log h -> buf_get_head b t = Ok (b', x) ->
  binv b' log h /\ b_data b' = b_data b /\ b_tail b' = b_tail b /\ b_cap b' = b_cap b /\ x = t.
Proof.
  intros b log h t b' x I H. unfold buf_get_head in H.
  destruct (hidx (b_old b) =? t) eqn:E1; [|destruct (hidx (b_head b) =? t) eqn:E2; [|discriminate]]; inv H;
    destruct I; (split; [|auto]); constructor; cbn; auto.
  apply Nat.eqb_eq in E2. congruence.
Qed.

Lemma exec_inv : forall b log h o b' x, binv b log h -> bexec b o = Ok (b', x) ->
  binv b' (log ++ match o with BApp r ts => if x =? 1 then [(r, ts)] else [] | _ => [] end)
          (match o with BAdv n => if x =? 1 then n else h | _ => h end) /\ x <= 1.
Proof.
  intros b log h o b' x I H. destruct o as [r ts|n|t|t]; cbn [bexec] in H.
  - injection H as H. unfold buf_append in H. destruct I.
    destruct (Nat.leb_spec (b_hwm b) (b_tail b - hidx (b_head b))); inv H; cbn [Nat.eqb].
    + split; [|lia]. rewrite app_nil_r. constructor; auto.
    + split; [|lia]. rewrite v_tail_eq0 in H0.
      constructor; cbn [b_data b_cap b_hwm b_tail b_head]; auto; rewrite ?app_length, ?set_nth_length; cbn [length]; try lia.
      replace (length log + 1 - hidx (b_head b)) with (S (length log - hidx (b_head b))) by lia.
      replace (b_tail b mod b_cap b) with
        ((hidx (b_head b) + (length log - hidx (b_head b))) mod length (b_data b)) by (rewrite v_cap_len0; f_equal; lia).
      rewrite ring_snoc by lia. rewrite map_app, v_cont0. cbn [map].
      rewrite rt_append, skipn_app.
      replace (hidx (b_head b) - length log) with 0 by lia. reflexivity.
  - unfold buf_advance_head in H.
    destruct (Nat.ltb_spec (hidx (b_head b)) n); [|discriminate].
    destruct (Nat.leb_spec n (b_tail b)); [|discriminate]. cbn [negb] in H.
    destruct (0 <? href (b_old b)); inv H; cbn [Nat.eqb]; rewrite app_nil_r; (split; [|lia]); auto.
    destruct I. constructor; cbn; auto; try lia.
    rewrite v_head_eq0 in H0.
    replace (skipn n log) with (skipn (n - h) (skipn h log)) by (rewrite skipn_skipn'; f_equal; lia).
    rewrite <- v_cont0. unfold ring. rewrite !map_map, skipn_map. f_equal.
    replace (length log - h) with ((n - h) + (length log - n)) by lia.
    rewrite seq_app, skipn_app, seq_length, Nat.sub_diag, skipn_all2 by (rewrite seq_length; lia).
    cbn [skipn app]. f_equal. lia.
  - unfold buf_get_view in H. destruct (buf_get_head b t) as [[b1 y]|] eqn:E; inv H.
    rewrite app_nil_r. apply (get_head_inv _ _ _ _ _ _ I) in E as [E _]. auto.
  - destruct (buf_release b t) as [b1|] eqn:E; inv H. rewrite app_nil_r. split; auto.
    unfold buf_release in E. destruct (hidx (b_old b) =? t); [destruct (href (b_old b))|destruct (href (b_head b))];
      inv E; destruct I; constructor; cbn; auto.
Qed.

Lemma run_inv : forall ops b log h b' rs, binv b log h -> brun b ops = Ok (b', rs) ->
  binv b' (log ++ appended ops rs) (head_after h ops rs).
Proof.
  induction ops as [|o ops IH]; intros b log h b' rs I H; cbn [brun] in H.
  - inv H. cbn. rewrite app_nil_r. auto.
  - destruct (bexec b o) as [[b1 x]|] eqn:E; [|discriminate]. cbn [bind] in H.
    destruct (brun b1 ops) as [[b2 xs]|] eqn:E2; inv H.
    destruct (exec_inv _ _ _ _ _ _ I E) as [I1 LX]. specialize (IH _ _ _ _ _ I1 E2).
    rewrite <- app_assoc in IH.
    destruct o; cbn [appended head_after]; destruct x as [|[|x]]; try lia; cbn [Nat.eqb app] in IH; auto.
Qed.

Theorem view_fifo : forall lwm hwm cap b0 ops b rs, buf_create lwm hwm cap = Ok b0 ->
  brun b0 ops = Ok (b, rs) ->
  let log := appended ops rs in let h := head_after 0 ops rs in
  exists b' v ws, buf_view b = Ok (b', v) /\ v_head v = h /\ v_tail v = length log /\
    v_records (b_data b') v = Ok ws /\ v_copy (b_data b') v = Ok ws /\
    map (fun w => (wrec w, is_ts w)) ws = skipn h log /\
    forall i w, nth_error ws i = Some w -> v_get (b_data b') v i = Ok w.
Proof.
  intros lwm hwm cap b0 ops b rs H0 H log h.
  pose proof (run_inv _ _ _ _ _ _ (create_inv _ _ _ _ H0) H) as I. cbn [app] in I. fold log h in I.
  unfold buf_view, buf_get_view.
  assert (E : exists b', buf_get_head b (hidx (b_head b)) = Ok (b', hidx (b_head b))).
  { unfold buf_get_head. rewrite Nat.eqb_refl. destruct (_ =? _); eauto. }
  destruct E as [b' E]. rewrite E. cbn [bind].
  destruct (get_head_inv _ _ _ _ _ _ I E) as (I' & ED & ET & EC & _).
  exists b'. eexists. exists (ring (b_data b') h (length log - h)).
  split; [reflexivity|]. destruct I, I'. cbn [v_head v_tail].
  split; auto. split; [lia|].
  assert (VO : vok (b_data b') (View (b_cap b') (hidx (b_head b)) (b_tail b') (b_tscnt b'))).
  { unfold vok. cbn. split; [auto|]. split; lia. }
  rewrite (v_records_ok _ _ VO), (v_copy_ok _ _ VO). unfold v_count. cbn [v_head v_tail].
  rewrite v_head_eq0, v_tail_eq1. split; auto. split; auto. split; [rewrite <- v_cont1; auto|].
  intros i w Hi. unfold v_get.
  assert (L : i < length log - h).
  { pose proof (nth_some_lt _ _ _ Hi). rewrite ring_length in H1. auto. }
  rewrite v_to_idx_ok; cbn [v_cap v_head]; try lia.
  cbn [bind]. rewrite nth_error_ring in Hi by auto. inv Hi. unfold nth_res.
  rewrite (nth_error_nth_some _ _ wzero).
  - rewrite v_cap_len1. auto.
  - rewrite <- v_cap_len1. apply Nat.mod_upper_bound. lia.
Qed.

(** An append is refused exactly when the buffer holds [hwm] records. *)
Lemma bexec_hwm : forall (b : buffer R) o b' x, bexec b o = Ok (b', x) -> b_hwm b' = b_hwm b.
Proof.
  intros b [r ts|n|h|h] b' x H; cbn [bexec] in H.
  - unfold buf_append in H. destruct (_ <=? _); inv H; auto.
  - unfold buf_advance_head in H. destruct (negb (_ <? _)); [discriminate|].
    destruct (negb _); [discriminate|]. destruct (0 <? _); inv H; auto.
  - unfold buf_get_view, buf_get_head in H. destruct (_ =? _); [inv H; auto|]. destruct (_ =? _); inv H; auto.
  - unfold buf_release in H. destruct (_ =? _); destruct (href _); inv H; auto.
Qed.

Lemma brun_hwm : forall ops (b : buffer R) b' rs, brun b ops = Ok (b', rs) -> b_hwm b' = b_hwm b.
Proof.
  induction ops as [|o ops IH]; intros b b' rs H; cbn [brun] in H; [inv H; auto|].
  destruct (bexec b o) as [[b1 x]|] eqn:E; cbn [bind] in H; [|discriminate].
  destruct (brun b1 ops) as [[b2 xs]|] eqn:E2; cbn [bind] in H; [|discriminate]. inv H.
  rewrite (IH _ _ _ E2). eapply bexec_hwm; eauto.
Qed.

Theorem append_refused : forall lwm hwm cap b0 ops b rs r ts, buf_create lwm hwm cap = Ok b0 ->
  brun b0 ops = Ok (b, rs) ->
  (snd (buf_append b r ts) = 0 <-> length (appended ops rs) - head_after 0 ops rs = hwm) /\
  (snd (buf_append b r ts) = 0 -> fst (buf_append b r ts) = b).
Proof.
  intros lwm hwm cap b0 ops b rs r ts H0 H.
  pose proof (run_inv _ _ _ _ _ _ (create_inv _ _ _ _ H0) H) as I. cbn [app] in I. destruct I.
  assert (HW : b_hwm b = hwm).
  { rewrite (brun_hwm _ _ _ _ H). unfold buf_create in H0.
    cbv zeta in H0. destruct (_ && _); inv H0. auto. }
  unfold buf_append. rewrite v_tail_eq0, v_head_eq0, HW in *.
  destruct (Nat.leb_spec hwm (length (appended ops rs) - head_after 0 ops rs)); cbn; split; try split; intros; auto; lia.
Qed.

End BS.

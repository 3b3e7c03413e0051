(** Proofs about the benchmark programs. *)
From Coq Require Import List Arith ZArith NArith Lia Bool Permutation Sorted.
From Verif Require Import Base ListLemmas RecordModel RecordProofs BufferModel MergeModel MergeProofs StructModel ExtModel Spec
  ExtProofs SerialProofs TagContent SizeProofs CountProofs BsmProofs DriveModel DriveSpec DriveProofs DriveTag FileModel FileSpec FileProofs ProgModel.
Import ListNotations.

Lemma picks_sorted : forall coin n room i c js c', picks coin room n i c = (js, c') ->
  StronglySorted lt js /\ Forall (fun j => i <= j < i + n) js /\ length js <= room.
Proof.
  induction n as [|n IH]; intros room i c js c' H; cbn [picks] in H.
  - injection H as <- <-. repeat constructor. simpl. lia.
  - destruct room as [|room]; [injection H as <- <-; repeat constructor|].
    destruct (coin c).
    + destruct (picks coin room n (S i) (S c)) as [l c1] eqn:E. injection H as <- <-.
      destruct (IH _ _ _ _ _ E) as (A & F & L). split; [|split; [|simpl; lia]].
      * constructor; auto. eapply Forall_impl; [|exact F]. simpl. intros. lia.
      * constructor; [lia|]. eapply Forall_impl; [|exact F]. simpl. intros. lia.
    + destruct (IH _ _ _ _ _ H) as (A & F & L). split; auto. split; auto.
      eapply Forall_impl; [|exact F]. simpl. intros. lia.
Qed.

Lemma sorted_nodup : forall js, StronglySorted lt js -> NoDup js.
Proof.
  induction 1; constructor; auto. intros I. rewrite Forall_forall in H0. specialize (H0 _ I). lia.
Qed.

(** The positions are those of the random numbers that ask for one, until there are
    enough. *)
Lemma picks_coins : forall coin n room i c js c', picks coin room n i c = (js, c') ->
  c <= c' <= c + n /\ js = map (fun x => i + (x - c)) (filter coin (seq c (c' - c))) /\ (c' = c + n \/ length js = room).
Proof.
  induction n as [|n IH]; intros room i c js c' H; cbn [picks] in H.
  - injection H as <- <-. rewrite Nat.sub_diag. simpl. repeat split; lia.
  - destruct room as [|room]; [injection H as <- <-; rewrite Nat.sub_diag; simpl; repeat split; lia|].
    assert (SH : forall c1 l, S c <= c1 -> l = map (fun x => S i + (x - S c)) (filter coin (seq (S c) (c1 - S c))) ->
      l = map (fun x => i + (x - c)) (filter coin (seq (S c) (c1 - S c)))).
    { intros c1 l _ ->. apply map_ext_in. intros x I. apply filter_In in I as (I & _). apply in_seq in I. lia. }
    destruct (coin c) eqn:CO.
    + destruct (picks coin room n (S i) (S c)) as [l c1] eqn:E. injection H as <- <-.
      destruct (IH _ _ _ _ _ E) as (A & EL & L). split; [lia|]. split; [|simpl; lia].
      replace (c1 - c) with (S (c1 - S c)) by lia. cbn [seq filter]. rewrite CO. cbn [map].
      rewrite Nat.sub_diag, Nat.add_0_r. f_equal. apply SH; auto. lia.
    + destruct (IH _ _ _ _ _ H) as (A & EL & L). split; [lia|]. split; [|lia].
      replace (c' - c) with (S (c' - S c)) by lia. cbn [seq filter]. rewrite CO. apply SH; auto. lia.
Qed.

Section Prog.
Context {R : Type} {RO : RecOps R}.

(** More entries at the end of the list of positions do not change the calls. *)
Lemma calls_more : forall (recs : list R) P Z deleting coin n i di c x,
  calls recs P deleting coin n i di c = Ok x -> calls recs (P ++ Z) deleting coin n i di c = Ok x.
Proof.
  intros recs P Z deleting coin. induction n as [|n IH]; intros i di c x H; auto. cbn [calls] in *.
  destruct (nth_res i recs) as [r|]; [|discriminate]. cbn [bind] in *.
  assert (G : forall d c' (k : list (op R) * nat -> res (list (op R) * nat)),
    bind (calls recs P deleting coin n (S i) d c') k = Ok x -> bind (calls recs (P ++ Z) deleting coin n (S i) d c') k = Ok x).
  { intros d c' k Q. destruct (calls recs P deleting coin n (S i) d c') as [y|] eqn:E; [|discriminate].
    rewrite (IH _ _ _ _ E). exact Q. }
  destruct deleting; [|apply G; auto]. destruct (coin c); [|apply G; auto].
  unfold nth_res in *. destruct (nth_error P di) as [j|] eqn:E; [|discriminate].
  rewrite nth_error_app1 by (apply nth_error_Some; congruence). rewrite E. cbn [bind] in *.
  destruct (j <=? i); [|apply G; auto]. destruct (nth_error recs j) as [y|]; [|discriminate]. cbn [bind] in *. apply G. auto.
Qed.

Lemma run_two : forall (B : builders R) C ops1 ops2 e e' ns, run B C e (ops1 ++ ops2) = Ok (e', ns) ->
  exists e1 ns1 ns2, run B C e ops1 = Ok (e1, ns1) /\ run B C e1 ops2 = Ok (e', ns2) /\ ns = ns1 ++ ns2.
Proof.
  intros B C. induction ops1 as [|o ops IH]; intros ops2 e e' ns H.
  - exists e, [], ns. auto.
  - cbn [app run] in *. destruct (step B C e o) as [[e1 k]|]; [|discriminate]. cbn [bind] in *.
    destruct (run B C e1 (ops ++ ops2)) as [[e2 ns2]|] eqn:E; [|discriminate]. cbn [bind] in H. injection H as <- <-.
    destruct (IH _ _ _ _ E) as (e3 & n1 & n2 & A & A2 & ->). rewrite A. cbn [bind]. eauto 10.
Qed.

Lemma erased_app : forall a b : list (op R), erased (a ++ b) = erased a ++ erased b.
Proof. intros. apply flat_map_app. Qed.

Lemma no_erase : forall (a : list (op R)) pre r post, erased a = [] -> a = pre ++ Del r :: post -> False.
Proof. intros a pre r post H ->. rewrite erased_app in H. destruct (erased pre); discriminate. Qed.

Lemma split_del : forall (a b pre : list (op R)) r post, erased a = [] -> a ++ b = pre ++ Del r :: post ->
  exists pre', pre = a ++ pre' /\ b = pre' ++ Del r :: post.
Proof.
  induction a as [|o a IH]; intros b pre r post H E; [exists pre; auto|]. destruct o as [x|x]; [|discriminate].
  destruct pre as [|o' pre]; [discriminate|]. cbn [app] in E. injection E as <- E.
  destruct (IH _ _ _ _ H E) as (p & -> & ->). exists p. auto.
Qed.

Lemma slice_prefix : forall {A} n m (l : list A), firstn n l ++ slice n m l = firstn (n + m) l.
Proof.
  induction n; intros m l; [reflexivity|]. destruct l as [|a l]; [unfold slice; cbn [skipn]; rewrite !firstn_nil; reflexivity|].
  cbn [Nat.add firstn]. rewrite <- IHn. reflexivity.
Qed.

Context {RL : RecLaws R} (qlt : qorder R) {QO : QOrder qlt}.

(** A warm-up followed by inserts and erases; of the list of positions [P ++ Z] only [P]
    is used. *)
Theorem two_calls : forall C recs P Z coin w c fuel e0, w <= length recs ->
  countb coin (seq c (length recs - w)) <= length P -> 0 < fuel -> ext_new C = Ok e0 ->
  exists ops d', inserted ops = recs /\ d' <= length P /\
    map Some (erased ops) = map (nth_error recs) (firstn d' P) /\ erases_present [] ops /\
    forall e, run_new qlt C ops = Ok (e, repeat 1 (length ops)) ->
     exists e1, insert_records qlt C recs (P ++ Z) false coin fuel 0 w 0 c e0 = Ok (e1, 0) /\
       insert_records qlt C recs (P ++ Z) true coin fuel w (length recs) 0 c e1 = Ok (e, d').
Proof.
  intros C recs P Z coin w c fuel e0 LW CN FU N0.
  destruct (calls_ok recs P false coin w 0 0 c ltac:(lia) ltac:(discriminate)) as (ops1 & d1 & E1 & G1).
  destruct (calls_ok recs P true coin (length recs - w) w 0 c ltac:(lia) ltac:(auto)) as (ops2 & d2 & E2 & G2).
  apply (calls_more _ _ Z) in E1. apply (calls_more _ _ Z) in E2.
  destruct G1 as (I1 & _ & _ & _ & _ & _ & X1). destruct (X1 eq_refl) as (R1 & ->). clear X1.
  destruct G2 as (I2 & D2 & M2 & (js & J1 & J2 & J3) & _ & P2 & _).
  rewrite Nat.sub_0_r in J1. subst js. unfold slice in I1. cbn [skipn] in I1.
  exists (ops1 ++ ops2), d2. split; [|split; [lia|split; [|split]]].
  - rewrite inserted_app, I1, I2, slice_prefix. apply firstn_all2. lia.
  - rewrite erased_app, R1. exact J3.
  - intros pre r post Q. destruct (split_del _ _ _ _ _ R1 Q) as (p & -> & Q2). cbn [app].
    rewrite inserted_app, I1. eapply P2. exact Q2.
  - intros e RN. pose proof (from_new qlt C e0 _ _ _ N0 RN) as RR. apply run_two in RR as (e1 & n1 & n2 & A1 & A2 & EN).
    assert (NZ : Forall (fun k => k <> 0) (n1 ++ n2)) by (rewrite <- EN; apply all_ones).
    apply Forall_app in NZ as (NZ1 & NZ2). exists e1. split.
    + unfold insert_records. rewrite Nat.sub_0_r. eapply drive_calls; eauto.
    + unfold insert_records. eapply drive_calls; eauto.
Qed.

Theorem tagging_fill : forall C recs P (ops : list (op R)) d', valid_cfg C -> c_del C = TAGGING ->
  all_different recs -> NoDup P -> inserted ops = recs ->
  map Some (erased ops) = map (nth_error recs) (firstn d' P) -> erases_present [] ops -> survivors (c_lwm C) ops ->
  exists e, run_new qlt C ops = Ok (e, repeat 1 (length ops)) /\
    Permutation (map wrec (filter (fun w => negb (is_del w)) (stored e))) (live ops).
Proof.
  intros C recs P ops d' V TG AD ND II EE EP SV.
  assert (D : distinct_inserts ops).
  { intros r. rewrite n_ins_inserted, II. apply different_count; auto. }
  assert (EL : erases_live ops).
  { intros pre r post E. exists r. split; [|apply req_refl]. apply never_erased_live; [apply (EP pre r post E)|].
    eapply erased_once; [exact AD| |exact EE|exact E]. change (firstn d' P) with (slice 0 d' P). apply nodup_slice. auto. }
  assert (B : bsm_safe qlt C ops) by (intros _; apply (few_never_empty qlt C V); right; right; auto).
  destruct (tag_run_ok qlt C V _ TG SV) as (e & rs & RN).
  pose proof (tagging_ones qlt C V _ e rs TG B D EL RN) as ->.
  exists e. split; auto. apply (tagging_live qlt C V _ e _ TG B D RN).
Qed.
End Prog.

Theorem program_calls (qlt : qorder kv) {QO : QOrder qlt} : forall C coin k key_of ks rest fuel n size w js c,
  valid_cfg C -> Forall (fits k) ks -> w <= n <= length ks -> 0 < fuel ->
  picks coin size n 0 0 = (js, c) -> countb coin (seq c (n - w)) <= length js ->
  exists recs ops d', length recs = n /\
    (forall i x, i < n -> nth_error ks i = Some x -> nth_error recs i = Some (KV (key_of x) (Z.of_nat i))) /\
    all_different recs /\ inserted ops = recs /\ d' <= length js /\
    map Some (erased ops) = map (nth_error recs) (firstn d' js) /\ erases_present [] ops /\
    (forall e, run_new qlt C ops = Ok (e, repeat 1 (length ops)) ->
     bench_fill coin qlt C k key_of fuel n size w (concat (map (le_bytes k) ks) ++ rest) = Ok (e, d')).
Proof.
  intros C coin k key_of ks rest fuel n size w js c V F L FU PK CN.
  destruct (sosd_read k key_of ks rest n F ltac:(lia)) as (recs & E & LR & NT & AD).
  destruct (new_total (R := kv) C (proj1 (proj2 (proj2 V))) (proj1 V) (proj1 (proj2 V)) (proj2 (proj2 (proj2 V)))) as [e0 N0].
  destruct (two_calls qlt C recs js (repeat 0 (size - length js)) coin w c fuel e0
              ltac:(lia) ltac:(rewrite LR; auto) FU N0) as (ops & d' & I & D & ER & EP & K).
  exists recs, ops, d'. split; auto. split; auto. split; auto. split; auto. split; auto. split; auto. split; auto. intros e RN.
  destruct (K e RN) as (e1 & A1 & A2). unfold bench_fill, to_delete. rewrite N0. cbn [bind]. rewrite E. cbn [bind].
  rewrite LR, PK. rewrite A1. cbn [bind]. rewrite LR in A2. exact A2.
Qed.

Theorem program_tagging (qlt : qorder kv) {QO : QOrder qlt} : forall C coin k key_of ks rest fuel n size w js c,
  valid_cfg C -> c_del C = TAGGING -> Forall (fits k) ks -> w <= n <= length ks -> 0 < fuel ->
  picks coin size n 0 0 = (js, c) -> countb coin (seq c (n - w)) <= length js ->
  exists recs ops d', length recs = n /\
    (forall i x, i < n -> nth_error ks i = Some x -> nth_error recs i = Some (KV (key_of x) (Z.of_nat i))) /\
    inserted ops = recs /\ d' <= length js /\
    map Some (erased ops) = map (nth_error recs) (firstn d' js) /\
    (survivors (c_lwm C) ops ->
     exists e, bench_fill coin qlt C k key_of fuel n size w (concat (map (le_bytes k) ks) ++ rest) = Ok (e, d') /\
       run_new qlt C ops = Ok (e, repeat 1 (length ops)) /\
       Permutation (map wrec (filter (fun w => negb (is_del w)) (stored e))) (live ops)).
Proof.
  intros C coin k key_of ks rest fuel n size w js c V TG F L FU PK CN.
  destruct (program_calls qlt C coin k key_of ks rest fuel n size w js c V F L FU PK CN)
    as (recs & ops & d' & LR & NT & AD & I & D & ER & EP & K).
  exists recs, ops, d'. split; auto. split; auto. split; auto. split; auto. split; auto. intros SV.
  destruct (picks_sorted _ _ _ _ _ _ _ PK) as (SO & _ & _).
  destruct (tagging_fill qlt C recs js ops d' V TG AD (sorted_nodup _ SO) I ER EP SV) as (e & RN & PE). eauto.
Qed.

Theorem program_tombstones (qlt : qorder kv) {QO : QOrder qlt} : forall C coin k key_of ks rest fuel n size w js c,
  valid_cfg C -> c_del C = TOMBSTONE -> Forall (fits k) ks -> w <= n <= length ks -> 0 < fuel ->
  picks coin size n 0 0 = (js, c) -> countb coin (seq c (n - w)) <= length js ->
  exists recs ops d', length recs = n /\
    (forall i x, i < n -> nth_error ks i = Some x -> nth_error recs i = Some (KV (key_of x) (Z.of_nat i))) /\
    inserted ops = recs /\ d' <= length js /\
    map Some (erased ops) = map (nth_error recs) (firstn d' js) /\
    (mostly_inserts (c_lwm C) ops ->
     exists e, bench_fill coin qlt C k key_of fuel n size w (concat (map (le_bytes k) ks) ++ rest) = Ok (e, d') /\
       run_new qlt C ops = Ok (e, repeat 1 (length ops)) /\
       forall r, n_plain r (stored e) + n_del r ops = n_tomb r (stored e) + n_ins r ops).
Proof.
  intros C coin k key_of ks rest fuel n size w js c V TB F L FU PK CN.
  destruct (program_calls qlt C coin k key_of ks rest fuel n size w js c V F L FU PK CN)
    as (recs & ops & d' & LR & NT & AD & I & D & ER & EP & K).
  exists recs, ops, d'. split; auto. split; auto. split; auto. split; auto. split; auto. intros MI.
  destruct (run_ok qlt C V ops (tomb_appends C _ TB) (mostly_blocks _ _ MI)) as (e & RN).
  exists e. split; auto. split; auto. apply (net_balance qlt C V ops e _ TB) with (2 := RN).
  intros _. apply (few_never_empty qlt C V). right. left. auto.
Qed.

Theorem positions_chosen : forall coin n size js c, picks coin size n 0 0 = (js, c) ->
  StronglySorted lt js /\ js = filter coin (seq 0 c) /\ c <= n /\ length js <= size /\ (c = n \/ length js = size).
Proof.
  intros coin n size js c H. destruct (picks_sorted _ _ _ _ _ _ _ H) as (A & _ & L).
  destruct (picks_coins _ _ _ _ _ _ _ H) as (B & E & X). rewrite Nat.sub_0_r in E.
  split; auto. split; [|repeat split; lia]. rewrite E at 1. rewrite <- map_id. apply map_ext. intros. lia.
Qed.

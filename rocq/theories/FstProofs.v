(** Proofs about the benchmark program for point lookups of strings. *)
From Coq Require Import List Arith ZArith NArith Lia Bool Permutation Sorted.
From Verif Require Import Base ListLemmas RecordModel RecordProofs BufferModel MergeModel MergeProofs StructModel ExtModel
  ExtProofs QueryModel Spec SerialProofs KindModel KindSpec KindProofs AloneModel
  DriveModel DriveSpec DriveProofs FileModel FileSpec FileProofs ProgModel ProgProofs NearProofs FstModel.
Import ListNotations.

Lemma word_recs_nth : forall addr ss i j s, nth_error ss j = Some s ->
  nth_error (word_recs addr i ss) j = Some (CRec s (addr (i + j)) (Z.of_nat (i + j))).
Proof.
  intros addr. induction ss as [|x ss IH]; intros i j s H; [destruct j; discriminate|]. destruct j as [|j]; cbn [word_recs nth_error] in *.
  - injection H as <-. rewrite Nat.add_0_r. auto.
  - rewrite (IH (S i) j s H). replace (S i + j) with (i + S j) by lia. auto.
Qed.

Lemma word_recs_length : forall addr ss i, length (word_recs addr i ss) = length ss.
Proof. intros addr. induction ss; intros; simpl; auto. Qed.

Lemma word_recs_in : forall addr ss r, In r (word_recs addr 0 ss) ->
  exists j, nth_error ss j = Some (c_str r) /\ c_addr r = addr j /\ j < length ss.
Proof.
  intros addr ss r H. apply In_nth_error in H as (j & H).
  assert (L : j < length ss) by (rewrite <- (word_recs_length addr ss 0); apply nth_error_Some; congruence).
  destruct (nth_error ss j) as [s|] eqn:E; [|apply nth_error_None in E; lia].
  rewrite (word_recs_nth addr ss 0 j s E) in H. injection H as <-. exists j. auto.
Qed.

Lemma word_recs_strs : forall addr ss i, map c_str (word_recs addr i ss) = ss.
Proof. intros addr. induction ss; intros; simpl; auto. rewrite IHss. auto. Qed.

Lemma only_inserts {R : Type} : forall ops : list (op R), erased ops = [] -> insert_only ops.
Proof.
  induction ops as [|[r|r] ops IH]; intros E o I; try contradiction; [|discriminate].
  destruct I as [<-|I]; [eauto|]. apply IH; auto.
Qed.

Section Word.
Variable qlt : qorder crec.
Context {QO : QOrder qlt}.
Variable literal : nat.
Variable C : cfg.
Hypothesis V : valid_cfg C.
Variable addr : nat -> nat.

(** The calls of the filling, all of them on records of the list. *)
Lemma word_calls : forall recs coin fuel size w js c d0, w <= length recs -> 0 < fuel ->
  picks coin size (length recs) 0 0 = (js, c) -> countb coin (seq c (length recs - w)) <= d0 <= length js ->
  exists ops d', inserted ops = recs /\ d' <= d0 /\ map Some (erased ops) = map (nth_error recs) (firstn d' js) /\
    forall e, run_new (trie_shards qlt literal) C ops = Ok (e, repeat 1 (length ops)) ->
      word_fill qlt literal coin C fuel size w recs = Ok (e, d').
Proof.
  intros recs coin fuel size w js c d0 LW FU PK CN.
  destruct (new_total (R := crec) C (proj1 (proj2 (proj2 V))) (proj1 V) (proj1 (proj2 V)) (proj2 (proj2 (proj2 V)))) as [e0 N0].
  destruct (two_calls_any (trie_shards qlt literal) C recs (firstn d0 js) (skipn d0 js ++ repeat 0 (size - length js)) coin w c fuel e0
    LW ltac:(rewrite firstn_length; lia) FU N0) as (ops & d' & II & D' & EE & _ & K).
  rewrite firstn_length in D'. exists ops, d'. split; auto. split; [lia|].
  split; [rewrite firstn_firstn, Nat.min_l in EE by lia; auto|].
  intros e RN. destruct (K e RN) as (e1 & A1 & A2).
  rewrite app_assoc, firstn_skipn in A1, A2.
  unfold word_fill, to_delete. rewrite N0. cbn [bind]. rewrite PK, A1. cbn [bind]. exact A2.
Qed.

Lemma words_no_blank : forall ss ops js, (forall i, i < length ss -> addr i <> literal) ->
  inserted ops = word_recs addr 0 ss -> map Some (erased ops) = map (nth_error (word_recs addr 0 ss)) js ->
  no_blank literal ops.
Proof.
  intros ss ops js NL II EE o IO.
  assert (I : In (op_rec o) (word_recs addr 0 ss)).
  { destruct o as [r|r]; cbn [op_rec].
    - rewrite <- II. unfold inserted. apply in_flat_map. exists (Ins r). simpl. auto.
    - assert (I : In (Some r) (map Some (erased ops))).
      { apply in_map. unfold erased. apply in_flat_map. exists (Del r). simpl. auto. }
      rewrite EE in I. apply in_map_iff in I as (j & I & _). eapply nth_error_In. exact I. }
  apply word_recs_in in I as (j & _ & -> & L). auto.
Qed.

(** With tombstones the filling succeeds when the erases are few enough. *)
Theorem word_tombstones : forall ss coin fuel size w js c, (forall i, i < length ss -> addr i <> literal) ->
  c_del C = TOMBSTONE -> w <= length ss -> 0 < fuel ->
  picks coin size (length ss) 0 0 = (js, c) -> countb coin (seq c (length ss - w)) <= length js ->
  let recs := word_recs addr 0 ss in
  exists ops d', inserted ops = recs /\ d' <= length js /\ map Some (erased ops) = map (nth_error recs) (firstn d' js) /\
    (mostly_inserts (c_lwm C) ops -> exists e, word_fill qlt literal coin C fuel size w recs = Ok (e, d') /\
      run_new (trie_shards qlt literal) C ops = Ok (e, repeat 1 (length ops)) /\
      (c_layout C <> BSM -> forall r, n_plain r (stored e) + n_del r ops = n_tomb r (stored e) + n_ins r ops)).
Proof.
  intros ss coin fuel size w js c NL TB LW FU PK CN recs.
  assert (LR : length recs = length ss) by apply word_recs_length. rewrite <- LR in *.
  destruct (word_calls recs coin fuel size w js c (length js) LW FU PK ltac:(lia)) as (ops & d' & II & D' & EE & K).
  exists ops, d'. split; auto. split; auto. split; auto. intros MI.
  pose proof (words_no_blank ss ops _ ltac:(rewrite <- LR; auto) II EE) as NB.
  destruct (trie_runs_ts qlt literal C V ops TB NB MI) as (e & RN). exists e. split; auto. split; auto.
  intros NBSM. apply (trie_balance qlt literal C V ops e _ TB NB) with (2 := RN). intros Q. contradiction.
Qed.

Variable search : list (list N) -> list N -> option nat.
Hypothesis SE : search_exact search.

Lemma static_lookup : forall (s : shard crec) k r, StronglySorted wle (s_data s) ->
  NoDup (map (fun w => c_str (wrec w)) (s_data s)) -> In r (map wrec (s_data s)) -> c_str r = k ->
  exists w, alone_pl (trie_lookup search k) s = Ok [w] /\ wrec w = r.
Proof.
  intros s k r SO ND I E.
  pose proof (SE _ k (strs_increasing _ SO ND)) as X. apply in_map_iff in I as (w0 & <- & I0).
  unfold alone_pl, pl_local, trie_lookup. destruct (s_data s) as [|w1 l] eqn:D; [contradiction|]. rewrite <- D in *.
  destruct (search (map (fun w => c_str (wrec w)) (s_data s)) k) as [i|] eqn:SI.
  - rewrite nth_error_map in X. destruct (nth_error (s_data s) i) as [w|] eqn:W; [|discriminate]. cbn in X. injection X as X.
    unfold nth_res. rewrite W. cbn [bind]. exists w. split; [reflexivity|].
    apply nth_error_In in W. clear - ND W I0 X E.
    revert W I0 ND. generalize (s_data s). induction l as [|y l IH]; intros W I0 ND; [contradiction|]. cbn [map] in ND.
    apply NoDup_cons_iff in ND as (N & ND). destruct W as [->|W], I0 as [->|I0]; auto; exfalso; apply N.
    + rewrite X, <- E. apply (in_map (fun w => c_str (wrec w))). auto.
    + rewrite E, <- X. apply (in_map (fun w => c_str (wrec w))). auto.
  - exfalso. apply X. rewrite <- E. apply (in_map (fun w => c_str (wrec w))). auto.
Qed.

Theorem words : forall ls n qrng cnt coin fuel size w js c,
  Forall (fun l => ~ In 10%N l /\ ~ In 0%N l) ls -> let ss := firstn n ls in
  NoDup ss -> (forall i j, i < length ss -> j < length ss -> addr i = addr j -> i = j) ->
  (forall i, i < length ss -> addr i <> literal) -> w <= length ss -> 0 < fuel ->
  picks coin size (length ss) 0 0 = (js, c) -> countb coin (seq c (length ss - w)) = 0 ->
  let program := bench_words qlt literal search addr coin C qrng cnt n fuel size w (text ls) in
  (cnt = 0 -> program = Fail FOob) /\ (0 < cnt -> ss = [] -> program = Fail FAssert) /\
  (0 < cnt -> ss <> [] -> exists outs sts, program = Ok (outs, sts) /\
    length outs = cnt /\ map (map wrec) sts = outs /\
    forall i, i < cnt -> let j := qrng i mod length ss in
      exists s, nth_error ss j = Some s /\ nth_error outs i = Some [CRec s (addr j) (Z.of_nat j)]).
Proof.
  intros ls n qrng cnt coin fuel size w js c FL ss ND AI NL LW FU PK CN program. subst program.
  split; [intros ->|split; [intros CP NE|intros CP NE]].
  { set (recs := word_recs addr 0 ss). assert (LR : length recs = length ss) by apply word_recs_length.
    destruct (word_calls recs coin fuel size w js c 0 ltac:(lia) FU ltac:(rewrite LR; auto) ltac:(rewrite LR; lia))
      as (ops & d' & II & D' & EE & K).
    assert (ER : erased ops = []).
    { replace d' with 0 in EE by lia. cbn in EE. destruct (erased ops); auto. discriminate. }
    destruct (trie_runs qlt literal C V ops (only_inserts ops ER) (words_no_blank ss ops _ NL II EE)) as (e & RN).
    unfold bench_words. rewrite (strings_read n ls FL). fold ss recs. rewrite (K e RN). reflexivity. }
  { unfold bench_words. rewrite (strings_read n ls FL). fold ss. rewrite NE. destruct cnt; [lia|]. reflexivity. }
  set (recs := word_recs addr 0 ss). assert (LR : length recs = length ss) by apply word_recs_length.
  assert (NZ : length ss <> 0) by (destruct ss; [contradiction|discriminate]).
  destruct (word_calls recs coin fuel size w js c 0 ltac:(lia) FU ltac:(rewrite LR; auto) ltac:(rewrite LR; lia))
    as (ops & d' & II & D' & EE & K).
  assert (ER : erased ops = []).
  { replace d' with 0 in EE by lia. cbn in EE. destruct (erased ops); auto. discriminate. }
  pose proof (only_inserts ops ER) as IO.
  pose proof (words_no_blank ss ops _ NL II EE) as NB.
  destruct (trie_runs qlt literal C V ops IO NB) as (e & RN).
  destruct (trie_static qlt literal C V ops e _ IO NB RN) as (s & SS & _ & PS & SO).
  assert (DK : distinct_keys ops) by (unfold distinct_keys; rewrite II; unfold recs; rewrite word_recs_strs; auto).
  assert (NS : NoDup (map (fun w => c_str (wrec w)) (s_data s))).
  { rewrite <- map_map. apply (Permutation_NoDup (Permutation_map c_str PS)). exact DK. }
  assert (ONE : forall i, exists sj, nth_error ss (qrng i mod length ss) = Some sj /\
    let r := CRec sj (addr (qrng i mod length ss)) (Z.of_nat (qrng i mod length ss)) in
    trie_point_lookup search e sj (c_addr r) = Ok (e, [r]) /\
    exists x, alone_pl (trie_lookup search sj) s = Ok [x] /\ wrec x = r).
  { intros i. set (j := qrng i mod length ss). assert (LJ : j < length ss) by (apply Nat.mod_upper_bound; auto).
    destruct (nth_error ss j) as [sj|] eqn:ES; [|apply nth_error_None in ES; lia]. exists sj. split; auto. intros r.
    assert (IR : In r recs).
    { apply nth_error_In with j. unfold recs. rewrite (word_recs_nth addr ss 0 j sj ES). reflexivity. }
    split.
    - rewrite (trie_lookup_exact qlt literal C V search SE ops e (repeat 1 (length ops)) sj (c_addr r) IO NB DK); auto.
      + rewrite II, (filter_one sj recs r); auto. unfold recs. rewrite word_recs_strs. auto.
      + intros x IX. rewrite II in IX. apply word_recs_in in IX as (i' & E1 & E2 & L). rewrite E2. unfold r. cbn [c_addr]. split.
        * intros EA. apply AI in EA; auto. subst i'. congruence.
        * intros EX. rewrite EX in E1. rewrite (proj1 (NoDup_nth_error ss) ND i' j L); auto. congruence.
    - apply static_lookup; auto. rewrite <- PS, II. auto. }
  unfold bench_words. rewrite (strings_read n ls FL). fold ss recs. rewrite (K e RN).
  assert (G : forall m b, exists qs outs sts, map_res (fun i => if length ss =? 0 then Fail FAssert
      else let j := qrng i mod length ss in do sj <- nth_res j ss; Ok (sj, addr j)) (seq b m) = Ok qs /\ length qs = m /\
    run_lookups search e qs = Ok (e, outs) /\ static_lookups search s qs = Ok sts /\ length outs = m /\ map (map wrec) sts = outs /\
    forall i, i < m -> exists sj, nth_error ss (qrng (b + i) mod length ss) = Some sj /\
      nth_error outs i = Some [CRec sj (addr (qrng (b + i) mod length ss)) (Z.of_nat (qrng (b + i) mod length ss))]).
  { induction m as [|m IH]; intros b; [exists [], [], []; cbn; repeat split; auto; intros; lia|].
    destruct (IH (S b)) as (qs & outs & sts & E1 & L1 & E2 & E3 & L2 & MM & H).
    destruct (ONE b) as (sj & ES & TP & x & AP & EX). cbv zeta in TP, EX.
    exists ((sj, addr (qrng b mod length ss)) :: qs). do 2 eexists. cbn [seq map_res].
    rewrite (proj2 (Nat.eqb_neq _ _) NZ) in *. cbv zeta in *. unfold nth_res at 1. rewrite ES. cbn [bind].
    rewrite E1. cbn [bind]. split; [reflexivity|]. split; [simpl; lia|]. cbn [run_lookups]. cbn [c_addr] in TP. rewrite TP. cbn [bind].
    rewrite E2. cbn [bind]. split; [reflexivity|]. unfold static_lookups in *. cbn [map_res fst]. rewrite AP. cbn [bind].
    rewrite E3. cbn [bind]. split; [reflexivity|]. split; [simpl; lia|]. split; [cbn [map]; rewrite EX, MM; reflexivity|].
    intros [|i] L; [rewrite Nat.add_0_r; exists sj; auto|]. destruct (H i ltac:(lia)) as (si & E4 & E5).
    replace (b + S i) with (S b + i) by lia. exists si. auto. }
  destruct (G cnt 0) as (qs & outs & sts & E1 & L1 & E2 & E3 & L2 & MM & H).
  exists outs, sts. unfold word_queries. cbv zeta in E1 |- *. rewrite E1. cbn [bind]. rewrite E2. cbn [bind].
  destruct qs as [|q qs]; [simpl in L1; lia|]. cbn [bind]. rewrite SS. cbn [bind]. rewrite E3. cbn [bind].
  split; auto.
Qed.
End Word.

(** Proofs about the histories of the benchmarks. *)
From Coq Require Import List Arith ZArith NArith Lia Bool Permutation.
From Verif Require Import Base ListLemmas RecordModel MergeModel StructModel ExtModel Spec DriveModel DriveSpec.
Import ListNotations.

Section DP.
Context {R : Type} {RO : RecOps R}.
Variable B : builders R.
Variable C : cfg.
Variable recs : list R.
Variable dels : list nat.
Variable deleting : bool.
Variable coin : nat -> bool.

(** The calls of the driver if none of them has to be repeated. *)
Fixpoint calls (n i di c : nat) : res (list (op R) * nat) :=
  match n with
  | O => Ok ([], di)
  | S n' =>
      do r <- nth_res i recs;
      if deleting then
        if coin c then
          do j <- nth_res di dels;
          if j <=? i then
            do x <- nth_res j recs;
            do (ops, d') <- calls n' (S i) (S di) (S c);
            Ok (Ins r :: Del x :: ops, d')
          else do (ops, d') <- calls n' (S i) di (S c); Ok (Ins r :: ops, d')
        else do (ops, d') <- calls n' (S i) di (S c); Ok (Ins r :: ops, d')
      else do (ops, d') <- calls n' (S i) di c; Ok (Ins r :: ops, d')
  end.

Lemma nth_ok {A} (l : list A) i : i < length l -> exists x, nth_error l i = Some x /\ nth_res i l = Ok x.
Proof.
  intros L. unfold nth_res. destruct (nth_error l i) eqn:E; [eauto|]. apply nth_error_None in E. lia.
Qed.

Lemma slice_S {A} (l : list A) i n x : nth_error l i = Some x -> slice i (S n) l = x :: slice (S i) n l.
Proof.
  intros E. unfold slice. assert (skipn i l = x :: skipn (S i) l) as ->; auto.
  revert i E. induction l; intros [|i] E; try discriminate; simpl in *; [injection E as ->; auto|apply IHl; auto].
Qed.

Lemma run_one e o e1 k : step B C e o = Ok (e1, k) -> k <> 0 -> forall fuel, 0 < fuel -> retry B C fuel e o = Ok e1.
Proof.
  intros S K [|fuel] L; [lia|]. simpl. rewrite S. simpl. destruct (Nat.eqb_spec k 0); [lia|auto].
Qed.

(** If no call returns 0 the driver does what the calls do. *)
Lemma drive_calls fuel : 0 < fuel -> forall n i di c e ops d' e' ns,
  calls n i di c = Ok (ops, d') -> run B C e ops = Ok (e', ns) -> Forall (fun k => k <> 0) ns ->
  drive B C recs dels deleting coin fuel n i di c e = Ok (e', d').
Proof.
  intros FU. induction n as [|n IH]; intros i di c e ops d' e' ns H RN NZ; simpl in *.
  - injection H as <- <-. simpl in RN. injection RN as <- <-. auto.
  - destruct (nth_res i recs) as [r|]; [|discriminate]. cbn [bind] in *.
    assert (STEP : forall ops', run B C e (Ins r :: ops') = Ok (e', ns) -> exists e1 ns1,
      retry B C fuel e (Ins r) = Ok e1 /\ run B C e1 ops' = Ok (e', ns1) /\ Forall (fun k => k <> 0) ns1).
    { intros ops' Q. cbn [run] in Q. destruct (step B C e (Ins r)) as [[e1 k]|] eqn:S; [|discriminate]. cbn [bind] in Q.
      destruct (run B C e1 ops') as [[e2 ns2]|] eqn:RR; [|discriminate]. cbn [bind] in Q. injection Q as <- <-.
      inversion NZ; subst. exists e1, ns2. split; auto. eapply run_one; eauto. }
    destruct deleting; [destruct (coin c); [destruct (nth_res di dels) as [j|]; [|discriminate]; cbn [bind] in *;
      destruct (j <=? i); [destruct (nth_res j recs) as [x|]; [|discriminate]; cbn [bind] in *|]|]|].
    + destruct (calls n (S i) (S di) (S c)) as [[ops1 d1]|] eqn:Q; [|discriminate]. cbn [bind] in H. injection H as <- <-.
      destruct (STEP _ RN) as (e1 & ns1 & A & RN1 & NZ1). rewrite A. cbn [bind].
      cbn [run] in RN1. destruct (step B C e1 (Del x)) as [[e2 k]|] eqn:S; [|discriminate]. cbn [bind] in RN1.
      destruct (run B C e2 ops1) as [[e3 ns3]|] eqn:RR; [|discriminate]. cbn [bind] in RN1. injection RN1 as <- <-.
      inversion NZ1; subst. rewrite (run_one _ _ _ _ S) by auto. cbn [bind]. eapply IH; eauto.
    + destruct (calls n (S i) di (S c)) as [[ops1 d1]|] eqn:Q; [|discriminate]. cbn [bind] in H. injection H as <- <-.
      destruct (STEP _ RN) as (e1 & ns1 & A & RN1 & NZ1). rewrite A. cbn [bind]. eapply IH; eauto.
    + destruct (calls n (S i) di (S c)) as [[ops1 d1]|] eqn:Q; [|discriminate]. cbn [bind] in H. injection H as <- <-.
      destruct (STEP _ RN) as (e1 & ns1 & A & RN1 & NZ1). rewrite A. cbn [bind]. eapply IH; eauto.
    + destruct (calls n (S i) di c) as [[ops1 d1]|] eqn:Q; [|discriminate]. cbn [bind] in H. injection H as <- <-.
      destruct (STEP _ RN) as (e1 & ns1 & A & RN1 & NZ1). rewrite A. cbn [bind]. eapply IH; eauto.
Qed.

(** A call that returns 0 and changes nothing is repeated for ever. *)
Lemma retry_stuck e o : step B C e o = Ok (e, 0) -> forall fuel, retry B C fuel e o = Fail FLoop.
Proof. intros S. induction fuel; auto. simpl. rewrite S. cbn [bind]. simpl. auto. Qed.

Lemma drive_stuck : forall n i di c e ops d' pre o post e1 ns,
  calls n i di c = Ok (ops, d') -> ops = pre ++ o :: post ->
  run B C e pre = Ok (e1, ns) -> Forall (fun k => k <> 0) ns -> step B C e1 o = Ok (e1, 0) ->
  forall fuel, drive B C recs dels deleting coin fuel n i di c e = Fail FLoop.
Proof.
  induction n as [|n IH]; intros i di c e ops d' pre o post e1 ns H SP RN NZ ST fuel; cbn [calls drive] in *.
  - injection H as <- <-. destruct pre; discriminate.
  - destruct (nth_res i recs) as [r|]; [|discriminate]. cbn [bind] in *.
    destruct fuel as [|fuel]; [reflexivity|]. set (F := S fuel) in *. assert (0 < F) as FP by (unfold F; lia). clearbody F.
    assert (STEP : forall ops', Ins r :: ops' = pre ++ o :: post ->
      retry B C F e (Ins r) = Fail FLoop \/ exists e2 ns2 pre', retry B C F e (Ins r) = Ok e2 /\
        ops' = pre' ++ o :: post /\ run B C e2 pre' = Ok (e1, ns2) /\ Forall (fun k => k <> 0) ns2).
    { intros ops' Q. destruct pre as [|o1 pre]; cbn [app] in Q; injection Q as <- Q.
      - left. cbn [run] in RN. injection RN as <- <-. apply retry_stuck. auto.
      - right. cbn [run] in RN. destruct (step B C e (Ins r)) as [[e2 k]|] eqn:S; [|discriminate]. cbn [bind] in RN.
        destruct (run B C e2 pre) as [[e3 ns3]|] eqn:RR; [|discriminate]. cbn [bind] in RN. injection RN as <- <-.
        inversion NZ; subst. exists e2, ns3, pre. split; [eapply run_one; eauto|auto]. }
    assert (PLAIN : forall c', (do (ops0, d1) <- calls n (S i) di c'; Ok (Ins r :: ops0, d1)) = Ok (ops, d') ->
      (do e0 <- retry B C F e (Ins r); drive B C recs dels deleting coin F n (S i) di c' e0) = Fail FLoop).
    { intros c' Q. destruct (calls n (S i) di c') as [[ops1 d1]|] eqn:CA; [|discriminate]. cbn [bind] in Q.
      injection Q as <- <-. destruct (STEP _ SP) as [->|(e2 & ns2 & pre' & A & B1 & B2 & B3)]; auto.
      rewrite A. cbn [bind]. eapply IH; eauto. }
    destruct deleting; [destruct (coin c); [destruct (nth_res di dels) as [j|]; [|discriminate]; cbn [bind] in *;
      destruct (j <=? i); [destruct (nth_res j recs) as [x|]; [|discriminate]; cbn [bind] in *|]|]|]; try (apply PLAIN; auto; fail).
    destruct (calls n (S i) (S di) (S c)) as [[ops1 d1]|] eqn:CA; [|discriminate]. cbn [bind] in H. injection H as <- <-.
    destruct (STEP _ SP) as [->|(e2 & ns2 & pre' & A & B1 & B2 & B3)]; auto. rewrite A. cbn [bind].
    destruct pre' as [|o1 pre']; cbn [app] in B1; injection B1 as <- B1.
    + cbn [run] in B2. injection B2 as <- <-. rewrite retry_stuck by auto. auto.
    + cbn [run] in B2. destruct (step B C e2 (Del x)) as [[e3 k]|] eqn:S; [|discriminate]. cbn [bind] in B2.
      destruct (run B C e3 pre') as [[e4 ns4]|] eqn:RR; [|discriminate]. cbn [bind] in B2. injection B2 as <- <-.
      inversion B3; subst. rewrite (run_one _ _ _ _ S) by auto. cbn [bind]. eapply IH; eauto.
Qed.

(** What the calls are. *)
Definition good_calls (n i di : nat) (ops : list (op R)) (d' : nat) : Prop :=
  inserted ops = slice i n recs /\ di <= d' <= di + n /\ d' <= Nat.max di (length dels) /\
  (exists js, js = slice di (d' - di) dels /\ length js = d' - di /\ map Some (erased ops) = map (nth_error recs) js) /\
  (forall pre r post, ops = pre ++ Del r :: post -> exists pre' x, pre = pre' ++ [Ins x]) /\
  (forall pre r post, ops = pre ++ Del r :: post -> In r (firstn i recs ++ inserted pre)) /\
  (deleting = false -> erased ops = [] /\ d' = di).

Lemma firstn_step {A} (l : list A) i x : nth_error l i = Some x -> firstn (S i) l = firstn i l ++ [x].
Proof.
  revert i. induction l; intros [|i] E; try discriminate; simpl in *; [injection E as ->; auto|].
  f_equal. apply IHl. auto.
Qed.

Lemma calls_ok : forall n i di c, i + n <= length recs -> (deleting = true -> di + countb coin (seq c n) <= length dels) ->
  exists ops d', calls n i di c = Ok (ops, d') /\ good_calls n i di ops d'.
Proof.
  induction n as [|n IH]; intros i di c L LD; cbn [calls].
  - exists [], di. split; auto. unfold good_calls, slice. replace (di - di) with 0 by lia. simpl.
    split; auto. split; [lia|]. split; [lia|]. split; [exists []; auto|].
    split; [|split]; auto; intros pre r post H; destruct pre; discriminate.
  - destruct (nth_ok recs i ltac:(lia)) as (r & N & NR). rewrite NR. cbn [bind].
    cbn [seq countb] in LD.
    assert (INS : forall c', (deleting = true -> di + countb coin (seq c' n) <= length dels) -> exists ops d', (do (ops, d') <- calls n (S i) di c'; Ok (Ins r :: ops, d')) = Ok (ops, d') /\
              good_calls (S n) i di ops d').
    { intros c' LD'. destruct (IH (S i) di c') as (ops & d' & E & G); [lia|auto|].
      rewrite E. cbn [bind]. do 2 eexists. split; [reflexivity|].
      destruct G as (G1 & G2 & G3 & G4 & G5 & G6 & G7). unfold good_calls. cbn [inserted erased flat_map app].
      split; [rewrite (slice_S _ _ _ _ N); f_equal; exact G1|]. split; [lia|]. split; [lia|]. split; [exact G4|].
      split; [|split; [|exact G7]].
      - intros [|o pre] x post Q; [discriminate|]. cbn [app] in Q. injection Q as <- Q.
        destruct (G5 pre x post Q) as (pre' & y & ->). exists (Ins r :: pre'), y. auto.
      - intros [|o pre] x post Q; [discriminate|]. cbn [app] in Q. injection Q as <- Q.
        specialize (G6 pre x post Q). rewrite (firstn_step _ _ _ N) in G6. rewrite <- app_assoc in G6. exact G6. }
    destruct deleting eqn:DE; [|apply INS; discriminate].
    specialize (LD eq_refl). destruct (coin c); [|apply INS; intros; lia]. destruct (nth_ok dels di ltac:(lia)) as (j & ND & NDR). rewrite NDR. cbn [bind].
    destruct (Nat.leb_spec j i) as [JI|]; [|apply INS; intros; lia].
    destruct (nth_ok recs j ltac:(lia)) as (x & NX & NXR). rewrite NXR. cbn [bind].
    destruct (IH (S i) (S di) (S c)) as (ops & d' & E & G); [lia|intros; lia|].
    rewrite E. cbn [bind]. do 2 eexists. split; [reflexivity|].
    destruct G as (G1 & G2 & G3 & (js & J1 & J2 & J3) & G5 & G6 & G7). unfold good_calls.
    cbn [inserted erased flat_map app].
    split; [rewrite (slice_S _ _ _ _ N); f_equal; exact G1|]. split; [lia|]. split; [lia|].
    split. { exists (j :: js). replace (d' - di) with (S (d' - S di)) by lia.
      rewrite (slice_S _ _ _ _ ND), <- J1. split; auto. split; [simpl; lia|]. cbn [map]. rewrite NX. f_equal. exact J3. }
    split; [|split; [|congruence]].
    + intros [|o [|o' pre]] y post Q; cbn [app] in Q; [discriminate| |].
      * injection Q as <- <- <-. exists [], r. auto.
      * injection Q as <- <- Q. destruct (G5 pre y post Q) as (pre' & z & ->). exists (Ins r :: Del x :: pre'), z. auto.
    + assert (FJ : In x (firstn (S i) recs)).
      { apply (nth_error_In _ j). revert NX JI. clear. revert recs i. induction j; intros [|a l] i E L; try discriminate; auto.
        destruct i; [lia|]. simpl in *. apply IHj; auto. lia. }
      intros [|o [|o' pre]] y post Q; cbn [app] in Q; [discriminate| |].
      * injection Q as <- <- <-. rewrite (firstn_step _ _ _ N) in FJ. exact FJ.
      * injection Q as <- <- Q. specialize (G6 pre y post Q). rewrite (firstn_step _ _ _ N) in G6.
        rewrite <- app_assoc in G6. exact G6.
Qed.
End DP.

From Verif Require Import SerialProofs.
Section Final.
Context {R : Type} {RO : RecOps R}.

Theorem driver_calls : forall (B : builders R) C recs dels deleting coin start stop di c,
  start <= stop <= length recs -> (deleting = true -> di + countb coin (seq c (stop - start)) <= length dels) ->
  exists ops d', inserted ops = slice start (stop - start) recs /\
    di <= d' <= di + (stop - start) /\
    map Some (erased ops) = map (nth_error recs) (slice di (d' - di) dels) /\
    after_insert ops /\ erases_present (firstn start recs) ops /\
    (deleting = false -> erased ops = [] /\ d' = di) /\
    forall fuel e, 0 < fuel ->
      (forall e' ns, run B C e ops = Ok (e', ns) -> Forall (fun k => k <> 0) ns ->
         insert_records B C recs dels deleting coin fuel start stop di c e = Ok (e', d')) /\
      (forall pre o post e' ns, ops = pre ++ o :: post -> run B C e pre = Ok (e', ns) -> Forall (fun k => k <> 0) ns ->
         step B C e' o = Ok (e', 0) ->
         insert_records B C recs dels deleting coin fuel start stop di c e = Fail FLoop).
Proof.
  intros B C recs dels deleting coin start stop di c L LD.
  destruct (calls_ok recs dels deleting coin (stop - start) start di c) as (ops & d' & E & G); [lia|auto|].
  destruct G as (G1 & G2 & _ & (js & -> & _ & G4) & G5 & G6 & G7).
  exists ops, d'. repeat (split; auto). 
  - intros e' ns RN NZ. eapply drive_calls; eauto.
  - intros. eapply drive_stuck; eauto.
Qed.

Lemma insert_only_of : forall ops : list (op R), erased ops = [] -> insert_only ops.
Proof.
  induction ops as [|[r|r] ops IH]; intros H o I; [destruct I| |discriminate].
  destruct I as [<-|I]; [eauto|]. apply IH; auto.
Qed.
Lemma insert_only_len : forall ops : list (op R), insert_only ops -> length ops = length (inserted ops).
Proof.
  induction ops as [|o ops IH]; intros H; auto. destruct (H o) as (r & ->); [now left|]. simpl. f_equal.
  apply IH. intros x X. apply H. now right.
Qed.
Lemma all_ones : forall n, Forall (fun k => k <> 0) (repeat 1 n).
Proof. intros. apply Forall_forall. intros x X. apply repeat_spec in X. lia. Qed.

Context {RL : RecLaws R} (qlt : qorder R) {QO : QOrder qlt}.

Lemma from_new : forall C (e0 : ext R) ops e rs, ext_new C = Ok e0 -> run_new qlt C ops = Ok (e, rs) ->
  run qlt C e0 ops = Ok (e, rs).
Proof. intros C e0 ops e rs N H. unfold run_new in H. rewrite N in H. exact H. Qed.

Theorem driver_fill : forall C recs dels coin start stop di c fuel e0, valid_cfg C ->
  start <= stop <= length recs -> 0 < fuel -> ext_new C = Ok e0 ->
  exists e, insert_records qlt C recs dels false coin fuel start stop di c e0 = Ok (e, di) /\
    get_record_count e = Ok (e, stop - start) /\
    exists ops, insert_only ops /\ inserted ops = slice start (stop - start) recs /\
      run_new qlt C ops = Ok (e, repeat 1 (length ops)).
Proof.
  intros C recs dels coin start stop di c fuel e0 V L FU N0.
  destruct (driver_calls qlt C recs dels false coin start stop di c L ltac:(discriminate))
    as (ops & d' & I & _ & _ & _ & _ & ER & K).
  destruct (ER eq_refl) as (E0 & ->). pose proof (insert_only_of ops E0) as IO.
  destruct (inserts_succeed qlt C V ops IO) as (e & RN). exists e.
  destruct (K fuel e0 FU) as (K1 & _). split; [|split].
  - eapply K1; [eapply from_new; eauto|apply all_ones].
  - rewrite (record_count_exact qlt C V ops e _ IO RN). do 2 f_equal.
    rewrite (insert_only_len ops IO), I. unfold slice. rewrite firstn_length, skipn_length. lia.
  - exists ops. auto.
Qed.

Theorem driver_tombstones : forall C recs dels coin start stop di c fuel e0,
  valid_cfg C -> c_del C = TOMBSTONE ->
  start <= stop <= length recs -> di + countb coin (seq c (stop - start)) <= length dels -> 0 < fuel -> ext_new C = Ok e0 ->
  exists ops d', inserted ops = slice start (stop - start) recs /\
    map Some (erased ops) = map (nth_error recs) (slice di (d' - di) dels) /\
    erases_present (firstn start recs) ops /\
    (mostly_inserts (c_lwm C) ops ->
     exists e, insert_records qlt C recs dels true coin fuel start stop di c e0 = Ok (e, d') /\
       run_new qlt C ops = Ok (e, repeat 1 (length ops))).
Proof.
  intros C recs dels coin start stop di c fuel e0 V TB L LD FU N0.
  destruct (driver_calls qlt C recs dels true coin start stop di c L ltac:(auto))
    as (ops & d' & I & _ & ER & _ & EP & _ & K).
  exists ops, d'. split; auto. split; auto. split; auto. intros MI.
  destruct (run_ok qlt C V ops (tomb_appends C _ TB) (mostly_blocks _ _ MI)) as (e & RN).
  exists e. split; auto. destruct (K fuel e0 FU) as (K1 & _). eapply K1; [eapply from_new; eauto|apply all_ones].
Qed.
End Final.

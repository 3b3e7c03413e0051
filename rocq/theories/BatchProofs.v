(** Proofs about the benchmark program that inserts in batches. *)
From Coq Require Import List Arith ZArith NArith Lia Bool Permutation.
From Verif Require Import Base ListLemmas RecordModel RecordProofs MergeModel MergeProofs StructModel ExtModel ExtProofs
  Spec SerialProofs DriveModel DriveProofs BatchModel.
Import ListNotations.

Section Batch.
Context {R : Type} {RO : RecOps R} {RL : RecLaws R}.
Variable qlt : qorder R.
Context {QO : QOrder qlt}.
Variable C : cfg.
Hypothesis V : valid_cfg C.
Variable mk : Z -> R.

Definition numbered (i m : nat) : list (op R) := map (fun j => Ins (mk (Z.of_nat j))) (seq i m).

Lemma numbered_only : forall i m, insert_only (numbered i m).
Proof. intros i m o H. apply in_map_iff in H as (j & <- & _). eauto. Qed.

Lemma run_parts : forall o1 o2 e e' ns, run qlt C e (o1 ++ o2) = Ok (e', ns) ->
  exists e1 ns1 ns2, run qlt C e o1 = Ok (e1, ns1) /\ run qlt C e1 o2 = Ok (e', ns2) /\ ns = ns1 ++ ns2.
Proof.
  induction o1 as [|o o1 IH]; intros o2 e e' ns H; [exists e, [], ns; auto|].
  cbn [app run] in *. destruct (step qlt C e o) as [[e1 k]|]; [|discriminate]. cbn [bind] in *.
  destruct (run qlt C e1 (o1 ++ o2)) as [[e2 ns']|] eqn:E; [|discriminate]. cbn [bind] in H. injection H as <- <-.
  destruct (IH _ _ _ _ E) as (e3 & n1 & n2 & A & A2 & ->). rewrite A. cbn [bind]. exists e3, (k :: n1), n2. auto.
Qed.

Lemma batch_run : forall fuel, 0 < fuel -> forall m i e e' ns, run qlt C e (numbered i m) = Ok (e', ns) ->
  Forall (fun k => k <> 0) ns -> batch qlt C mk fuel m i e = Ok e'.
Proof.
  intros fuel FU. induction m as [|m IH]; intros i e e' ns H NZ; cbn [numbered seq map run batch] in *; [injection H as <- _; auto|].
  destruct (step qlt C e (Ins (mk (Z.of_nat i)))) as [[e1 k]|] eqn:E; [|discriminate]. cbn [bind] in H.
  destruct (run qlt C e1 (map (fun j => Ins (mk (Z.of_nat j))) (seq (S i) m))) as [[e2 ns']|] eqn:E2; [|discriminate].
  cbn [bind] in H. injection H as <- <-. inversion NZ; subst.
  rewrite (run_one qlt C e _ e1 k E) by auto. cbn [bind]. eapply IH; eauto.
Qed.

Lemma batches_run : forall fuel n k, 0 < fuel -> 0 < k -> forall q i steps e e' ns,
  q < steps -> (i + q * k < n + k \/ q = 0) -> n <= i + q * k ->
  run qlt C e (numbered i (q * k)) = Ok (e', ns) -> Forall (fun x => x <> 0) ns ->
  batches qlt C mk fuel steps n k i e = Ok (e', map (fun j => i + j * k) (seq 1 q)).
Proof.
  intros fuel n k FU KP. induction q as [|q IH]; intros i [|steps] e e' ns LS L1 L2 H NZ; try lia; cbn [batches].
  - cbn in H. injection H as <- _. destruct (Nat.ltb_spec i n); [lia|]. reflexivity.
  - destruct (Nat.ltb_spec i n) as [LT|GE]; [|destruct L1; [nia|lia]].
    unfold numbered in H. cbn [Nat.mul] in H. rewrite seq_app, map_app in H.
    apply run_parts in H as (e1 & n1 & n2 & A1 & A2 & ->). apply Forall_app in NZ as (N1 & N2).
    rewrite (batch_run fuel FU k i e e1 n1 A1 N1). cbn [bind].
    rewrite (IH (i + k) steps e1 e' n2); [|lia|destruct L1; [nia|lia]|nia|exact A2|auto]. cbn [bind seq map]. f_equal. f_equal.
    f_equal; [lia|]. rewrite <- (seq_shift q 1), map_map. apply map_ext. intros. lia.
Qed.

(** The number of batches. *)
Theorem batched : forall fuel steps n k q, 0 < fuel -> 0 < k -> 0 < n -> n <= q * k < n + k -> q < steps ->
  exists e, insert_tail_latency qlt C mk fuel steps n k = Ok (e, map (fun j => j * k) (seq 1 q)) /\
    run_new qlt C (numbered 0 (q * k)) = Ok (e, repeat 1 (q * k)) /\ get_record_count e = Ok (e, q * k).
Proof.
  intros fuel steps n k q FU KP NP LQ LS.
  assert (LN : length (numbered 0 (q * k)) = q * k) by (unfold numbered; rewrite map_length, seq_length; auto).
  destruct (inserts_succeed qlt C V _ (numbered_only 0 (q * k))) as (e & RN). pose proof RN as RN'.
  rewrite LN in RN. exists e. unfold run_new in RN. destruct (ext_new C) as [e0|] eqn:N0; [|discriminate]. cbn [bind] in RN.
  split; [|split].
  - unfold insert_tail_latency. rewrite N0. cbn [bind].
    rewrite (batches_run fuel n k FU KP q 0 steps e0 e _ LS ltac:(lia) ltac:(lia) RN);
      [|apply Forall_forall; intros x I; apply repeat_spec in I; lia].
    cbn [bind]. destruct (Nat.eqb_spec n 0); [lia|]. reflexivity.
  - rewrite RN', LN. reflexivity.
  - rewrite (record_count_exact qlt C V _ e _ (numbered_only 0 (q * k)) RN'), LN. reflexivity.
Qed.

Theorem batched_empty : forall fuel steps n, 0 < n -> insert_tail_latency qlt C mk fuel steps n 0 = Fail FLoop.
Proof.
  intros fuel steps n NP. unfold insert_tail_latency.
  destruct (new_total (R := R) C (proj1 (proj2 (proj2 V))) (proj1 V) (proj1 (proj2 V)) (proj2 (proj2 (proj2 V)))) as [e0 N0].
  rewrite N0. cbn [bind]. assert (H : batches qlt C mk fuel steps n 0 0 e0 = Fail FLoop); [|rewrite H; reflexivity].
  induction steps as [|steps IH]; auto. cbn [batches]. destruct (Nat.ltb_spec 0 n); [|lia]. cbn [batch bind Nat.add]. rewrite IH. reflexivity.
Qed.

Theorem batched_none : forall fuel steps k, 0 < steps -> insert_tail_latency qlt C mk fuel steps 0 k = Fail FOob.
Proof.
  intros fuel [|steps] k L; [lia|]. unfold insert_tail_latency.
  destruct (new_total (R := R) C (proj1 (proj2 (proj2 V))) (proj1 V) (proj1 (proj2 V)) (proj2 (proj2 (proj2 V)))) as [e0 N0].
  rewrite N0. reflexivity.
Qed.
End Batch.

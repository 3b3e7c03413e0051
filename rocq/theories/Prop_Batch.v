(** The benchmark program that inserts in batches (C94). *)
From Coq Require Import List Arith ZArith NArith Lia Bool.
From Verif Require Import Base RecordModel RecordProofs MergeModel MergeProofs StructModel ExtModel Spec BatchModel BatchProofs Prop_Serial.
Import ListNotations.

(** C94: if [q] batches of [k] records are the fewest that reach [n], the program ends
    after [q] of them: each record from 0 to [q * k - 1] has been inserted once and in this
    order, the index counts all of them, and after each batch the number so far has been
    printed.  [steps] is any number of rounds that is large enough.
    Missing: that no more than [n] are inserted (false, see C94_more_refuted). *)
Theorem C94_batches_partial {R : Type} {RO : RecOps R} {RL : RecLaws R} (qlt : qorder R) {QO : QOrder qlt} :
  forall C (VC : valid_cfg C) (mk : Z -> R) fuel steps n k q,
  0 < fuel -> 0 < k -> 0 < n -> n <= q * k < n + k -> q < steps ->
  exists e, insert_tail_latency qlt C mk fuel steps n k = Ok (e, map (fun j => j * k) (seq 1 q)) /\
    run_new qlt C (map (fun j => Ins (mk (Z.of_nat j))) (seq 0 (q * k))) = Ok (e, repeat 1 (q * k)) /\
    get_record_count e = Ok (e, q * k).
Proof. exact (batched qlt). Qed.
Print Assumptions C94_batches_partial.

(** C94: with batches of no records the program does not end, however many rounds it makes. *)
Theorem C94_endless {R : Type} {RO : RecOps R} {RL : RecLaws R} (qlt : qorder R) :
  forall C (VC : valid_cfg C) (mk : Z -> R) fuel steps n, 0 < n ->
  insert_tail_latency qlt C mk fuel steps n 0 = Fail FLoop.
Proof. exact (batched_empty qlt). Qed.
Print Assumptions C94_endless.

(** C94: without records the program divides by 0. *)
Theorem C94_none {R : Type} {RO : RecOps R} {RL : RecLaws R} (qlt : qorder R) :
  forall C (VC : valid_cfg C) (mk : Z -> R) fuel steps k, 0 < steps ->
  insert_tail_latency qlt C mk fuel steps 0 k = Fail FOob.
Proof. exact (batched_none qlt). Qed.
Print Assumptions C94_none.

(** ** A case: twenty records in batches of four *)

Definition bt_mk (z : Z) : kv := KV z z.

Example C94_case : forall C, In C ex_cfgs -> valid_cfg C /\
  (exists e h, insert_tail_latency by_version C bt_mk 1 9 20 4 = Ok (e, [4; 8; 12; 16; 20]) /\
    get_record_count e = Ok (e, 20) /\ get_height e = Ok (e, h) /\ 2 <= h) /\
  (** too few rounds, a call that is never made, and no records *)
  insert_tail_latency by_version C bt_mk 1 5 20 4 = Fail FLoop /\
  insert_tail_latency by_version C bt_mk 0 9 20 4 = Fail FLoop /\
  insert_tail_latency by_version C bt_mk 1 9 0 4 = Fail FOob.
Proof.
  intros C H. split; [exact (proj1 (Forall_forall _ _) ex_cfgs_valid C H)|].
  simpl in H. decompose [or] H; subst; try contradiction;
  (split; [do 2 eexists; split; [vm_compute; reflexivity|]; split; [vm_compute; reflexivity|];
           split; [vm_compute; reflexivity|lia]|]; repeat split; vm_compute; reflexivity).
Qed.

(** C94 fails: the last batch is not cut, so that more records than asked for are inserted. *)
Theorem C94_more_refuted : exists C n k e out, valid_cfg C /\ 0 < k /\
  insert_tail_latency by_version C bt_mk 1 9 n k = Ok (e, out) /\ n = 10 /\ get_record_count e = Ok (e, 12).
Proof.
  exists (Cfg TIERING TAGGING 3 4 2), 10, 4. do 2 eexists.
  split; [unfold valid_cfg; simpl; repeat split; lia || discriminate|]. split; [lia|].
  split; [vm_compute; reflexivity|]. split; [reflexivity|]. vm_compute. reflexivity.
Qed.
Print Assumptions C94_more_refuted.

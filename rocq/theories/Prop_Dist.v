(** Sampling after a history of calls, and the distribution of the samples (C33, C61, C62). *)
From Coq Require Import List Arith ZArith NArith Lia Bool.
From Verif Require Import Base RecordModel RecordProofs BufferModel MergeModel MergeProofs StructModel ExtModel
  Spec ISAMModel SampleModel SampleSpec SampleProofs DistProofs SampleHist.
Import ListNotations.

(** C33 after any insertions, over ISAM trees: every sample was inserted and is in range,
    there are at most as many as requested, the index is left as it was, and the only
    failure is an unbounded number of rounds; for every random stream and number of
    rounds, with or without rejection. *)
Theorem C33_history_sound {R : Type} {RO : RecOps R} {RL : RecLaws R} {KO : KeyOps R} {KL : KeyLaws R}
  (qlt : qorder R) {QO : QOrder qlt} :
  forall C F L ops e rs rng alias fuel (rej : bool) s l u, (l <= u)%Z -> valid_cfg C -> 2 <= F -> 1 <= L -> insert_only ops ->
  run_new qlt C ops = Ok (e, rs) -> alias_contract alias ->
  match range_sample rng alias (isam_find F L) (isam_find_upper F L) fuel rej s l u e with
  | Ok (e', out) => e' = e /\ length out <= s /\ forall r, In r out -> key_in l u r = true /\ In r (inserted ops)
  | Fail f => f = FFuel
  end.
Proof.
  exact (fun C F L ops e rs rng alias fuel rej s l u LU V HF HL =>
    range_sample_sound qlt C V _ _ (isam_bounds_exact F L HF HL) ops e rs rng alias fuel rej s l u LU).
Qed.
Print Assumptions C33_history_sound.

(** C33 after any insertions: without rejection, and with an inserted record in range,
    one round returns the requested number.  Missing: rejection and ranges without
    records (false, see C33_fewer_refuted and C33_empty_refuted). *)
Theorem C33_history_exact_partial {R : Type} {RO : RecOps R} {RL : RecLaws R} {KO : KeyOps R} {KL : KeyLaws R}
  (qlt : qorder R) {QO : QOrder qlt} :
  forall C F L ops e rs rng alias fuel s l u, valid_cfg C -> 2 <= F -> 1 <= L -> insert_only ops ->
  run_new qlt C ops = Ok (e, rs) -> alias_contract alias -> 0 < fuel ->
  (exists r, In r (inserted ops) /\ key_in l u r = true) ->
  exists out, range_sample rng alias (isam_find F L) (isam_find_upper F L) fuel false s l u e = Ok (e, out) /\
    length out = s.
Proof.
  exact (fun C F L ops e rs rng alias fuel s l u V HF HL =>
    range_sample_exact qlt C V _ _ (isam_bounds_exact F L HF HL) ops e rs rng alias fuel s l u).
Qed.
Print Assumptions C33_history_exact_partial.

(** C61: after any insertions, in every layout, with or without rejection, a draw of one
    sample gives each inserted record in range equally often.  The random numbers are
    all pairs of a number below [total], which selects the source, and a number below
    [M], which selects the record; each record in range is the outcome of [M] of them.
    Without rejection no other outcome occurs. *)
Theorem C61_uniform {R : Type} {RO : RecOps R} {RL : RecLaws R} {KO : KeyOps R} {KL : KeyLaws R}
  (qlt : qorder R) {QO : QOrder qlt} :
  forall C F L ops e rs (rej : bool) l u M, (l <= u)%Z -> valid_cfg C -> 2 <= F -> 1 <= L -> insert_only ops ->
  run_new qlt C ops = Ok (e, rs) -> divisible M (length (inserted ops)) ->
  exists total, (rej = false -> total = countb (key_in l u) (inserted ops)) /\
    countb (key_in l u) (inserted ops) <= total <= length (inserted ops) /\
    forall p, outcomes total M (fun x y => sampled p
      (range_sample (stream [x; y]) (exact_alias (stream [x; y])) (isam_find F L) (isam_find_upper F L) 1 rej 1 l u e))
    = M * countb (fun r => key_in l u r && p r) (inserted ops).
Proof.
  exact (fun C F L ops e rs rej l u M LU V HF HL =>
    range_sample_uniform qlt C V _ _ (isam_bounds_exact F L HF HL) ops e rs rej l u M LU).
Qed.
Print Assumptions C61_uniform.

(** C61: several samples are independent.  Without rejection a query for [s] samples
    uses [s] numbers [xs] for the sources and [s] numbers [ys] for the records.  Up to
    the order of the samples, which depends on [xs] only, each sample is that of a query
    for one sample with two of the numbers, and no number is used twice.  Missing:
    rejection (the number of samples is then not fixed, C33_fewer_refuted). *)
Theorem C61_independent_partial {R : Type} {RO : RecOps R} {RL : RecLaws R} {KO : KeyOps R} {KL : KeyLaws R}
  (qlt : qorder R) {QO : QOrder qlt} :
  forall C F L ops e rs l u s xs, valid_cfg C -> 2 <= F -> 1 <= L -> insert_only ops ->
  run_new qlt C ops = Ok (e, rs) -> (exists r, In r (inserted ops) /\ key_in l u r = true) -> length xs = s ->
  let sample str fuel n := range_sample (stream str) (exact_alias (stream str)) (isam_find F L) (isam_find_upper F L)
                             fuel false n l u e in
  exists p : nat -> nat, (forall k, k < s -> p k < s) /\ (forall j k, j < s -> k < s -> p j = p k -> j = k) /\
    forall ys fuel, length ys = s -> 0 < fuel ->
    exists out, sample (xs ++ ys) fuel s = Ok (e, out) /\ length out = s /\
      forall k x y, nth_error xs k = Some x -> nth_error ys (p k) = Some y ->
      exists r, nth_error out (p k) = Some r /\ sample [x; y] 1 1 = Ok (e, [r]).
Proof.
  exact (fun C F L ops e rs l u s xs V HF HL =>
    range_sample_independent qlt C V _ _ (isam_bounds_exact F L HF HL) ops e rs l u s xs).
Qed.
Print Assumptions C61_independent_partial.

Definition dist_cfg (l : layout) : cfg := Cfg l TOMBSTONE 3 3 2.
Definition dist_ops (n : nat) : list (op kv) := map (fun i => Ins (KV (Z.of_nat i) 0)) (seq 0 n).

Example dist_ins : forall n, insert_only (dist_ops n).
Proof. intros n o I. apply in_map_iff in I as (i & <- & _). eexists. reflexivity. Qed.

(** Eight records, two of them in the buffer, and a range of four, one of them in the buffer. *)
Example C61_case : forall l, exists e rs, valid_cfg (dist_cfg l) /\ insert_only (dist_ops 8) /\
  run_new by_version (dist_cfg l) (dist_ops 8) = Ok (e, rs) /\ length (buffer_records e) = 2 /\
  countb (key_in 3 6) (inserted (dist_ops 8)) = 4 /\ divisible 840 (length (inserted (dist_ops 8))) /\
  (forall i, In i [3; 4; 5; 6]%Z -> outcomes 4 840 (fun x y => sampled (fun r => k_key r =? i)%Z
     (range_sample (stream [x; y]) (exact_alias (stream [x; y])) (isam_find 2 1) (isam_find_upper 2 1) 1 false 1 3 6 e))
   = 840) /\
  exists out, range_sample (stream [3; 0; 1; 5; 7; 1]) (exact_alias (stream [3; 0; 1; 5; 7; 1])) (isam_find 2 1)
    (isam_find_upper 2 1) 1 false 3 3 6 e = Ok (e, out) /\ length out = 3.
Proof.
  intros l. destruct l; eexists _, _; (split; [repeat split; simpl; lia|split; [exact (dist_ins _)|]]);
    (split; [vm_compute; reflexivity|]); (split; [reflexivity|]); (split; [reflexivity|]); split.
  1,3,5: intros k K; change (0 < k <= 8) in K;
         destruct k as [|[|[|[|[|[|[|[|[|k]]]]]]]]]; try lia;
         [exists 840|exists 420|exists 280|exists 210|exists 168|exists 140|exists 120|exists 105]; reflexivity.
  all: split; [intros i I; repeat (destruct I as [<-|I]; [vm_compute; reflexivity|]); destruct I|].
  all: eexists; split; [vm_compute; reflexivity|reflexivity].
Qed.

(** C62: from shards alone, a weighted draw of one sample gives each untagged record with a
    frequency proportional to its weight.  Missing: a buffer (false, see below), and
    every index that was inserted into has a record in its buffer. *)
Theorem C62_shards_partial {R : Type} {RO : RecOps R} :
  forall (rweight : R -> nat) grain ds M p,
  let total := sum_list (map (fun w => rweight (wrec w)) (concat ds)) in
  divisible M total ->
  outcomes total M (fun x y => one_of p
    (wss_query (stream [x; y]) (exact_alias (stream [x; y])) rweight grain (exact_alias (stream [x; y])) 1 1 [] ds))
  = M * weight_where rweight (fun w => negb (is_del w) && p (wrec w)) (concat ds).
Proof. exact (fun rweight grain ds M p => wss_proportional rweight grain ds M p). Qed.
Print Assumptions C62_shards_partial.
Definition dist_shards : list (list (wrapped kv)) :=
  [[W 0%N (KV 1 1); W 0%N (KV 2 2)]; [W 0%N (KV 3 0); set_delete (W 0%N (KV 4 1)); W 0%N (KV 5 2)]]%Z.
Example C62_case : divisible 60 6 /\
  map (fun k => outcomes 6 60 (fun x y => one_of (fun r => k_key r =? k)%Z
    (wss_query (stream [x; y]) (exact_alias (stream [x; y])) (fun r => Z.to_nat (k_val r)) 10
       (exact_alias (stream [x; y])) 1 1 [] dist_shards))) [1; 2; 3; 4; 5]%Z = [60; 120; 0; 0; 120].
Proof.
  split; [|vm_compute; reflexivity]. intros k K. destruct k as [|[|[|[|[|[|[|k]]]]]]]; try lia;
  [exists 60|exists 30|exists 20|exists 15|exists 12|exists 10]; reflexivity.
Qed.

(** C62 fails, in every layout: of two records of the same weight, one in the buffer and
    one in a shard, the first is drawn more often; and the last buffered record never.
    The third number, below the resolution of the generator, is for the rejection. *)
Theorem C62_refuted : forall l, exists (ops : list (op kv)) e rs r1 r2 r3, valid_cfg (dist_cfg l) /\ insert_only ops /\
  run_new by_version (dist_cfg l) ops = Ok (e, rs) /\
  In r1 (inserted ops) /\ In r2 (inserted ops) /\ In r3 (inserted ops) /\
  let times r := outcomes 6 240 (fun x y =>
    let rng := stream [x; y / 4; y mod 4] in
    sampled (fun r' => req r' r) (weighted_sample rng (exact_alias rng) (fun _ => 1) 4 (exact_alias rng) 1 1 e)) in
  times r1 = 360 /\ times r2 = 240 /\ times r3 = 0.
Proof.
  intros l. exists (dist_ops 6). destruct l; eexists _, _, (KV 3 0)%Z, (KV 1 0)%Z, (KV 5 0)%Z;
    (split; [repeat split; simpl; lia|split; [exact (dist_ins _)|]]);
    (split; [vm_compute; reflexivity|]); (split; [simpl; tauto|]); (split; [simpl; tauto|]);
    (split; [simpl; tauto|]); vm_compute; repeat split; reflexivity.
Qed.
Print Assumptions C62_refuted.

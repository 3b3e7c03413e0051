(** The ISAM tree: bounds, allocation and point lookup (C25-C27).

    [F] is the number of children of an internal node and [L] the number of records
    that one leaf pointer stands for. *)
From Coq Require Import List Arith ZArith NArith Lia Bool.
From Verif Require Import Base RecordModel RecordProofs Spec ISAMModel ISAMProofs.
Import ListNotations.

(** C25: the lower bound of a key is the number of smaller keys, the upper bound the
    number of keys that are not larger. *)
Theorem C25_isam_bounds {R : Type} {RO : RecOps R} {RL : RecLaws R} {KO : KeyOps R} {KL : KeyLaws R} :
  forall F L (d : list (wrapped R)), 2 <= F -> 1 <= L -> d <> [] -> sorted d ->
  exists t, isam_build F L d = Ok t /\ forall k,
    isam_lower_bound F d t k = Ok (countb (fun w => (rkey (wrec w) <? k)%Z) d) /\
    isam_upper_bound F d t k = Ok (countb (fun w => (rkey (wrec w) <=? k)%Z) d).
Proof.
  exact (fun F L d HF HL NE SD => match built F L HF HL d SD NE with
    | ex_intro _ t (conj B (conj LB UB)) => ex_intro _ t (conj B (fun k => conj (LB k) (UB k))) end).
Qed.
Print Assumptions C25_isam_bounds.

(** C25: the tree meets the contract that the range query theorems assume. *)
Theorem C25_range_contract {R : Type} {RO : RecOps R} {RL : RecLaws R} {KO : KeyOps R} {KL : KeyLaws R} :
  forall F L, 2 <= F -> 1 <= L -> lb_sound (isam_find (R := R) F L).
Proof. exact isam_find_sound. Qed.
Print Assumptions C25_range_contract.

(** C26: the construction neither fails nor leaves the node array, and writes as many
    nodes as were allocated. *)
Theorem C26_allocation {R : Type} {RO : RecOps R} {KO : KeyOps R} :
  forall F L (d : list (wrapped R)), 2 <= F -> 1 <= L -> 0 < length d ->
  exists t written, build_internal_levels F L d = Ok (t, written) /\
    written = i_cnt t /\ length (i_nodes t) = i_cnt t.
Proof.
  exact (fun F L d HF HL N => match build_ok F L HF HL d N with
    | ex_intro _ t (conj B (conj LN _)) => ex_intro _ t (ex_intro _ (i_cnt t) (conj B (conj eq_refl LN))) end).
Qed.
Print Assumptions C26_allocation.

(** C27: a lookup without the filter finds a copy of [r] if and only if there is one.
    Missing: every record is smaller than [r] but the last has its key (false, see
    C27_past_the_end), and lookups with the filter (false, C27_filter_refuted). *)
Theorem C27_point_lookup_partial {R : Type} {RO : RecOps R} {RL : RecLaws R} {KO : KeyOps R} {KL : KeyLaws R} :
  forall F L (d : list (wrapped R)) t r, 2 <= F -> 1 <= L -> sorted d -> isam_build F L d = Ok t ->
  (exists w, In w d /\ rlt (wrec w) r = false) ->
  (exists i w, isam_point_lookup F d t r false = Ok (Some i) /\ nth_error d i = Some w /\ req (wrec w) r = true) \/
  (isam_point_lookup F d t r false = Ok None /\ forall w, In w d -> req (wrec w) r = false).
Proof. exact (fun F L d t r HF HL SD => lookup_found F L HF HL d SD t r). Qed.
Print Assumptions C27_point_lookup_partial.

Theorem C27_absent_partial {R : Type} {RO : RecOps R} {RL : RecLaws R} {KO : KeyOps R} {KL : KeyLaws R} :
  forall F L (d : list (wrapped R)) t r, 2 <= F -> 1 <= L -> sorted d -> isam_build F L d = Ok t -> d <> [] ->
  (forall w, In w d -> (rkey (wrec w) < rkey r)%Z) -> isam_point_lookup F d t r false = Ok None.
Proof. exact (fun F L d t r HF HL SD => lookup_absent F L HF HL d SD t r). Qed.
Print Assumptions C27_absent_partial.

(** C27 fails: in the remaining case the lookup always reads the slot after the last
    record. *)
Theorem C27_past_the_end {R : Type} {RO : RecOps R} {RL : RecLaws R} {KO : KeyOps R} {KL : KeyLaws R} :
  forall F L (d : list (wrapped R)) t r w, 2 <= F -> 1 <= L -> sorted d -> isam_build F L d = Ok t ->
  (forall x, In x d -> rlt (wrec x) r = true) -> In w d -> rkey (wrec w) = rkey r ->
  isam_point_lookup F d t r false = Fail FOob.
Proof. exact (fun F L d t r w HF HL SD => lookup_oob F L HF HL d SD t r w). Qed.
Print Assumptions C27_past_the_end.

Theorem C27_past_the_end_refuted : exists (d : list (wrapped kv)) t r,
  sorted d /\ isam_build 16 16 d = Ok t /\ isam_point_lookup 16 d t r false = Fail FOob.
Proof.
  exists [W 0 (KV 1 0); W 0 (KV 2 5)]. eexists. exists (KV 2 7).
  split; [repeat constructor|]. split; vm_compute; reflexivity.
Qed.
Print Assumptions C27_past_the_end_refuted.

(** C27 fails: a lookup with the filter dereferences a null pointer. *)
Theorem C27_filter_refuted : exists (d : list (wrapped kv)) t r,
  sorted d /\ isam_build 16 16 d = Ok t /\ In r (map wrec d) /\ isam_point_lookup 16 d t r true = Fail FNull.
Proof.
  exists [W 0 (KV 1 0); W 0 (KV 2 5)]. eexists. exists (KV 2 5).
  split; [repeat constructor|]. split; [vm_compute; reflexivity|]. split; [right; left; reflexivity|]. reflexivity.
Qed.
Print Assumptions C27_filter_refuted.

(** ** Concrete cases *)

(** Thirty records with duplicate keys under fanout 2 and leaves of 3: four levels. *)
Definition is_data : list (wrapped kv) := map (fun i => W 0 (KV (Z.of_nat (i / 4)) (Z.of_nat (i mod 2 * 5)))) (seq 0 2)
  ++ map (fun i => W 0 (KV (Z.of_nat (i / 4)) 7)) (seq 2 28).

Example is_data_sorted : sorted is_data.
Proof. repeat (constructor; [|repeat constructor]); constructor. Qed.

Example is_bounds : exists t, isam_build 2 3 is_data = Ok t /\ i_cnt t = 11 /\
  isam_lower_bound 2 is_data t 3 = Ok 12 /\ isam_upper_bound 2 is_data t 3 = Ok 16 /\
  isam_lower_bound 2 is_data t 99 = Ok 30 /\ isam_upper_bound 2 is_data t (-1) = Ok 0 /\
  isam_point_lookup 2 is_data t (KV 0 5) false = Ok (Some 1) /\
  isam_point_lookup 2 is_data t (KV 0 6) false = Ok None /\
  isam_point_lookup 2 is_data t (KV 99 0) false = Ok None.
Proof. eexists. repeat split; vm_compute; reflexivity. Qed.

Example is_in_range : exists w, In w is_data /\ rlt (wrec w) (KV 0 5) = false.
Proof. exists (W 0 (KV 7 7)). split; [vm_compute; tauto|reflexivity]. Qed.
Example is_smaller : forall w, In w is_data -> (rkey (wrec w) < rkey (KV 99 0))%Z.
Proof. apply Forall_forall. repeat constructor. Qed.

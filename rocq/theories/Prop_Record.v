(** Properties of records and shard construction (C36-C38). *)
From Coq Require Import List Arith ZArith NArith Lia Bool Permutation Sorted.
From Verif Require Import Base RecordModel RecordProofs BufferModel MergeModel MergeProofs Spec
  HeaderProofs BuildProofs.
Import ListNotations.

(** C36: the comparisons of every record type. *)
Theorem C36_record_order : forall K V (KR : RecOps K) (KL : RecLaws K) (VR : RecOps V) (VL : RecLaws V),
  strict_weak_order (rec_lt (K := K) (V := V)) rec_eq.
Proof. exact @pair_swo. Qed.
Print Assumptions C36_record_order.

Theorem C36_kv_order : strict_weak_order kv_lt kv_eq.
Proof. exact (laws_swo (R := kv)). Qed.
Print Assumptions C36_kv_order.

Theorem C36_weighted_order : strict_weak_order wkv_lt wkv_eq.
Proof. exact (laws_swo (R := wkv)). Qed.
Print Assumptions C36_weighted_order.

Theorem C36_point_order : forall d,
  strict_weak_order (fun a b : { l : list Z | length l = d } => pt_lt (proj1_sig a) (proj1_sig b))
                    (fun a b => pt_eq (proj1_sig a) (proj1_sig b)).
Proof. exact point_swo. Qed.
Print Assumptions C36_point_order.

Theorem C36_string_order :
  strict_weak_order (fun a b : { r : skv | sk_len r = length (sk_key r) } => skv_lt (proj1_sig a) (proj1_sig b))
                    (fun a b => skv_eq (proj1_sig a) (proj1_sig b)).
Proof. exact strrec_swo. Qed.
Print Assumptions C36_string_order.

(** The order used by std::sort is a strict weak order; its incomparability is
    equality of record and header. *)
Theorem C36_wrapped_order : forall R (RO : RecOps R) (RL : RecLaws R),
  strict_weak_order (wlt (R := R)) (fun a b => req (wrec a) (wrec b) && (hdr a =? hdr b)%N).
Proof. exact @wrapped_swo. Qed.
Print Assumptions C36_wrapped_order.

(** Non-trivial comparisons. *)
Example C36_ex : kv_lt (KV 1 5) (KV 1 7) = true /\ pt_lt [1; 2]%Z [1; 3]%Z = true /\
  skv_lt (SKV [97; 98]%N 0 2) (SKV [97; 98; 99]%N 0 3) = true /\
  wlt (W 1 (KV 1 5)) (W 4 (KV 1 5)) = true.
Proof. repeat split. Qed.

(** What fails: Wrapped::operator== is not the incomparability of
    Wrapped::operator< (equal records with different headers are both == and <),
    and a string record whose length field is wrong breaks transitivity of ==. *)
Theorem C36_wrapped_eq_refuted : exists a b : wrapped kv, weq a b = true /\ wlt a b = true.
Proof. exists (W 1 (KV 0 0)), (W 2 (KV 0 0)). split; reflexivity. Qed.
Print Assumptions C36_wrapped_eq_refuted.
Theorem C36_bad_len_refuted : exists a b c : skv,
  skv_eq a b = true /\ skv_eq b c = true /\ skv_eq a c = false.
Proof.
  exists (SKV [97; 98; 99]%N 0 3), (SKV [97; 98; 100]%N 0 1), (SKV [97; 98; 101]%N 0 3).
  repeat split; reflexivity.
Qed.
Print Assumptions C36_bad_len_refuted.

(** C37: each setter changes its own field only, and the readers read the fields. *)
Theorem C37_header_flags : forall h ts, (h < 2 ^ 32)%N -> (ts < 2 ^ 29)%N -> let f := fields_of h in
  (h_is_tombstone h = f_ts f /\ h_is_deleted h = f_del f /\ h_is_visible h = f_vis f /\
   h_get_timestamp h = f_time f) /\
  fields_of (h_set_delete h) = Fields (f_ts f) true (f_vis f) (f_time f) /\
  fields_of (h_set_visible h) = Fields (f_ts f) (f_del f) true (f_time f) /\
  fields_of (h_set_tombstone true h) = Fields true (f_del f) (f_vis f) (f_time f) /\
  (f_time f = 0%N -> fields_of (h_set_timestamp ts h) = Fields (f_ts f) (f_del f) (f_vis f) ts) /\
  fields_of (h_clear_timestamp h) = Fields (f_ts f) (f_del f) (f_vis f) 0 /\
  (h_set_delete h < 2 ^ 32 /\ h_set_visible h < 2 ^ 32 /\ h_set_tombstone true h < 2 ^ 32 /\
   h_set_timestamp ts h < 2 ^ 32)%N.
Proof. exact header_flags. Qed.
Print Assumptions C37_header_flags.

Example C37_ex : fields_of (h_set_timestamp 77 (h_set_delete (h_set_visible 1))) = Fields true true true 77.
Proof. reflexivity. Qed.

(** What fails: set_tombstone(false) clears the whole header, a second timestamp
    is or-ed onto the first, and 2^29 does not fit. *)
Theorem C37_clear_tombstone_refuted : exists h, f_del (fields_of h) = true /\
  f_del (fields_of (h_set_tombstone false h)) = false.
Proof. exists 3%N. split; reflexivity. Qed.
Print Assumptions C37_clear_tombstone_refuted.
Theorem C37_second_timestamp_refuted : exists h ts, (ts < 2 ^ 29)%N /\
  f_time (fields_of (h_set_timestamp ts h)) <> ts.
Proof. exists 8%N, 2%N. split; [reflexivity|discriminate]. Qed.
Print Assumptions C37_second_timestamp_refuted.
Theorem C37_big_timestamp_refuted : exists ts, f_time (fields_of (h_set_timestamp ts 0)) <> ts.
Proof. exists (2 ^ 29)%N. discriminate. Qed.
Print Assumptions C37_big_timestamp_refuted.

(** C38: a shard built from a buffer view whose slots read as [l]: sorted, exact
    counts, no tagged records; what is missing are tagged records and pairs of a
    plain record and an equal tombstone; it never writes past the allocation. *)
Theorem C38_shard_from_view : forall R (RO : RecOps R) (RL : RecLaws R) (d : list (wrapped R)) v l,
  v_copy d v = Ok l ->
  exists s, shard_from_view d v = Ok s /\ built_from l (s_data s) /\
    s_reccnt s = length (s_data s) /\ s_tscnt s = countb is_ts (s_data s) /\ s_reccnt s <= length l.
Proof. exact @view_build. Qed.
Print Assumptions C38_shard_from_view.

(** ... and a shard merged from non-empty, sorted shards with exact counts. *)
Theorem C38_shard_from_shards : forall R (RO : RecOps R) (RL : RecLaws R)
  (qlt : qorder R) (QO : QOrder qlt) (ss : list (shard R)),
  Forall (fun s => s_data s <> [] /\ sorted (s_data s) /\ s_reccnt s = length (s_data s)) ss ->
  exists s, shard_from_shards qlt ss = Ok s /\ built_from (concat (map s_data ss)) (s_data s) /\
    s_reccnt s = length (s_data s) /\ s_tscnt s = countb is_ts (s_data s) /\
    s_reccnt s <= sum_list (map s_reccnt ss).
Proof. exact @shards_build. Qed.
Print Assumptions C38_shard_from_shards.

Example C38_ex : exists s, shard_from_shards by_version
    [Shard [W 0 (KV 1 0); W 0 (KV 3 0)] 2 0; Shard [W 1 (KV 1 0); W 2 (KV 2 0); W 0 (KV 3 0)] 3 1] = Ok s /\
  map wrec (s_data s) = [KV 3 0; KV 3 0].
Proof. eexists. split; vm_compute; reflexivity. Qed.

(** What fails: an empty input shard is read past its end. *)
Theorem C38_empty_shard_refuted : exists ss : list (shard kv),
  Forall (fun s => sorted (s_data s) /\ s_reccnt s = length (s_data s)) ss /\
  shard_from_shards by_version ss = Fail FOob.
Proof.
  exists [Shard [W 0 (KV 1 0)] 1 0; Shard [] 0 0]. split; [|vm_compute; reflexivity].
  repeat constructor.
Qed.
Print Assumptions C38_empty_shard_refuted.

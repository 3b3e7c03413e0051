(** The VPTree and the kNN query (C30, C31, C32, C46). *)
From Coq Require Import List Arith ZArith NArith Lia Bool Permutation.
From Verif Require Import Base RecordModel BufferModel VPModel VPSpec VPProofs KNNProofs KNNAny.
Import ListNotations.

(** C30: the construction succeeds and keeps the records, for every sequence of random
    numbers and every leaf size. *)
Theorem C30_build {R : Type} {RO : RecOps R} {D : Type} {DO : DistOps D} {DL : DistLaws D}
  {MO : MetricOps R D} :
  forall leafsz rng (ws : list (wrapped R)), exists t, vp_build leafsz rng ws = Ok t /\ vp_data t = ws.
Proof. exact vp_build_keeps. Qed.
Print Assumptions C30_build.

(** C30: a search for k >= 1 returns k records of the shard (all of them if there are
    fewer) and leaves no closer one out; for every metric, every sequence of random
    numbers, every leaf size and every queue that pops a farthest entry. *)
Theorem C30_search_exact {R : Type} {RO : RecOps R} {D : Type} {DO : DistOps D} {DL : DistLaws D}
  {MO : MetricOps R D} {ML : MetricLaws R D} :
  forall pop (PM : PQMax pop) leafsz rng (ws : list (wrapped R)) t p k, 0 < k ->
  vp_build leafsz rng ws = Ok t ->
  exists q, vp_search pop t p k = Ok q /\
    nearest (fun x y => dleb (dist p (wrec x)) (dist p (wrec y))) k ws q.
Proof. exact vp_search_exact. Qed.
Print Assumptions C30_search_exact.
Example C30_search_example :
  let ws := map (fun x => W 0%N (KV x 0%Z)) [5; 1; 9; 3; 7; 2; 8; 9; 4]%Z in
  exists t, vp_build 2 (fun c => c * 7 + 3) ws = Ok t /\
    match vp_search pop_far t (KV 6 0)%Z 3 with
    | Ok q => length q = 3 /\ countb (fun w => (Z.abs (6 - rkey (wrec w)) =? 1)%Z) q = 2
    | Fail _ => False
    end.
Proof. vm_compute. eexists. repeat split; reflexivity. Qed.

(** C30 fails for k = 0: the search pops an empty queue. *)
Theorem C30_zero_refuted : exists (ws : list (wrapped kv)) t,
  vp_build 2 (fun _ => 0) ws = Ok t /\ vp_search pop_far t (KV 0 0)%Z 0 = Fail FOob.
Proof. exists [W 0%N (KV 1 0)%Z]. eexists. vm_compute. split; reflexivity. Qed.
Print Assumptions C30_zero_refuted.

(** C31: a lookup with leaves of at least two records and a record stored does not
    fault, returns only records equal to the one sought, and finds the stored ones if
    the tree is one leaf.  Missing: that it finds every stored record in larger trees
    (false, see the next two theorems). *)
Theorem C31_lookup_partial {R : Type} {RO : RecOps R} {D : Type} {DO : DistOps D} {DL : DistLaws D}
  {MO : MetricOps R D} :
  forall leafsz rng (ws : list (wrapped R)) r t, 2 <= leafsz -> ws <> [] -> vp_build leafsz rng ws = Ok t ->
  exists o, vp_point_lookup t r = Ok o /\
    (forall i, o = Some i -> exists w, nth_error (map fst (vp_ptrs t)) i = Some w /\ In w ws /\
                             req (wrec w) r = true) /\
    (length ws <= leafsz + 1 -> (exists w, In w ws /\ req (wrec w) r = true) -> o <> None).
Proof. exact vp_point_lookup_ok. Qed.
Print Assumptions C31_lookup_partial.
Example C31_lookup_example :
  let ws := map (fun x => W 0%N (KV x 0%Z)) [5; 1; 9; 3; 7; 2; 8]%Z in
  exists t, vp_build 2 (fun _ => 0) ws = Ok t /\ vp_point_lookup t (KV 2 0)%Z = Ok (Some 5) /\
    vp_point_lookup t (KV 4 0)%Z = Ok None.
Proof. vm_compute. eexists. repeat split; reflexivity. Qed.

(** C31 fails: the record at an inner node other than the root is not found. *)
Theorem C31_vantage_refuted : exists (ws : list (wrapped kv)) t w,
  NoDup (map (fun w => rkey (wrec w)) ws) /\ vp_build 2 (fun _ => 0) ws = Ok t /\ In w ws /\
  vp_point_lookup t (wrec w) = Ok None.
Proof.
  exists (map (fun x => W 0%N (KV x 0%Z)) [5; 1; 9; 3; 7; 2; 8]%Z). eexists. exists (W 0%N (KV 8 0)%Z).
  split; [|split; [vm_compute; reflexivity|split; [simpl; tauto|vm_compute; reflexivity]]].
  simpl. repeat (constructor; [simpl; intros H; decompose [or] H; try discriminate; try tauto|]). constructor.
Qed.
Print Assumptions C31_vantage_refuted.

(** C31 fails: a record in a leaf, as far from the vantage point as the radius, is not
    found. *)
Theorem C31_tie_refuted : exists (ws : list (wrapped kv)) t w,
  NoDup (map (fun w => rkey (wrec w)) ws) /\ vp_build 2 (fun _ => 0) ws = Ok t /\ In w ws /\
  vp_root t = VNode 0 1%Z (VLeaf 1 1) (VLeaf 2 3) /\ nth_error (map fst (vp_ptrs t)) 1 = Some w /\
  vp_point_lookup t (wrec w) = Ok None.
Proof.
  exists (map (fun x => W 0%N (KV x 0%Z)) [0; 1; -1; 2]%Z). eexists. exists (W 0%N (KV 1 0)%Z).
  split; [|split; [vm_compute; reflexivity|split; [simpl; tauto|vm_compute; repeat split; reflexivity]]].
  simpl. repeat (constructor; [simpl; intros H; decompose [or] H; try discriminate; try tauto|]). constructor.
Qed.
Print Assumptions C31_tie_refuted.

(** C31 fails: a lookup in an empty shard, or in a tree with leaves of one record, may
    dereference a null pointer. *)
Theorem C31_null_refuted :
  (exists t : vptree kv Z, vp_build 2 (fun _ => 0) [] = Ok t /\ vp_point_lookup t (KV 0 0)%Z = Fail FNull) /\
  exists (ws : list (wrapped kv)) t r, vp_build 1 (fun _ => 0) ws = Ok t /\ length ws = 3 /\
    vp_point_lookup t r = Fail FNull.
Proof.
  split; [eexists; vm_compute; split; reflexivity|].
  exists (map (fun x => W 0%N (KV x 0%Z)) [0; 3; 5]%Z). eexists. exists (KV 1 0)%Z.
  vm_compute. repeat split; reflexivity.
Qed.
Print Assumptions C31_null_refuted.

(** C31: with the hash map a lookup finds a record if and only if it is stored. *)
Theorem C31_map_lookup {R : Type} {RO : RecOps R} {D : Type} {DO : DistOps D} :
  forall (t : vptree R D) r,
  match vp_map_lookup t r with
  | Some i => exists w, nth_error (vp_data t) i = Some w /\ req (wrec w) r = true
  | None => forall w, In w (vp_data t) -> req (wrec w) r = false
  end.
Proof. exact vp_map_lookup_ok. Qed.
Print Assumptions C31_map_lookup.
Example C31_map_example :
  let ws := map (fun x => W 0%N (KV x 0%Z)) [5; 1; 9; 3; 7; 2; 8]%Z in
  exists t, vp_build 2 (fun _ => 0) ws = Ok t /\ vp_map_lookup t (KV 8 0)%Z = Some 6 /\
    vp_map_lookup t (KV 4 0)%Z = None.
Proof. vm_compute. eexists. repeat split; reflexivity. Qed.

(** C32: a kNN query for k >= 1 over a view and shards returns the k nearest of the
    untagged records of the view and the records of the shards. *)
Theorem C32_knn_exact {R : Type} {RO : RecOps R} {D : Type} {DO : DistOps D} {DL : DistLaws D}
  {MO : MetricOps R D} {ML : MetricLaws R D} :
  forall pop (PM : PQMax pop) leafsz p k d v ws (ts : list (vptree R D)), 0 < k ->
  v_records d v = Ok ws ->
  (forall t, In t ts -> exists rng ws', vp_build leafsz rng ws' = Ok t) ->
  exists out, knn_query pop p k d v ts = Ok out /\
    nearest (fun x y => dleb (dist p x) (dist p y)) k
      (map wrec (filter (fun w => negb (is_del w)) ws ++ concat (map vp_data ts))) out.
Proof. exact knn_exact. Qed.
Print Assumptions C32_knn_exact.

(** C32: the two constructors keep every untagged record. *)
Theorem C32_from_view {R : Type} {RO : RecOps R} {D : Type} {DO : DistOps D} {DL : DistLaws D}
  {MO : MetricOps R D} :
  forall leafsz rng (d : list (wrapped R)) v ws, v_records d v = Ok ws ->
  exists t, vp_from_view leafsz rng d v = Ok t /\
    map wrec (vp_data t) = map wrec (filter (fun w => negb (is_del w)) ws).
Proof. exact vp_from_view_recs. Qed.
Print Assumptions C32_from_view.
Theorem C32_from_shards {R : Type} {RO : RecOps R} {D : Type} {DO : DistOps D} {DL : DistLaws D}
  {MO : MetricOps R D} :
  forall leafsz rng (ts : list (vptree R D)),
  exists t, vp_from_shards leafsz rng ts = Ok t /\
    map wrec (vp_data t) = map wrec (filter (fun w => negb (is_del w)) (concat (map vp_data ts))).
Proof. exact vp_from_shards_recs. Qed.
Print Assumptions C32_from_shards.
Example C32_example :
  let b := map (fun x => W 0%N (KV x 0%Z)) [50; 12; 0; 0]%Z in
  match vp_build 2 (fun c => c) (map (fun x => W 0%N (KV x 0%Z)) [5; 1; 9; 3; 7]%Z),
        vp_build 2 (fun c => c + 1) (map (fun x => W 0%N (KV x 0%Z)) [11; 30; 20; 14]%Z) with
  | Ok t1, Ok t2 => v_records b (View 4 0 2 0) = Ok (firstn 2 b) /\
      exists out, knn_query pop_far (KV 10 0)%Z 3 b (View 4 0 2 0) [t1; t2] = Ok out /\
        countb (fun r => (Z.abs (10 - rkey r) =? 1)%Z) out = 2 /\
        countb (fun r => (rkey r =? 12)%Z) out = 1 /\ length out = 3
  | _, _ => False
  end.
Proof. vm_compute. split; [reflexivity|]. eexists. repeat split; reflexivity. Qed.

(** C32 fails with deletes by tagging: a tagged record of a shard is returned. *)
Theorem C32_tagged_refuted : exists (ws : list (wrapped kv)) t r,
  NoDup (map (fun w => rkey (wrec w)) ws) /\ vp_build 2 (fun _ => 0) ws = Ok t /\
  (forall w, In w (vp_data (vp_tag r t)) -> req (wrec w) r = true -> is_del w = true) /\
  knn_query pop_far r 1 [] (View 1 0 0 0) [vp_tag r t] = Ok [r].
Proof.
  exists (map (fun x => W 0%N (KV x 0%Z)) [1; 5]%Z). eexists. exists (KV 5 0)%Z.
  split; [|split; [vm_compute; reflexivity|split; [|vm_compute; reflexivity]]].
  - simpl. repeat (constructor; [simpl; intros H; decompose [or] H; try discriminate; try tauto|]). constructor.
  - vm_compute. intros w [<-|[<-|[]]]; [discriminate|reflexivity].
Qed.
Print Assumptions C32_tagged_refuted.

(** C46 fails: calc_distance of a CosinePoint is the cosine, which is not a metric, and
    the search leaves out a record that is closer by that measure. *)
Theorem C46_cosine_refuted : exists (ws : list (wrapped cpoint)) t p x y,
  (forall w, In w ws -> (cp_x (wrec w) * cp_x (wrec w) + cp_y (wrec w) * cp_y (wrec w) = 1)%Z) /\
  vp_build 2 (fun _ => 0) ws = Ok t /\ vp_search pop_far t p 1 = Ok [x] /\ In y ws /\
  dltb (dist p (wrec y)) (dist p (wrec x)) = true.
Proof.
  exists (map (fun c => W 0%N c) [CP 1 0; CP (-1) 0; CP 0 1; CP 0 (-1)]%Z). eexists.
  exists (CP 1 0)%Z. eexists. exists (W 0%N (CP (-1) 0)%Z).
  split; [intros w H; simpl in H; decompose [or] H; subst; reflexivity || contradiction|].
  split; [vm_compute; reflexivity|]. split; [vm_compute; reflexivity|]. split; [simpl; tauto|reflexivity].
Qed.
Print Assumptions C46_cosine_refuted.

(** C46: for any distance function, metric or not, the search of a tree does not fail and
    returns k of the stored records, each no more often than it is stored.  Missing:
    that they are the closest (false, see C46_cosine_refuted). *)
Theorem C46_search_partial {R : Type} {RO : RecOps R} {D : Type} {DO : DistOps D} {DL : DistLaws D}
  {MO : MetricOps R D} :
  forall pop (PM : PQMax pop) leafsz rng (ws : list (wrapped R)) t p k,
  0 < k -> vp_build leafsz rng ws = Ok t ->
  exists q rest, vp_search pop t p k = Ok q /\ Permutation ws (q ++ rest) /\ length q = Nat.min k (length ws).
Proof. exact vp_search_stored. Qed.
Print Assumptions C46_search_partial.

(** C46: the same for the query over the buffer and any number of trees. *)
Theorem C46_query_partial {R : Type} {RO : RecOps R} {D : Type} {DO : DistOps D} {DL : DistLaws D}
  {MO : MetricOps R D} :
  forall pop (PM : PQMax pop) leafsz p k (d : list (wrapped R)) v ws (ts : list (vptree R D)),
  0 < k -> v_records d v = Ok ws -> (forall t, In t ts -> exists rng ws', vp_build leafsz rng ws' = Ok t) ->
  let all := map wrec (filter (fun w => negb (is_del w)) ws ++ concat (map vp_data ts)) in
  exists out rest, knn_query pop p k d v ts = Ok out /\ Permutation all (out ++ rest) /\
    length out = Nat.min k (length all).
Proof. exact knn_stored. Qed.
Print Assumptions C46_query_partial.

Example C46_case :
  let b := map (fun c => W 0%N c) [CP 0 1; CP 1 0]%Z in
  match vp_build 2 (fun c => c) (map (fun c => W 0%N c) [CP 1 0; CP (-1) 0; CP 0 1; CP 0 (-1)]%Z) with
  | Ok t => exists out, vp_search pop_far t (CP 1 0)%Z 3 = Ok out /\ length out = 3 /\
      v_records b (View 2 0 2 0) = Ok b /\
      exists o, knn_query pop_far (CP 1 0)%Z 4 b (View 2 0 2 0) [t; t] = Ok o /\ length o = 4
  | _ => False
  end.
Proof. vm_compute. eexists. repeat split. eexists. repeat split. Qed.

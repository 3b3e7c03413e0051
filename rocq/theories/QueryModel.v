(** Range query, range count and point lookup
    (include/query/rangequery.h, rangecount.h, pointlookup.h), executed as in
    DynamicExtension.h:609-680. *)
From Coq Require Import List Arith ZArith NArith Lia Bool.
From Verif Require Import Base RecordModel BufferModel MergeModel StructModel ExtModel.
Import ListNotations.

Section Query.
Context {R : Type} {RO : RecOps R} {KO : KeyOps R}.
Variable qlt : qorder R.

(** [lbf data k]: the shard's get_lower_bound, as a parameter because every shard
    has its own (ISAMTree.h:127, PGM.h:234, TrieSpline.h:277).  See [lb_sound]. *)
Variable lbf : list (wrapped R) -> Z -> res nat.

(** Whether the key of a record lies in [l, u]. *)
Definition in_range (l u : Z) (r : R) : bool := ((l <=? rkey r) && (rkey r <=? u))%Z.

(** The two pointer loops, rangequery.h:90-99 and rangecount.h:98-115. *)
Fixpoint roll (l : Z) (ws : list (wrapped R)) : list (wrapped R) :=
  match ws with
  | [] => []
  | w :: ws' => if (rkey (wrec w) <? l)%Z then roll l ws' else ws
  end.
Fixpoint take_le (u : Z) (ws : list (wrapped R)) : list (wrapped R) :=
  match ws with
  | [] => []
  | w :: ws' => if (rkey (wrec w) <=? u)%Z then w :: take_le u ws' else []
  end.

(** rangequery.h:47-55 and 72-102.  [None]: the early return of line 80-82. *)
Definition local_slice (l u : Z) (s : shard R) : res (option (list (wrapped R))) :=
  do start <- lbf (s_data s) l;
  if start =? s_reccnt s then Ok None
  else if length (s_data s) <=? start then Fail FOob
  else Ok (Some (take_le u (roll l (skipn start (s_data s))))).

Definition rq_local (l u : Z) (s : shard R) : res (list (wrapped R)) :=
  do o <- local_slice l u s;
  Ok (match o with Some x => x | None => [] end).

(** rangequery.h:104-117. *)
Definition rq_local_buffer (l u : Z) (d : list (wrapped R)) (v : view)
  : res (list (wrapped R)) :=
  do ws <- v_records d v;
  Ok (filter (fun w => in_range l u (wrec w)) ws).

(** rangequery.h:129-139: entries for the non-empty results.  The model keeps the
    cursors in version order (version = tmp_n - i - 1), i.e. reversed. *)
Fixpoint heads_from (i : nat) (cs : list (list (wrapped R))) : list (qent R) :=
  match cs with
  | [] => []
  | [] :: cs' => heads_from (S i) cs'
  | (w :: _) :: cs' => (w, i) :: heads_from (S i) cs'
  end.

(** The else branch of rq::combine (rangequery.h:164-166), output reversed. *)
Definition rq_act (w : wrapped R) (out : list R) : list R :=
  if is_ts w then out else wrec w :: out.

(** rangequery.h:119-176. *)
Definition rq_combine (local_results : list (list (wrapped R))) : res (list R) :=
  let cs := rev local_results in
  if length (concat cs) =? 0 then Ok []
  else
    do o <- merge_loop qlt rq_act (S (length (concat cs))) cs (heads_from 0 cs) [];
    Ok (rev o).

(** DynamicExtension.h:618-662 for rq::Query: on the structure and the buffer view of
    an epoch. *)
Definition rq_on (l u : Z) (st : structure R) (d : list (wrapped R)) (v : view) : res (list R) :=
  do bl <- rq_local_buffer l u d v;
  do sl <- map_res (rq_local l u) (query_shards st);
  rq_combine (bl :: sl).

(** DynamicExtension.h:609-680 for rq::Query. *)
Definition range_query (e : ext R) (l u : Z) : res (ext R * list R) := with_epoch e (rq_on l u).

(** ** rc::Query *)

(** rangecount.h:78-119: at most one (record count, tombstone count) pair. *)
Definition rc_count (ws : list (wrapped R)) : nat * nat :=
  (countb (fun w => negb (is_del w)) ws,
   countb (fun w => negb (is_del w) && is_ts w) ws).
Definition rc_local (l u : Z) (s : shard R) : res (list (nat * nat)) :=
  do o <- local_slice l u s;
  Ok (match o with Some x => [rc_count x] | None => [] end).

(** rangecount.h:121-143. *)
Definition rc_local_buffer (l u : Z) (d : list (wrapped R)) (v : view)
  : res (list (nat * nat)) :=
  do ws <- v_records d v;
  Ok [rc_count (filter (fun w => in_range l u (wrec w)) ws)].

(** rangecount.h:145-162: [local_result[0]] of an empty vector is a fault. *)
Definition rc_combine (rs : list (list (nat * nat))) : res nat :=
  do ps <- map_res (nth_res 0) rs;
  let reccnt := sum_list (map fst ps) in
  let tscnt := sum_list (map snd ps) in
  Ok (reccnt - (if reccnt <? tscnt then reccnt else tscnt)).

(** DynamicExtension.h:618-662 for rc::Query. *)
Definition rc_on (l u : Z) (st : structure R) (d : list (wrapped R)) (v : view) : res nat :=
  do bl <- rc_local_buffer l u d v;
  do sl <- map_res (rc_local l u) (query_shards st);
  rc_combine (bl :: sl).

(** DynamicExtension.h:609-680 for rc::Query. *)
Definition range_count (e : ext R) (l u : Z) : res (ext R * nat) := with_epoch e (rc_on l u).

(** ** pl::Query *)

(** [hit r]: [rec.key == search_key], the test of the buffer scan; only equality of
    keys is used, so keys may be of any type.  [plf data] is the shard's
    point_lookup for the record [{search_key, 0}] (pointlookup.h:71); every shard
    has its own.  See [pl_sound]. *)
Variable hit : R -> bool.
Variable plf : list (wrapped R) -> res (option (wrapped R)).

(** pointlookup.h:68-78. *)
Definition pl_local (s : shard R) : res (list (wrapped R)) :=
  do o <- plf (s_data s);
  Ok (match o with Some w => [w] | None => [] end).

(** pointlookup.h:80-94. *)
Definition pl_local_buffer (d : list (wrapped R)) (v : view) : res (list (wrapped R)) :=
  do ws <- v_records d v;
  Ok (match filter (fun w => hit (wrec w)) ws with
      | [] => [] | w :: _ => [w] end).

(** The loop over the shards with EARLY_ABORT (DynamicExtension.h:635-656).  The
    results that are not computed stay empty, which combine skips. *)
Fixpoint pl_results (ss : list (shard R)) : res (list (list (wrapped R))) :=
  match ss with
  | [] => Ok []
  | s :: ss' =>
      do x <- pl_local s;
      match x with
      | [] => do rest <- pl_results ss'; Ok ([] :: rest)
      | _ :: _ => Ok [x]
      end
  end.

(** pointlookup.h:97-110. *)
Fixpoint pl_combine (rs : list (list (wrapped R))) : list R :=
  match rs with
  | [] => []
  | [] :: rs' => pl_combine rs'
  | (w :: _) :: _ => if is_del w || is_ts w then [] else [wrec w]
  end.

(** DynamicExtension.h:618-662 for pl::Query. *)
Definition pl_on (st : structure R) (d : list (wrapped R)) (v : view) : res (list R) :=
  do bl <- pl_local_buffer d v;
  match bl with
  | _ :: _ => Ok (pl_combine [bl])
  | [] => do sl <- pl_results (query_shards st); Ok (pl_combine sl)
  end.

(** DynamicExtension.h:609-680 for pl::Query. *)
Definition point_lookup_query (e : ext R) : res (ext R * list R) := with_epoch e pl_on.

End Query.

(** A get_lower_bound that counts the smaller keys, and dereferences a null root
    on an empty shard (ISAMTree.h:127-148, proved in ISAMProofs.v). *)
Definition lb_isam {R} {KO : KeyOps R} (d : list (wrapped R)) (k : Z) : res nat :=
  match d with
  | [] => Fail FNull
  | _ => Ok (countb (fun w => (rkey (wrec w) <? k)%Z) d)
  end.

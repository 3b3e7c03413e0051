(** Sorted-array construction and merging (include/util/SortedMerge.h,
    include/util/Cursor.h), with the external priority queue as a parameter. *)
From Coq Require Import List Arith ZArith NArith Lia Bool.
From Verif Require Import Base RecordModel BufferModel.
Import ListNotations.

(** psudb::queue_record: a record (pointer) and the version pushed with it. *)
Definition qent (R : Type) : Type := (wrapped R * nat)%type.

(** The type of the queue's comparison. *)
Definition qorder (R : Type) {RO : RecOps R} : Type := qent R -> qent R -> bool.

Section Merge.
Context {R : Type} {RO : RecOps R}.
Notation qent := (qent R).

(** The comparison of psudb::PriorityQueue is not part of /repo: it is the
    parameter [qlt] of everything below.  [QOrder] is its contract. *)
Class QOrder (qlt : qorder R) : Prop := {
  qlt_irrefl : forall a, qlt a a = false;
  qlt_trans : forall a b c, qlt a b = true -> qlt b c = true -> qlt a c = true;
  qlt_total : forall a b, snd a <> snd b -> qlt a b = true \/ qlt b a = true;
  qlt_rec : forall a b, rlt (wrec (fst a)) (wrec (fst b)) = true -> qlt a b = true
}.

(** Two concrete rules for equal records: older version first, or smaller header
    first (Wrapped::operator<) and then older version. *)
Definition by_version : qorder R := fun a b =>
  rlt (wrec (fst a)) (wrec (fst b))
  || (req (wrec (fst a)) (wrec (fst b)) && (snd a <? snd b)).
Definition by_header : qorder R := fun a b =>
  wlt (fst a) (fst b)
  || (negb (wlt (fst b) (fst a)) && (snd a <? snd b)).

Variable qlt : qorder R.

(** The queue is the list of its entries.  [pq_min]: the entry at the top
    (peek()).  Each cursor has at most one entry, so versions identify entries. *)
Fixpoint pq_min (q : list qent) : option qent :=
  match q with
  | [] => None
  | e :: q' =>
      match pq_min q' with
      | None => Some e
      | Some m => if qlt m e then Some m else Some e
      end
  end.

(** pop() of the entry with version [v]. *)
Fixpoint pq_del (v : nat) (q : list qent) : list qent :=
  match q with
  | [] => []
  | e :: q' => if snd e =? v then q' else e :: pq_del v q'
  end.

(** pop(). *)
Definition pq_pop (q : list qent) : list qent :=
  match pq_min q with None => [] | Some m => pq_del (snd m) q end.

(** [pq.size() > 1 ? pq.peek(1) : {nullptr, 0}] (SortedMerge.h:166-167). *)
Definition pq_next (q : list qent) : option qent := pq_min (pq_pop q).

(** push(). *)
Definition pq_push (e : qent) (q : list qent) : list qent := q ++ [e].

(** Cursor.h:24-33: a cursor is the list of records from [ptr] to [end].
    Cursor.h:45-56, advance_cursor: moves on and tells whether a record is left;
    [cs] is the vector of cursors, [v] the index of the one advanced.  The result
    is the new vector and the queue with the new head pushed under [v]. *)
Definition advance_push (v : nat) (cs : list (list (wrapped R))) (q : list qent)
  : list (list (wrapped R)) * list qent :=
  let c' := tl (nth v cs []) in
  let cs' := set_nth v c' cs in
  match c' with
  | [] => (cs', q)
  | w :: _ => (cs', pq_push (w, v) q)
  end.

(** SortedMerge.h:37-40, struct merge_info, plus the output array. *)
Record marr := MArr { m_data : list (wrapped R); m_rec : nat; m_ts : nat }.

(** [buffer[info.record_count++] = w] with the tombstone count, on a reversed
    output (the array is written left to right). *)
Definition emit (w : wrapped R) (o : marr) : marr :=
  MArr (w :: m_data o) (S (m_rec o)) (if is_ts w then S (m_ts o) else m_ts o).

Definition finish (o : marr) : marr := MArr (rev (m_data o)) (m_rec o) (m_ts o).

(** The merge loop, SortedMerge.h:163-210.  rq::combine (rangequery.h:147-173) is
    the same loop with another action on the record that is not cancelled, so the
    loop takes that action as a parameter: [act w a] is the output [a] after the
    else branch has processed [w].  Fuel bounds the recursion. *)
Section Loop.
Context {A : Type}.
Variable act : wrapped R -> A -> A.

Fixpoint merge_loop (fuel : nat) (cs : list (list (wrapped R))) (q : list qent) (a : A)
  : res A :=
  match fuel with
  | O => Fail FFuel
  | S fuel' =>
      match pq_min q with
      | None => Ok a
      | Some now =>
          let emit_now :=
            let '(cs', q') := advance_push (snd now) cs (pq_pop q) in
            merge_loop fuel' cs' q' (act (fst now) a) in
          match pq_next q with
          | Some next =>
              if negb (is_ts (fst now)) && req (wrec (fst now)) (wrec (fst next))
                 && is_ts (fst next)
              then
                let '(cs1, q1) := advance_push (snd now) cs (pq_pop (pq_pop q)) in
                let '(cs2, q2) := advance_push (snd next) cs1 q1 in
                merge_loop fuel' cs2 q2 a
              else emit_now
          | None => emit_now
          end
      end
  end.
End Loop.

(** The else branch of sorted_array_merge (SortedMerge.h:186-202). *)
Definition sam_act (w : wrapped R) (o : marr) : marr := if is_del w then o else emit w o.

(** SortedMerge.h:158-161, the initial pushes: [pq.push(cursors[i].ptr, i)] for
    *every* cursor.  The pointer of an empty cursor points past the shard's data
    (uninitialised memory) and is read by the queue's comparison: a fault. *)
Fixpoint init_pushes (i : nat) (cs : list (list (wrapped R))) : res (list qent) :=
  match cs with
  | [] => Ok []
  | [] :: _ => Fail FOob
  | (w :: _) :: cs' => do q <- init_pushes (S i) cs'; Ok ((w, i) :: q)
  end.

(** SortedMerge.h:151-211, sorted_array_merge. *)
Definition sorted_array_merge (cs : list (list (wrapped R))) : res marr :=
  do q <- init_pushes 0 cs;
  do o <- merge_loop sam_act (S (length (concat cs))) cs q (MArr [] 0 0);
  Ok (finish o).

(** std::sort with std::less<Wrapped<R>> (SortedMerge.h:104), as insertion sort. *)
Fixpoint winsert (w : wrapped R) (l : list (wrapped R)) : list (wrapped R) :=
  match l with
  | [] => [w]
  | x :: l' => if wlt w x then w :: x :: l' else x :: winsert w l'
  end.
Definition wsort (l : list (wrapped R)) : list (wrapped R) :=
  fold_left (fun acc w => winsert w acc) l [].

(** SortedMerge.h:112-137, the scan that cancels adjacent record / tombstone
    pairs, drops tagged records and strips the header to two bits. *)
Fixpoint cancel_loop (fuel : nat) (l : list (wrapped R)) (o : marr) : res marr :=
  match fuel with
  | O => Fail FFuel
  | S fuel' =>
      match l with
      | [] => Ok (finish o)
      | base :: l' =>
          let keep :=
            if is_del base then cancel_loop fuel' l' o
            else cancel_loop fuel' l' (emit (mask3 base) o) in
          match l' with
          | nxt :: l'' =>
              if negb (is_ts base) && req (wrec base) (wrec nxt) && is_ts nxt
              then cancel_loop fuel' l'' o
              else keep
          | [] => keep
          end
      end
  end.

(** SortedMerge.h:88-141, sorted_array_from_bufferview. *)
Definition sorted_array_from_view (d : list (wrapped R)) (v : view) : res marr :=
  do l <- v_copy d v;
  let l' := wsort l in
  cancel_loop (S (length l')) l' (MArr [] 0 0).

(** ** Shards over a sorted array

    ISAMTree.h:51-88 (Alias.h, PGM.h and TrieSpline.h build their array the same
    way): the data array and the two counts. *)
Record shard := Shard { s_data : list (wrapped R); s_reccnt : nat; s_tscnt : nat }.

(** ISAMTree.h:51-66, construction from a buffer view. *)
Definition shard_from_view (d : list (wrapped R)) (v : view) : res shard :=
  do m <- sorted_array_from_view d v;
  Ok (Shard (m_data m) (m_rec m) (m_ts m)).

(** SortedMerge.h:52-76, build_cursor_vec, for non-null shards. *)
Definition build_cursor_vec (ss : list shard) : list (list (wrapped R)) * nat * nat :=
  fold_left (fun '(cs, rc, tc) s => (cs ++ [s_data s], rc + s_reccnt s, tc + s_tscnt s))
            ss ([], 0, 0).

(** ISAMTree.h:68-88, construction by merging shards.  The output array has room
    for the sum of the input record counts; writing more would be a fault. *)
Definition shard_from_shards (ss : list shard) : res shard :=
  let '(cs, attempt_reccnt, _) := build_cursor_vec ss in
  do m <- sorted_array_merge cs;
  if m_rec m <=? attempt_reccnt
  then Ok (Shard (m_data m) (m_rec m) (m_ts m))
  else Fail FOob.

End Merge.
Arguments shard R : clear implicits.
Arguments marr R : clear implicits.

(** ** Kinds of shards

    ShardRequirements.h and interface/Shard.h: what the structure needs of a shard
    type are its two constructors.  Every shard of the library keeps an array of
    records and two counts; the search structure over the array is built from it. *)
Record builders (R : Type) := Builders {
  from_view : list (wrapped R) -> view -> res (shard R);
  from_shards : list (shard R) -> res (shard R)
}.
Arguments Builders {R} from_view from_shards.
Arguments from_view {R} b d v.
Arguments from_shards {R} b ss.

(** The sorted arrays of ISAMTree, Alias, PGM and TrieSpline.  They are the shards
    meant where an order of the merge queue is given in place of a kind of shards. *)
Definition sorted_shards {R : Type} {RO : RecOps R} (qlt : qorder R) : builders R :=
  Builders shard_from_view (shard_from_shards qlt).
Coercion sorted_shards : qorder >-> builders.

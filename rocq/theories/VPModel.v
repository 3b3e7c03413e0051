(** The VPTree shard (include/shard/VPTree.h).

    Simplifications: distances are exact (an abstract ordered type, no rounding, no
    overflow); an entry of m_ptrs holds the record itself instead of a pointer to it;
    the random numbers are an arbitrary stream; the initial farthest distance (the
    largest double) is larger than every distance. *)
From Coq Require Import List Arith Bool ZArith Permutation.
From Verif Require Import Base RecordModel BufferModel.
Import ListNotations.

(** double: an order, a sum and a difference. *)
Class DistOps (D : Type) := {
  dltb : D -> D -> bool;
  dadd : D -> D -> D;
  dsub : D -> D -> D;
  dzero : D
}.
Definition dleb {D} {DO : DistOps D} (a b : D) : bool := negb (dltb b a).

(** The laws of exact arithmetic that the searches rely on. *)
Class DistLaws (D : Type) {DO : DistOps D} : Prop := {
  dlt_irrefl : forall a, dltb a a = false;
  dlt_trans : forall a b c, dltb a b = true -> dltb b c = true -> dltb a c = true;
  dlt_weak : forall a b c, dltb a b = false -> dltb b c = false -> dltb a c = false;
  dadd_comm : forall a b, dadd a b = dadd b a;
  dadd_mono : forall a b c, dltb a b = dltb (dadd a c) (dadd b c);
  dsub_add : forall a b, dadd (dsub a b) b = a
}.

(** Record.h:32-35, the concept NDRecordInterface: calc_distance. *)
Class MetricOps (R D : Type) := { dist : R -> R -> D }.
Class MetricLaws (R D : Type) {DO : DistOps D} {MO : MetricOps R D} : Prop := {
  dist_sym : forall a b : R, dist a b = dist b a;
  dist_tri : forall a b c : R, dleb (dist a c) (dadd (dist a b) (dist b c)) = true
}.

(** VPTree.h:34-48, struct vpnode.  [VNull] is a null pointer; the stop of an inner
    node keeps its initial value 0. *)
Inductive vpnode (D : Type) :=
| VNull
| VLeaf (start stop : nat)
| VNode (start : nat) (radius : D) (inside outside : vpnode D).
Arguments VNull {D}.
Arguments VLeaf {D} start stop.
Arguments VNode {D} start radius inside outside.

Section VP.
Context {R : Type} {RO : RecOps R} {D : Type} {DO : DistOps D} {MO : MetricOps R D}.

(** LEAFSZ. *)
Variable leafsz : nat.

(** gsl_rng_uniform_int(rng, n) for the [c]-th call; n = 0 is an error of the library. *)
Variable rng : nat -> nat.
Definition uniform (c n : nat) : res nat := if n =? 0 then Fail FAssert else Ok (rng c mod n).

(** VPTree.h:194-197: m_ptrs is an array of records and distances. *)
Implicit Types ps : list (wrapped R * D).

(** VPTree.h:333-337. *)
Definition vswap (i j : nat) ps : res (list (wrapped R * D)) :=
  do a <- nth_res i ps;
  do b <- nth_res j ps;
  Ok (set_nth j a (set_nth i b ps)).

(** VPTree.h:318-327: [k] iterations from [i]. *)
Fixpoint part_loop (k i stop j : nat) ps : res (nat * list (wrapped R * D)) :=
  match k with
  | O => Ok (j, ps)
  | S k' =>
      do a <- nth_res i ps;
      do b <- nth_res stop ps;
      if dltb (snd a) (snd b) then
        do ps' <- vswap j i ps;
        part_loop k' (S i) stop (S j) ps'
      else part_loop k' (S i) stop j ps
  end.

(** VPTree.h:312-331. *)
Definition partition (start stop c : nat) ps : res (nat * list (wrapped R * D)) :=
  do x <- uniform c (stop - start);
  do ps1 <- vswap (start + x) stop ps;
  do (j, ps2) <- part_loop (stop - start) start stop start ps1;
  do ps3 <- vswap j stop ps2;
  Ok (j, ps3).

(** VPTree.h:298-308; [c] counts the random numbers drawn. *)
Fixpoint quickselect (fuel start stop k c : nat) ps : res (nat * list (wrapped R * D)) :=
  if start =? stop then Ok (c, ps)
  else
    match fuel with
    | O => Fail FLoop
    | S fuel' =>
        do (pivot, ps') <- partition start stop c ps;
        if k <? pivot then quickselect fuel' start (pivot - 1) k (S c) ps'
        else if pivot <? k then quickselect fuel' (pivot + 1) stop k (S c) ps'
        else Ok (S c, ps')
    end.

(** VPTree.h:268-270: the distances of the entries [i .. i+k) to the vantage point. *)
Fixpoint set_dists (k i : nat) (v : R) ps : res (list (wrapped R * D)) :=
  match k with
  | O => Ok ps
  | S k' =>
      do a <- nth_res i ps;
      set_dists k' (S i) v (set_nth i (fst a, dist v (wrec (fst a))) ps)
  end.

(** VPTree.h:240-296. *)
Fixpoint build_subtree (fuel start stop c : nat) ps : res (vpnode D * nat * list (wrapped R * D)) :=
  if stop <? start then Ok (VNull, c, ps)
  else if stop - start <=? leafsz then Ok (VLeaf start stop, c, ps)
  else
    match fuel with
    | O => Fail FLoop
    | S fuel' =>
        do x <- uniform c (stop - start + 1);
        do ps1 <- vswap start (start + x) ps;
        do v <- nth_res start ps1;
        do ps2 <- set_dists (stop - start) (S start) (wrec (fst v)) ps1;
        let mid := (start + 1 + stop) / 2 in
        do (c3, ps3) <- quickselect (S (stop - start)) (start + 1) stop mid (S c) ps2;
        do m <- nth_res mid ps3;
        let radius := dist (wrec (fst v)) (wrec (fst m)) in
        let ps4 := set_nth start (fst v, radius) ps3 in
        do (x5, ps5) <- build_subtree fuel' (start + 1) (mid - 1) c3 ps4;
        let (inside, c5) := x5 in
        do (x6, ps6) <- build_subtree fuel' mid stop c5 ps5;
        let (outside, c6) := x6 in
        Ok (VNode start radius inside outside, c6, ps6)
    end.

(** A shard: m_data, m_ptrs and m_root. *)
Record vptree := VP { vp_data : list (wrapped R); vp_ptrs : list (wrapped R * D); vp_root : vpnode D }.

(** VPTree.h:83-86, 118-121, 208-220: the tree over an array. *)
Definition vp_build (ws : list (wrapped R)) : res vptree :=
  match ws with
  | [] => Ok (VP [] [] VNull)
  | _ =>
      do (x, ps) <- build_subtree (S (length ws)) 0 (length ws - 1) 0 (map (fun w => (w, dzero)) ws);
      Ok (VP ws ps (fst x))
  end.

(** VPTree.h:54-87: the records of a view that are not tagged, headers stripped.  (The
    source strips the headers in the buffer itself.) *)
Definition vp_from_view (d : list (wrapped R)) (v : view) : res vptree :=
  do ws <- v_records d v;
  vp_build (map mask3 (filter (fun w => negb (is_del w)) ws)).

(** VPTree.h:89-122: the untagged records of several shards. *)
Definition vp_from_shards (ts : list vptree) : res vptree :=
  vp_build (filter (fun w => negb (is_del w)) (concat (map vp_data ts))).

(** ** Search *)

(** psudb::PriorityQueue with DistCmpMax is external: [pop l] are an entry and the
    remaining ones.  [PQMax] is its contract for a query point. *)
Class PQMax (pop : R -> list (wrapped R) -> option (wrapped R * list (wrapped R))) : Prop := {
  pop_nil : forall p, pop p [] = None;
  pop_some : forall p l, l <> [] -> exists m l', pop p l = Some (m, l') /\
    Permutation l (m :: l') /\
    forall x, In x l -> dleb (dist p (wrec x)) (dist p (wrec m)) = true
}.
Variable pop : R -> list (wrapped R) -> option (wrapped R * list (wrapped R)).

(** [d < *farthest] and so on; None is the initial value. *)
Definition far_gt (d : D) (f : option D) : bool := match f with None => true | Some x => dltb d x end.
Definition in_reach (d radius : D) (f : option D) : bool :=
  match f with None => true | Some x => dleb (dsub d x) radius end.
Definition out_reach (d radius : D) (f : option D) : bool :=
  match f with None => true | Some x => dleb radius (dadd d x) end.

(** VPTree.h:346-356, 362-372. *)
Definition consider (p : R) (k : nat) (w : wrapped R) (q : list (wrapped R)) (f : option D)
  : res (list (wrapped R) * option D) :=
  if far_gt (dist p (wrec w)) f then
    do q1 <- (if length q =? k then match pop p q with Some (_, q') => Ok q' | None => Fail FOob end
              else Ok q);
    let q2 := w :: q1 in
    if length q2 =? k then
      match pop p q2 with
      | Some (m, _) => Ok (q2, Some (dist p (wrec m)))
      | None => Fail FOob
      end
    else Ok (q2, f)
  else Ok (q, f).

(** VPTree.h:345-357, the records of a leaf: [n] of them from [i]. *)
Fixpoint consider_all (p : R) (k n i : nat) ps (q : list (wrapped R)) (f : option D)
  : res (list (wrapped R) * option D) :=
  match n with
  | O => Ok (q, f)
  | S n' =>
      do a <- nth_res i ps;
      do (q', f') <- consider p k (fst a) q f;
      consider_all p k n' (S i) ps q' f'
  end.

(** VPTree.h:339-391. *)
Fixpoint internal_search (p : R) (k : nat) ps (node : vpnode D) (q : list (wrapped R)) (f : option D)
  : res (list (wrapped R) * option D) :=
  match node with
  | VNull => Ok (q, f)
  | VLeaf start stop => consider_all p k (stop + 1 - start) start ps q f
  | VNode start radius inside outside =>
      do a <- nth_res start ps;
      let d := dist p (wrec (fst a)) in
      do (q1, f1) <- consider p k (fst a) q f;
      if dltb d radius then
        do (q2, f2) <- (if in_reach d radius f1 then internal_search p k ps inside q1 f1 else Ok (q1, f1));
        if out_reach d radius f2 then internal_search p k ps outside q2 f2 else Ok (q2, f2)
      else
        do (q2, f2) <- (if out_reach d radius f1 then internal_search p k ps outside q1 f1 else Ok (q1, f1));
        if in_reach d radius f2 then internal_search p k ps inside q2 f2 else Ok (q2, f2)
  end.

(** VPTree.h:186-191. *)
Definition vp_search (t : vptree) (p : R) (k : nat) : res (list (wrapped R)) :=
  do (q, _) <- internal_search p k (vp_ptrs t) (vp_root t) [] None;
  Ok q.

(** VPTree.h:150-156. *)
Fixpoint scan_leaf (n i : nat) ps (r : R) : res (option nat) :=
  match n with
  | O => Ok None
  | S n' =>
      do a <- nth_res i ps;
      if req (wrec (fst a)) r then Ok (Some i) else scan_leaf n' (S i) ps r
  end.

(** VPTree.h:139-157, without the hash map; the result is an index of m_ptrs.  The
    scan of an inner node runs from its start to 0. *)
Fixpoint vp_lookup (ps : list (wrapped R * D)) (node : vpnode D) (r : R) : res (option nat) :=
  match node with
  | VNull => Fail FNull
  | VLeaf start stop => scan_leaf (stop + 1 - start) start ps r
  | VNode start radius inside outside =>
      do a <- nth_res start ps;
      if req (wrec (fst a)) r then scan_leaf (0 + 1 - start) start ps r
      else if dleb radius (dist r (wrec (fst a))) then vp_lookup ps outside r
      else vp_lookup ps inside r
  end.
Definition vp_point_lookup (t : vptree) (r : R) : res (option nat) := vp_lookup (vp_ptrs t) (vp_root t) r.

(** VPTree.h:131-138, 222-238, with the hash map: it maps a record to the index of its
    first copy (std::unordered_map::insert keeps an existing entry). *)
Fixpoint first_copy (i : nat) (ws : list (wrapped R)) (r : R) : option nat :=
  match ws with
  | [] => None
  | w :: ws' => if req (wrec w) r then Some i else first_copy (S i) ws' r
  end.
Definition vp_map_lookup (t : vptree) (r : R) : option nat := first_copy 0 (vp_data t) r.

(** ** knn::Query *)

(** knn.h:107-117, 135-145: one record offered to the queue. *)
Definition offer (p : R) (k : nat) (w : wrapped R) (q : list (wrapped R)) : res (list (wrapped R)) :=
  if length q <? k then Ok (w :: q)
  else
    match pop p q with
    | None => Fail FOob
    | Some (m, q') => Ok (if dltb (dist (wrec w) p) (dist (wrec m) p) then w :: q' else q)
    end.
Fixpoint offer_all (p : R) (k : nat) (ws q : list (wrapped R)) : res (list (wrapped R)) :=
  match ws with
  | [] => Ok q
  | w :: ws' => do q' <- offer p k w q; offer_all p k ws' q'
  end.

(** knn.h:89-126; the order in which the queue is emptied is immaterial. *)
Definition knn_local_buffer (p : R) (k : nat) (d : list (wrapped R)) (v : view) : res (list (wrapped R)) :=
  do ws <- v_records d v;
  offer_all p k (filter (fun w => negb (is_del w)) ws) [].

(** knn.h:69-87 and 128-153, executed by DynamicExtension.h:609-680 on a view and the
    shards: no delete filter between the two (knn.h:45).  The queue of combine holds
    unwrapped records. *)
Definition knn_query (p : R) (k : nat) (d : list (wrapped R)) (v : view) (ts : list vptree)
  : res (list R) :=
  do bl <- knn_local_buffer p k d v;
  do sl <- map_res (fun t => vp_search t p k) ts;
  do q <- offer_all p k (concat (bl :: sl)) [];
  Ok (map wrec q).

(** The tag set by an erase on the records equal to [r], as if they were all found
    (Record.h:set_delete through the pointers of m_ptrs). *)
Definition vp_tag (r : R) (t : vptree) : vptree :=
  let tag w := if req (wrec w) r then set_delete w else w in
  VP (map tag (vp_data t)) (map (fun a => (tag (fst a), snd a)) (vp_ptrs t)) (vp_root t).

End VP.
Arguments vptree R D : clear implicits.

(** Record.h:147-187: a two-dimensional CosinePoint.  calc_distance (173-186) is the
    cosine of the angle; it is modelled for vectors of length 1 with integer
    coordinates, where the divisor is 1. *)
Record cpoint := CP { cp_x : Z; cp_y : Z }.
(** Record.h:150-158 and 161-171. *)
#[export] Instance cpoint_ops : RecOps cpoint :=
  {| rlt := fun a b => (cp_x a <? cp_x b)%Z || ((cp_x a =? cp_x b)%Z && (cp_y a <? cp_y b)%Z);
     req := fun a b => (cp_x a =? cp_x b)%Z && (cp_y a =? cp_y b)%Z;
     rzero := CP 0 0 |}.
#[export] Instance cos_metric : MetricOps cpoint Z :=
  {| dist := fun a b => (cp_x a * cp_x b + cp_y a * cp_y b)%Z |}.

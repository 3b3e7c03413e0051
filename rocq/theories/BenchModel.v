(** The structures of the benchmarks that the framework is compared with
    (benchmarks/include/vptree_bsm.h, triespline_bsm.h).  They are blocks for the
    Bentley-Saxe method of psudb-common, which is not part of /repo.

    Simplifications: those of VPModel.v and SearchModel.v.  The records of a block have
    no header: they are modelled as wrapped records with header 0, so that the tree, the
    queue and the searches of those files can be used; a count is an integer without
    bound, and the second component of the pair that carries it (always 0) is left out;
    m_node_cnt is not modelled. *)
From Coq Require Import List Arith ZArith NArith Lia Bool.
From Verif Require Import Base RecordModel MergeModel VPModel SearchModel LearnModel.
Import ListNotations.

Section BenchVP.
Context {R : Type} {RO : RecOps R} {D : Type} {DO : DistOps D} {MO : MetricOps R D}.
Variable leafsz : nat.
Variable rng : nat -> nat.
Variable pop : R -> list (wrapped R) -> option (wrapped R * list (wrapped R)).

Definition bare (rs : list R) : list (wrapped R) := map (W 0%N) rs.

(** vptree_bsm.h:21-27, 146-261: build and build_presorted are the same; the tree is
    built as in VPTree.h. *)
Definition bvp_build (rs : list R) : res (vptree R D) := vp_build leafsz rng (bare rs).

(** vptree_bsm.h:29-31. *)
Definition bvp_unbuild (t : vptree R D) : list R := map wrec (vp_data t).

(** vptree_bsm.h:56-59, 100-103: the queue is emptied, farthest record first. *)
Fixpoint drain (fuel : nat) (p : R) (q : list (wrapped R)) : list R :=
  match fuel with
  | O => []
  | S fuel' => match pop p q with Some (m, q') => wrec m :: drain fuel' p q' | None => [] end
  end.

(** vptree_bsm.h:33-61; [q] is the query point and k, None a null pointer. *)
Definition bvp_query (t : vptree R D) (q : option (R * nat)) : res (list R) :=
  match q with
  | None => Ok []
  | Some (p, k) =>
      do l <- (if length (vp_data t) <=? k then Ok (map fst (vp_ptrs t)) else vp_search pop t p k);
      Ok (drain (length l) p l)
  end.

(** vptree_bsm.h:63-106: the loops are those of knn.h:135-145. *)
Definition bvp_merge (p : R) (k : nat) (rsa rsb : list R) : res (list R) :=
  do q <- offer_all pop p k (bare (rsa ++ rsb)) [];
  Ok (drain (length q) p q).

(** psudb-common: a query merges the answers of the blocks, one after another, into an
    answer that is empty at first. *)
Definition bvp_answer (p : R) (k : nat) (ts : list (vptree R D)) : res (list R) :=
  fold_left (fun a t => do rsa <- a; do rsb <- bvp_query t (Some (p, k)); bvp_merge p k rsa rsb) ts (Ok []).

End BenchVP.

Section BenchTS.
Context {R : Type} {RO : RecOps R} {KO : KeyOps R}.
(** ts::TrieSpline::GetSearchBound over the keys of an array. *)
Variable search : list (wrapped R) -> Z -> nat * nat.
Implicit Types d : list (wrapped R).

(** triespline_bsm.h:95-98: AddKey for every record. *)
Fixpoint add_keys (l : list (wrapped R)) (b : tbuild) : res tbuild :=
  match l with
  | [] => Ok b
  | w :: l' => do b' <- add_key (wkey w) b; add_keys l' b'
  end.

(** triespline_bsm.h:86-103. *)
Definition bts_new (d : list (wrapped R)) : res (list (wrapped R)) :=
  do first <- nth_res 0 d;
  do last <- nth_res (length d - 1) d;
  if length d <? 50 then Ok d
  else do b <- add_keys d (TB (wkey first) (wkey last) []); Ok d.

(** triespline_bsm.h:29-35; None is a null pointer. *)
Definition bts_build_presorted (rs : list R) : res (option (list (wrapped R))) :=
  match rs with
  | [] => Ok None
  | _ => do d <- bts_new (bare rs); Ok (Some d)
  end.

(** triespline_bsm.h:20-27. *)
Definition bts_build (rs : list R) : res (option (list (wrapped R))) :=
  match rs with
  | [] => Ok None
  | _ => do d <- bts_new (wsort (bare rs)); Ok (Some d)
  end.

(** triespline_bsm.h:37-39. *)
Definition bts_unbuild (d : list (wrapped R)) : list R := map wrec d.

(** triespline_bsm.h:105-155: as TrieSpline.h:277-327, but with no record the index is 1,
    and the spline is there from 50 records on. *)
Definition bts_lower_bound d (key : Z) : res nat :=
  if length d =? 0 then Ok 1 else ts_lower_bound (Some (search d key)) d key.

(** triespline_bsm.h:54-58, the loop over the records from an index on. *)
Fixpoint run_length (l : list (wrapped R)) (hi : Z) : Z :=
  match l with
  | w :: l' => if (wkey w <=? hi)%Z then (1 + run_length l' hi)%Z else 0%Z
  | [] => 0%Z
  end.

(** triespline_bsm.h:41-63; [q] are the two bounds, None a null pointer. *)
Definition bts_query d (q : option (Z * Z)) : res (list Z) :=
  match q with
  | None => Ok [0%Z]
  | Some (lo, hi) =>
      do i <- bts_lower_bound d lo;
      Ok [run_length (skipn i d) hi]
  end.

(** triespline_bsm.h:65-72. *)
Definition bts_merge (rsa rsb : list Z) : res (list Z) :=
  let rsa' := match rsa with [] => [0%Z] | _ => rsa end in
  do a <- nth_res 0 rsa';
  do b <- nth_res 0 rsb;
  Ok (set_nth 0 (a + b)%Z rsa').

(** psudb-common, as above. *)
Definition bts_answer (lo hi : Z) (bs : list (list (wrapped R))) : res (list Z) :=
  fold_left (fun a d => do rsa <- a; do rsb <- bts_query d (Some (lo, hi)); bts_merge rsa rsb) bs (Ok []).

End BenchTS.

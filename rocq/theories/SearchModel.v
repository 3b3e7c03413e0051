(** Searching the sorted array of an Alias, PGM or TrieSpline shard
    (include/shard/Alias.h, PGM.h, TrieSpline.h).

    Simplifications: keys are integers; size_t arithmetic does not wrap (indexes are
    at most the number of records).  The learned models of PGM and TrieSpline are
    external: a function from a key to a search range. *)
From Coq Require Import List Arith ZArith NArith Lia Bool.
From Verif Require Import Base RecordModel ISAMModel.
Import ListNotations.

Section Search.
Context {R : Type} {RO : RecOps R} {KO : KeyOps R}.
Implicit Types d : list (wrapped R).

(** Alias.h:169-177, PGM.h:252-263, TrieSpline.h:305-315: the binary search loop. *)
Fixpoint bsearch (fuel lo hi : nat) d (key : Z) : res nat :=
  if lo <? hi then
    match fuel with
    | O => Fail FLoop
    | S fuel' =>
        let mid := (lo + hi) / 2 in
        do w <- nth_res mid d;
        if (rkey (wrec w) <? key)%Z then bsearch fuel' (mid + 1) hi d key
        else bsearch fuel' lo mid d key
    end
  else Ok lo.

(** PGM.h:247-249, TrieSpline.h:300-302: the linear scan. *)
Fixpoint lscan (fuel lo hi : nat) d (key : Z) : res nat :=
  if lo <? hi then
    match fuel with
    | O => Fail FLoop
    | S fuel' =>
        do w <- nth_res lo d;
        if (rkey (wrec w) <? key)%Z then lscan fuel' (S lo) hi d key else Ok lo
    end
  else Ok lo.

(** Alias.h:165-180.  With no records, m_reccnt - 1 is the largest size_t and the
    first probe is outside the array. *)
Definition alias_lower_bound d (key : Z) : res nat :=
  match length d with
  | O => Fail FOob
  | S m => bsearch (S m) 0 m d key
  end.

(** Alias.h:122: [stop] is m_reccnt - 1; ISAMTree.h:106, PGM.h:199, TrieSpline.h:242:
    [stop] is m_reccnt. *)
Fixpoint roll_rec (fuel i stop : nat) d (r : R) : res nat :=
  if i <? stop then
    match fuel with
    | O => Fail FLoop
    | S fuel' =>
        do w <- nth_res i d;
        if rlt (wrec w) r then roll_rec fuel' (S i) stop d r else Ok i
    end
  else Ok i.

(** Alias.h:112-129.  [bf] is the filter's answer for [r]. *)
Definition alias_point_lookup (bf : bool) d (r : R) (filter : bool) : res (option nat) :=
  if filter && negb bf then Ok None
  else
    do i <- alias_lower_bound d (rkey r);
    if length d <=? i then Ok None
    else
      do j <- roll_rec (length d) i (length d - 1) d r;
      do w <- nth_res j d;
      Ok (if req (wrec w) r then Some j else None).

(** PGM.h:246-265, TrieSpline.h:299-316: the search in the range [lo, hi). *)
Definition bounded_search d (b : nat * nat) (key : Z) : res nat :=
  let (lo, hi) := b in
  if hi - lo <? 256 then lscan (S hi) lo hi d key else bsearch (S hi) lo hi d key.

(** PGM.h:234-287; [b] is m_pgm.search(key). *)
Definition pgm_lower_bound (b : nat * nat) d (key : Z) : res nat :=
  if length d <=? fst b then Ok (length d)
  else
    do i <- bounded_search d b key;
    if i =? length d then Ok i
    else
      do w <- nth_res i d;
      do back <- (if (key <? rkey (wrec w))%Z && (0 <? i) then
                    do p <- nth_res (i - 1) d; Ok (rkey (wrec p) <=? key)%Z
                  else Ok false);
      if back then Ok (i - 1)
      else Ok (if (key <=? rkey (wrec w))%Z then i else length d).

(** TrieSpline.h:278-288. *)
Fixpoint small_scan (i : nat) (l : list (wrapped R)) (key : Z) : nat :=
  match l with
  | w :: l' => if (key <=? rkey (wrec w))%Z then i else small_scan (S i) l' key
  | [] => i
  end.

(** TrieSpline.h:277-327; [ts] is the spline: the constructors finalise it when the
    shard has more than 50 records (lines 122, 222), and a search in one that was not
    finalised indexes an empty table. *)
Definition ts_lower_bound (ts : option (nat * nat)) d (key : Z) : res nat :=
  if length d <? 50 then Ok (small_scan 0 d key)
  else
    match ts with
    | None => Fail FOob
    | Some b =>
        if length d <=? fst b then Ok (length d)
        else
          do i <- bounded_search d b key;
          if i =? length d then Ok i
          else
            do w <- nth_res i d;
            do back <- (if (key <? rkey (wrec w))%Z && (0 <? i) then
                          do p <- nth_res (i - 1) d; Ok (rkey (wrec p) <=? key)%Z
                        else Ok false);
            Ok (if back then i - 1 else i)
    end.

(** The spline that the constructors leave. *)
Definition ts_model (search : list (wrapped R) -> Z -> nat * nat) d (key : Z) : option (nat * nat) :=
  if 50 <? length d then Some (search d key) else None.

(** PGM.h:193-206, TrieSpline.h:232-249, with the result of get_lower_bound; the last
    read is also made when the loop ends at m_reccnt. *)
Definition learned_point_lookup (lb : res nat) d (r : R) : res (option nat) :=
  do i <- lb;
  if length d <=? i then Ok None
  else
    do j <- roll_rec (length d) i (length d) d r;
    do w <- nth_res j d;
    Ok (if req (wrec w) r then Some j else None).

End Search.

(** The ISAM tree (include/shard/ISAMTree.h:178-245): internal nodes over the sorted
    array of a shard.

    Simplifications: keys are integers, as in the rest of the model; the node array
    and the record array are separate objects, so a pointer is null, a node index or a
    record index; forming a pointer past the end of an array is not a fault, reading
    or writing through it is. *)
From Coq Require Import List Arith ZArith NArith Lia Bool.
From Verif Require Import Base RecordModel.
Import ListNotations.

(** byte *. *)
Inductive ptr := PNull | PNode (j : nat) | PLeaf (i : nat).

(** InternalNode, lines 39-42: keys[i] and child[i] as pairs. *)
Definition inode := list (Z * ptr).

(** m_isam_nodes, m_root and m_internal_node_cnt. *)
Record isam := Isam { i_nodes : list inode; i_root : ptr; i_cnt : nat }.

Section ISAM.
Context {R : Type} {RO : RecOps R} {KO : KeyOps R}.

(** INTERNAL_FANOUT and LEAF_FANOUT, lines 36-46. *)
Variables F L : nat.

(** m_data with m_reccnt records. *)
Variable d : list (wrapped R).
Notation n := (length d).

(** x / y + (x % y != 0), lines 180, 185-186. *)
Definition ceil_div (x y : nat) : nat := x / y + (if x mod y =? 0 then 0 else 1).

(** 182-188: how many nodes to allocate. *)
Fixpoint count_nodes (fuel level_node_cnt : nat) : res nat :=
  match fuel with
  | O => Fail FLoop
  | S fuel' =>
      let c := ceil_div level_node_cnt F in
      if 1 <? c then do r <- count_nodes fuel' c; Ok (c + r) else Ok c
  end.

(** A node as calloc leaves it, and one with its first entries written. *)
Definition zero_node : inode := repeat (0%Z, PNull) F.
Definition node_of (es : list (Z * ptr)) : inode := es ++ skipn (length es) zero_node.

Definition write_node (nodes : list inode) (cur : nat) (es : list (Z * ptr)) : res (list inode) :=
  if cur <? length nodes then Ok (set_nth cur (node_of es) nodes) else Fail FOob.

(** 200-209: the entries of a node over the leaves, [k] of them still possible. *)
Fixpoint leaf_entries (k i base : nat) : res (list (Z * ptr)) :=
  match k with
  | O => Ok []
  | S k' =>
      let p := base + L * i in
      if n <=? p then Ok []
      else
        do w <- nth_res (Nat.min (p + L - 1) (n - 1)) d;
        do es <- leaf_entries k' (S i) base;
        Ok ((rkey (wrec w), PLeaf p) :: es)
  end.

(** 198-212. *)
Fixpoint leaf_level (fuel base cur : nat) (nodes : list inode) : res (nat * list inode) :=
  if base <? n then
    match fuel with
    | O => Fail FLoop
    | S fuel' =>
        do es <- leaf_entries F 0 base;
        do nodes' <- write_node nodes cur es;
        leaf_level fuel' (base + length es * L) (S cur) nodes'
    end
  else Ok (cur, nodes).

(** 221-228: the entries of a node over the nodes [now .. stop). *)
Fixpoint inner_entries (k i now stop : nat) (nodes : list inode) : res (list (Z * ptr)) :=
  match k with
  | O => Ok []
  | S k' =>
      let p := now + i in
      if stop <=? p then Ok []
      else
        do nd <- nth_res p nodes;
        do e <- nth_res (F - 1) nd;
        do es <- inner_entries k' (S i) now stop nodes;
        Ok ((fst e, PNode p) :: es)
  end.

(** 219-231; child_cnt is incremented before the check that leaves the loop. *)
Fixpoint inner_level (fuel now stop cur : nat) (nodes : list inode) : res (nat * list inode) :=
  if now <? stop then
    match fuel with
    | O => Fail FLoop
    | S fuel' =>
        do es <- inner_entries F 0 now stop nodes;
        do nodes' <- write_node nodes cur es;
        let child_cnt := if length es <? F then S (length es) else F in
        inner_level fuel' (now + child_cnt) stop (S cur) nodes'
    end
  else Ok (cur, nodes).

(** 214-237, without storing the root. *)
Fixpoint upper_levels (fuel start stop : nat) (nodes : list inode) : res (nat * nat * list inode) :=
  if 1 <? stop - start then
    match fuel with
    | O => Fail FLoop
    | S fuel' =>
        do (cur, nodes') <- inner_level (S (stop - start)) start stop stop nodes;
        upper_levels fuel' stop cur nodes'
    end
  else if stop - start =? 1 then Ok (start, stop, nodes) else Fail FAssert.

(** 178-239; the second result is the number of nodes written. *)
Definition build_internal_levels : res (isam * nat) :=
  let n_leaf := ceil_div n L in
  do node_cnt <- count_nodes (S n_leaf) n_leaf;
  do (cur, nodes) <- leaf_level (S n) 0 0 (repeat zero_node node_cnt);
  do (x, nodes') <- upper_levels (S cur) 0 cur nodes;
  Ok (Isam nodes' (PNode (fst x)) node_cnt, snd x).

(** The constructors (51-88) build the levels of a non-empty array only. *)
Definition isam_build : res isam :=
  if 0 <? n then do (t, _) <- build_internal_levels; Ok t else Ok (Isam [] PNull 0).

Definition is_null (p : ptr) : bool := match p with PNull => true | _ => false end.

(** 131-136, 154-159: the child to follow; [le] is "key <= " or "key < ". *)
Fixpoint scan_node (le : Z -> bool) (nd : inode) : ptr :=
  match nd with
  | e :: ((e' :: _) as r) => if is_null (snd e') || le (fst e) then snd e else scan_node le r
  | _ => PNull
  end.

(** 129-141, 152-164; [is_leaf] is line 241-244. *)
Fixpoint descend (le : Z -> bool) (fuel : nat) (nodes : list inode) (p : ptr) : res nat :=
  match p with
  | PNull => Fail FNull
  | PLeaf i => if i <? n then Ok i else Fail FOob
  | PNode j =>
      match fuel with
      | O => Fail FLoop
      | S fuel' =>
          do nd <- nth_res j nodes;
          let next := scan_node le nd in
          if is_null next then
            do e <- nth_res (F - 1) nd;
            descend le fuel' nodes (snd e)
          else descend le fuel' nodes next
      end
  end.

(** 144-145, 167-168: from record [i], skip the records that satisfy [lt]. *)
Fixpoint skip (lt : Z -> bool) (i : nat) (l : list (wrapped R)) : nat :=
  match l with
  | w :: l' => if lt (rkey (wrec w)) then skip lt (S i) l' else i
  | [] => i
  end.

(** 127-148, 150-171. *)
Definition isam_lower_bound (t : isam) (key : Z) : res nat :=
  do i <- descend (fun x => (key <=? x)%Z) (S (i_cnt t)) (i_nodes t) (i_root t);
  Ok (skip (fun x => (x <? key)%Z) i (skipn i d)).
Definition isam_upper_bound (t : isam) (key : Z) : res nat :=
  do i <- descend (fun x => (key <? x)%Z) (S (i_cnt t)) (i_nodes t) (i_root t);
  Ok (skip (fun x => (x <=? key)%Z) i (skipn i d)).

(** 105-106: from record [i], skip the records smaller than [r]. *)
Fixpoint skip_rec (r : R) (i : nat) (l : list (wrapped R)) : nat :=
  match l with
  | w :: l' => if rlt (wrec w) r then skip_rec r (S i) l' else i
  | [] => i
  end.

(** 96-114; line 108 reads m_data[idx] also when idx = m_reccnt.  The filter pointer
    m_bf is always null. *)
Definition isam_point_lookup (t : isam) (r : R) (filter : bool) : res (option nat) :=
  if filter then Fail FNull
  else
    do idx <- isam_lower_bound t (rkey r);
    if n <=? idx then Ok None
    else
      let idx := skip_rec r idx (skipn idx d) in
      do w <- nth_res idx d;
      Ok (if req (wrec w) r then Some idx else None).

End ISAM.

(** Building the levels over an array and searching them, as a query on a shard does. *)
Definition isam_find {R} {KO : KeyOps R} (F L : nat) (d : list (wrapped R)) (k : Z) : res nat :=
  do t <- isam_build F L d; isam_lower_bound F d t k.
Definition isam_find_upper {R} {KO : KeyOps R} (F L : nat) (d : list (wrapped R)) (k : Z) : res nat :=
  do t <- isam_build F L d; isam_upper_bound F d t k.

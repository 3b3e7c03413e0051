(** The kinds of shards that are not built by SortedMerge.h: VPTree
    (include/shard/VPTree.h), FSTrie and LoudsPatricia (include/shard/FSTrie.h,
    LoudsPatricia.h), as parameters of the index, and the queries on such an index. *)
From Coq Require Import List Arith ZArith NArith Lia Bool.
From Verif Require Import Base RecordModel BufferModel MergeModel StructModel ExtModel QueryModel VPModel.
Import ListNotations.

(** ** Erases by tagging with a given lookup *)

Section Lookup.
Context {R : Type} {RO : RecOps R}.

(** The index of the record that a shard's point_lookup returns. *)
Variable find : R -> list (wrapped R) -> res (option nat).

(** InternalLevel.h:191-206. *)
Fixpoint shards_tag_by (r : R) (ss : list (shard R)) : res (option (list (shard R))) :=
  match ss with
  | [] => Ok None
  | s :: ss' =>
      do o <- find r (s_data s);
      match o with
      | Some i =>
          do w <- nth_res i (s_data s);
          Ok (Some (Shard (set_nth i (set_delete w) (s_data s)) (s_reccnt s) (s_tscnt s) :: ss'))
      | None =>
          do o' <- shards_tag_by r ss';
          Ok (match o' with Some ss'' => Some (s :: ss'') | None => None end)
      end
  end.

(** ExtensionStructure.h:86-99. *)
Fixpoint levels_tag_by (r : R) (ls : list (level R)) : res (option (list (level R))) :=
  match ls with
  | [] => Ok None
  | l :: ls' =>
      do o <- shards_tag_by r (lv_shards l);
      match o with
      | Some ss => Ok (Some (Level (lv_no l) (lv_cap l) ss (lv_pending l) :: ls'))
      | None =>
          do o' <- levels_tag_by r ls';
          Ok (match o' with Some ls'' => Some (l :: ls'') | None => None end)
      end
  end.
Definition tagged_delete_by (r : R) (st : structure R) : res (option (structure R)) :=
  do o <- levels_tag_by r (st_levels st);
  Ok (match o with Some ls => Some (Struct ls (st_state st)) | None => None end).

(** Histories of an index with deletes by tagging (DynamicExtension.h:133, 168-188). *)
Definition step_by (BD : builders R) (C : cfg) (e : ext R) (o : op R) : res (ext R * nat) :=
  match o with
  | Ins r => insert BD C e r
  | Del r => tag_erase (tagged_delete_by r) e r
  end.
Fixpoint run_by (BD : builders R) (C : cfg) (e : ext R) (ops : list (op R)) : res (ext R * list nat) :=
  match ops with
  | [] => Ok (e, [])
  | o :: ops' =>
      do (e1, n) <- step_by BD C e o;
      do (e2, ns) <- run_by BD C e1 ops';
      Ok (e2, n :: ns)
  end.
Definition run_new_by (BD : builders R) (C : cfg) (ops : list (op R)) : res (ext R * list nat) :=
  do e <- ext_new C; run_by BD C e ops.

End Lookup.

(** ** VPTree *)

Section VPKind.
Context {R : Type} {RO : RecOps R}.

Definition untagged (w : wrapped R) : bool := negb (is_del w).

(** VPTree.h:54-82: the untagged records of the view, headers stripped.  The member
    m_tombstone_cnt is never changed.  (The source strips the headers in the buffer
    itself; what a later query or reconstruction reads of them are the two bits that
    remain.) *)
Definition vp_view (d : list (wrapped R)) (v : view) : res (shard R) :=
  do ws <- v_records d v;
  let l := map mask3 (filter untagged ws) in
  Ok (Shard l (length l) 0).

(** VPTree.h:89-117: the untagged records of the shards, one after the other. *)
Definition vp_merge (ss : list (shard R)) : res (shard R) :=
  let l := filter untagged (concat (map (fun s => firstn (s_reccnt s) (s_data s)) ss)) in
  Ok (Shard l (length l) 0).

Definition vp_shards : builders R := Builders vp_view vp_merge.

Context {D : Type} {DO : DistOps D} {MO : MetricOps R D}.
Variable leafsz : nat.
Variable pop : R -> list (wrapped R) -> option (wrapped R * list (wrapped R)).

(** The trees of the shards, [rng i] being the random numbers that the [i]-th was built
    with.  (The tree depends on the records only, so it may be computed from the array
    as it is at the time of the query, with tags set since.) *)
Fixpoint vp_trees (rng : nat -> nat -> nat) (i : nat) (ss : list (shard R)) : res (list (vptree R D)) :=
  match ss with
  | [] => Ok []
  | s :: ss' =>
      do t <- vp_build leafsz (rng i) (s_data s);
      do ts <- vp_trees rng (S i) ss';
      Ok (t :: ts)
  end.

(** DynamicExtension.h:618-662 for knn::Query. *)
Definition knn_on (rng : nat -> nat -> nat) (p : R) (k : nat) (st : structure R) (d : list (wrapped R)) (v : view)
  : res (list R) :=
  do ts <- vp_trees rng 0 (query_shards st);
  knn_query pop p k d v ts.

(** DynamicExtension.h:609-680 for knn::Query. *)
Definition knn (rng : nat -> nat -> nat) (e : ext R) (p : R) (k : nat) : res (ext R * list R) :=
  with_epoch e (knn_on rng p k).

End VPKind.

(** ** Tries *)

(** Record.h:117-131, [Record<const char*, V>] with [len] the length of the string (see
    C36 for other values), together with the address of its first character. *)
Record crec := CRec { c_str : list N; c_addr : nat; c_val : Z }.
Definition crec_kv (r : crec) : skv := SKV (c_str r) (c_val r) (length (c_str r)).
#[global] Instance crec_ops : RecOps crec :=
  {| rlt := fun a b => skv_lt (crec_kv a) (crec_kv b);
     req := fun a b => skv_eq (crec_kv a) (crec_kv b);
     rzero := CRec [] 0 0 |}.

Section TrieKind.
Variable qlt : qorder crec.

(** The test [key == ""] compares the address of the key with that of a literal. *)
Variable literal : nat.
Definition blank (w : wrapped crec) : bool := c_addr (wrec w) =? literal.

(** [clear_timestamp]: [header &= 7]. *)
Definition mask7 (w : wrapped crec) : wrapped crec := W (N.land (hdr w) 7) (wrec w).

(** FSTrie.h:38-83, LoudsPatricia.h:36-83: no cancellation of records and tombstones.
    get_tombstone_count is 0. *)
Definition trie_keeps (w : wrapped crec) : bool := negb (is_del w || negb (is_vis w) || blank w).
Definition trie_view (d : list (wrapped crec)) (v : view) : res (shard crec) :=
  do ws <- v_records d v;
  let l := map mask7 (filter trie_keeps (wsort ws)) in
  Ok (Shard l (length l) 0).

(** FSTrie.h:85-142, LoudsPatricia.h:85-140: the loop of sorted_array_merge with another
    test on the records that are kept. *)
Definition trie_act (w : wrapped crec) (o : marr crec) : marr crec :=
  if is_del w || blank w then o else emit w o.
Definition trie_merge (ss : list (shard crec)) : res (shard crec) :=
  let '(cs, attempt_reccnt, _) := build_cursor_vec ss in
  do q <- init_pushes 0 cs;
  do o <- merge_loop qlt trie_act (S (length (concat cs))) cs q (MArr [] 0 0);
  let m := finish o in
  if m_rec m <=? attempt_reccnt then Ok (Shard (m_data m) (m_rec m) 0) else Fail FOob.

Definition trie_shards : builders crec := Builders trie_view trie_merge.

(** fst::Trie and louds::Patricia are external: [search keys k] is the result of a lookup
    in the trie over the vector [keys]. *)
Variable search : list (list N) -> list N -> option nat.

(** FSTrie.h:149-164, LoudsPatricia.h:147-161.  A shard without records has no trie
    (FSTrie: the member is not initialised; LoudsPatricia: it has not been built). *)
Definition trie_lookup (k : list N) (d : list (wrapped crec)) : res (option (wrapped crec)) :=
  match d with
  | [] => Fail FNull
  | _ =>
      match search (map (fun w => c_str (wrec w)) d) k with
      | None => Ok None
      | Some i => do w <- nth_res i d; Ok (Some w)
      end
  end.

(** The same lookup for the erase of a record. *)
Definition trie_find (r : crec) (d : list (wrapped crec)) : res (option nat) :=
  match d with
  | [] => Fail FNull
  | _ => Ok (search (map (fun w => c_str (wrec w)) d) (c_str r))
  end.

(** Histories of an index over tries with deletes by tagging. *)
Definition trie_run_new (C : cfg) (ops : list (op crec)) : res (ext crec * list nat) :=
  run_new_by trie_find trie_shards C ops.

(** DynamicExtension.h:609-680 for pl::Query with a search key at address [a].  The
    buffer scan (pointlookup.h:87) compares keys with [==], i.e. their addresses. *)
Definition trie_point_lookup (e : ext crec) (k : list N) (a : nat) : res (ext crec * list crec) :=
  point_lookup_query (fun r => c_addr r =? a) (trie_lookup k) e.

End TrieKind.

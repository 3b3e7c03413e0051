(** The vocabulary of the property statements: what a client of the library does
    and sees.  Nothing here depends on how the model computes. *)
From Coq Require Import List Arith ZArith NArith Lia Bool Permutation Sorted.
From Verif Require Import Base RecordModel BufferModel MergeModel StructModel ExtModel.
Import ListNotations.

Section Spec.
Context {R : Type} {RO : RecOps R}.

(** ** Configurations *)

(** The parameters a client may use: a positive low watermark not above the high
    watermark, a positive scale factor, and scale factor 2 for BSM (the
    constructor asserts that one). *)
Definition valid_cfg (C : cfg) : Prop :=
  1 <= c_lwm C /\ c_lwm C <= c_hwm C /\ 1 <= c_sf C /\ (c_layout C = BSM -> c_sf C = 2).

(** How many shards a level may have. *)
Definition max_shards (C : cfg) : nat := match c_layout C with TIERING => c_sf C | _ => 1 end.

(** ** Histories *)

(** The records inserted by a history, in order. *)
Definition inserted (ops : list (op R)) : list R :=
  flat_map (fun o => match o with Ins r => [r] | Del _ => [] end) ops.

Definition insert_only (ops : list (op R)) : Prop :=
  forall o, In o ops -> exists r, o = Ins r.

(** How often a record equal to [r] is inserted / erased. *)
Definition n_ins (r : R) (ops : list (op R)) : nat :=
  countb (fun o => match o with Ins x => req r x | Del _ => false end) ops.
Definition n_del (r : R) (ops : list (op R)) : nat :=
  countb (fun o => match o with Ins _ => false | Del x => req r x end) ops.

(** In every block of [n] consecutive operations, counted from the start, there
    are more inserts than erases.  ([n] is the low watermark: every flush then
    writes at least one record.) *)
Definition is_insert (o : op R) : bool := match o with Ins _ => true | Del _ => false end.
Definition is_erase (o : op R) : bool := match o with Ins _ => false | Del _ => true end.
Definition mostly_inserts (n : nat) (ops : list (op R)) : Prop :=
  forall k, (k + 1) * n <= length ops ->
    let b := firstn n (skipn (k * n) ops) in
    countb is_erase b < countb is_insert b.

(** How many tombstones a history appends. *)
Definition ts_appended (C : cfg) (ops : list (op R)) : nat :=
  match c_del C with TOMBSTONE => countb is_erase ops | TAGGING => 0 end.

(** The inserted records that no later call erases. *)
Definition live (ops : list (op R)) : list R :=
  fold_left (fun l o => match o with Ins r => l ++ [r] | Del r => filter (fun x => negb (req r x)) l end)
            ops [].

(** No two inserts insert equal records. *)
Definition distinct_inserts (ops : list (op R)) : Prop := forall r, n_ins r ops <= 1.

(** No record is inserted while an equal one is live. *)
Definition never_doubled (ops : list (op R)) : Prop :=
  forall pre r post, ops = pre ++ Ins r :: post -> countb (req r) (live pre) = 0.

(** The operations of a history on records equal to [r]. *)
Definition op_rec (o : op R) : R := match o with Ins x => x | Del x => x end.
Definition history_of (r : R) (ops : list (op R)) : list (op R) :=
  filter (fun o => req r (op_rec o)) ops.

(** No buffer crosses the end of the ring: the low watermark divides the ring's
    size, or all [n] operations fit into the ring. *)
Definition no_wrap (C : cfg) (n : nat) : Prop :=
  (exists k, 2 * c_hwm C = k * c_lwm C) \/ n <= 2 * c_hwm C.

(** Every block of [n] consecutively inserted records, counted from the start,
    contains one that is never erased.  (The counterpart of [mostly_inserts] for
    tagging: every flush writes at least one record that stays.) *)
Definition survivors (n : nat) (ops : list (op R)) : Prop :=
  forall k, (k + 1) * n <= length (inserted ops) ->
    exists r, In r (firstn n (skipn (k * n) (inserted ops))) /\ n_del r ops = 0.

(** ** Contents of the index *)

(** The records physically present: those of every shard of the current epoch,
    and the buffer slots between head and tail. *)
Definition shard_records (e : ext R) : list (wrapped R) :=
  match ep_ptr (e_cur e) with
  | Some ep => concat (map s_data (concat (map lv_shards (st_levels (ep_struct ep)))))
  | None => []
  end.
Definition buffer_records (e : ext R) : list (wrapped R) :=
  let b := e_buf e in
  flat_map (fun i => match nth_error (b_data b) (i mod b_cap b) with Some w => [w] | None => [] end)
           (seq (hidx (b_head b)) (b_tail b - hidx (b_head b))).
Definition stored (e : ext R) : list (wrapped R) := shard_records e ++ buffer_records e.

(** The shards of every level of the current epoch, as their records. *)
Definition levels_of (e : ext R) : list (list (list (wrapped R))) :=
  match ep_ptr (e_cur e) with
  | Some ep => map (fun l => map s_data (lv_shards l)) (st_levels (ep_struct ep))
  | None => []
  end.
(** The planner's record and shard count of every level. *)
Definition planned_counts (e : ext R) : list (nat * nat) :=
  match ep_ptr (e_cur e) with
  | Some ep => map (fun s => (ls_rec s, ls_cnt s)) (st_state (ep_struct ep))
  | None => []
  end.

(** No shard of the index ever becomes empty. *)
Definition shards_never_empty (B : builders R) (C : cfg) (ops : list (op R)) : Prop :=
  forall pre post e rs, ops = pre ++ post -> run_new B C pre = Ok (e, rs) ->
  forall ls d, In ls (levels_of e) -> In d ls -> d <> [].
(** Histories for which that holds with BSM (where an empty shard makes a later
    flush drop its records: see C12); no restriction for the other layouts. *)
Definition bsm_safe (B : builders R) (C : cfg) (ops : list (op R)) : Prop :=
  c_layout C = BSM -> shards_never_empty B C ops.
(** Conditions on the calls alone that imply it: no erases, or few enough of them. *)
Definition few_erases (C : cfg) (ops : list (op R)) : Prop :=
  insert_only ops \/ (c_del C = TOMBSTONE /\ mostly_inserts (c_lwm C) ops) \/
  (c_del C = TAGGING /\ survivors (c_lwm C) ops).

(** Copies of [r] among [ws] that are plain records / tombstones. *)
Definition n_plain (r : R) (ws : list (wrapped R)) : nat :=
  countb (fun w => req r (wrec w) && negb (is_ts w)) ws.
Definition n_tomb (r : R) (ws : list (wrapped R)) : nat :=
  countb (fun w => req r (wrec w) && is_ts w) ws.

(** Copies of [r] that are neither tombstones nor tagged as deleted; tagged copies. *)
Definition n_live (r : R) (ws : list (wrapped R)) : nat :=
  countb (fun w => req r (wrec w) && negb (is_ts w) && negb (is_del w)) ws.
Definition n_tagged (r : R) (ws : list (wrapped R)) : nat :=
  countb (fun w => req r (wrec w) && is_del w) ws.

(** How often [r] occurs in a query result. *)
Definition occ (r : R) (l : list R) : nat := countb (req r) l.

(** No record is smaller than an earlier one. *)
Definition sorted (ws : list (wrapped R)) : Prop :=
  StronglySorted (fun a b => rlt (wrec b) (wrec a) = false) ws.

(** ** Search in a shard *)

Context {KO : KeyOps R}.

(** Whether a key lies in [l, u]. *)
Definition key_in (l u : Z) (r : R) : bool := ((l <=? rkey r) && (rkey r <=? u))%Z.

(** The stored records with a key in [l, u] that are neither tombstones nor tagged. *)
Definition counted (l u : Z) (ws : list (wrapped R)) : nat :=
  countb (fun w => key_in l u (wrec w) && negb (is_del w) && negb (is_ts w)) ws.

(** The contract of a shard's get_lower_bound that the range queries rely on: on a
    non-empty sorted array it returns an index within the array (or its length)
    and skips only records whose key is smaller. *)
Definition lb_sound (lbf : list (wrapped R) -> Z -> res nat) : Prop :=
  forall d k, d <> [] -> sorted d ->
    exists i, lbf d k = Ok i /\ i <= length d /\
      forall w, In w (firstn i d) -> (rkey (wrec w) < k)%Z.

(** Within [l, u] the buffer holds every record once and in increasing order. *)
Definition buffer_increasing (l u : Z) (e : ext R) : Prop :=
  StronglySorted (fun a b => rlt (wrec a) (wrec b) = true)
    (filter (fun w => key_in l u (wrec w)) (buffer_records e)).

(** The contract of a shard's point_lookup for a key, [hit] being "has that key":
    on a non-empty sorted array it returns a record with the key if there is one. *)
Definition pl_sound (hit : R -> bool) (plf : list (wrapped R) -> res (option (wrapped R))) : Prop :=
  forall d, d <> [] -> sorted d ->
    match plf d with
    | Ok (Some w) => In w d /\ hit (wrec w) = true
    | Ok None => forall w, In w d -> hit (wrec w) = false
    | Fail _ => False
    end.

(** What a point lookup of [r] may return: the index of a copy, or nothing if there
    is none. *)
Definition answers (d : list (wrapped R)) (r : R) (o : option nat) : Prop :=
  match o with
  | Some i => exists w, nth_error d i = Some w /\ req (wrec w) r = true
  | None => forall w, In w d -> req (wrec w) r = false
  end.

(** A search range that contains the first record whose key is not smaller than [k]
    (or ends at the end of the array). *)
Definition brackets (d : list (wrapped R)) (b : nat * nat) (k : Z) : Prop :=
  fst b <= countb (fun w => (rkey (wrec w) <? k)%Z) d <= snd b /\ snd b <= length d.

(** [hit] selects (among the records of a history) the records equal to [r]. *)
Definition selects (hit : R -> bool) (r : R) (ops : list (op R)) : Prop :=
  forall o, In o ops -> hit (op_rec o) = req r (op_rec o).

End Spec.

(** ** Orders *)

(** A strict weak order [lt] whose incomparability relation is [eq] (what std::sort,
    std::lower_bound and the merge need of a comparison). *)
Definition strict_weak_order {A : Type} (lt eq : A -> A -> bool) : Prop :=
  (forall a, lt a a = false) /\
  (forall a b c, lt a b = true -> lt b c = true -> lt a c = true) /\
  (forall a b, eq a b = true <-> lt a b = false /\ lt b a = false) /\
  (forall a b c, eq a b = true -> eq b c = true -> eq a c = true).

(** The fields of a record header. *)
Record fields := Fields { f_ts : bool; f_del : bool; f_vis : bool; f_time : N }.
Definition fields_of (h : N) : fields :=
  Fields (N.testbit h 0) (N.testbit h 1) (N.testbit h 2) (h / 8)%N.

(** [out] is built from the records [l]: [l] consists of the records of [out] (up to
    timestamps), tagged records, and pairs of a plain record and an equal
    tombstone; [out] is sorted and has no tagged record. *)
Definition built_from {R} {RO : RecOps R} (l out : list (wrapped R)) : Prop :=
  sorted out /\ Forall (fun w => is_del w = false) out /\
  exists kept dropped pairs,
    Permutation l (kept ++ dropped ++ map fst pairs ++ map snd pairs) /\
    map (fun w => (wrec w, is_ts w)) out = map (fun w => (wrec w, is_ts w)) kept /\
    Forall (fun w => is_del w = true) dropped /\
    Forall (fun p => is_ts (fst p) = false /\ is_ts (snd p) = true /\
                     req (wrec (fst p)) (wrec (snd p)) = true) pairs.

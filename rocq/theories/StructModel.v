(** Levels and the extension structure (include/framework/structure/
    InternalLevel.h, ExtensionStructure.h; include/util/types.h). *)
From Coq Require Import List Arith ZArith NArith Lia Bool.
From Verif Require Import Base RecordModel BufferModel MergeModel.
Import ListNotations.

(** include/framework/util/Configuration.h: layout and delete policies. *)
Inductive layout := LEVELING | TIERING | BSM.
Inductive delpol := TOMBSTONE | TAGGING.

(** Constructor arguments of DynamicExtension (DynamicExtension.h:81-97). *)
Record cfg := Cfg { c_layout : layout; c_del : delpol; c_lwm : nat; c_hwm : nat; c_sf : nat }.

Section Structure.
Context {R : Type} {RO : RecOps R}.
Variable B : builders R.
Variable C : cfg.

(** ** InternalLevel *)

(** InternalLevel.h:286-292.  [lv_shards] are the first [m_shard_cnt] entries of
    [m_shards]; the remaining [lv_cap - m_shard_cnt] entries are null. *)
Record level := Level {
  lv_no : nat;
  lv_cap : nat;
  lv_shards : list (shard R);
  lv_pending : option (shard R)
}.

(** InternalLevel.h:37-39. *)
Definition lv_new (no cap : nat) : level := Level no cap [] None.

(** InternalLevel.h:216-237. *)
Definition lv_count (l : level) : nat := length (lv_shards l).
Definition lv_reccnt (l : level) : nat := sum_list (map s_reccnt (lv_shards l)).
Definition lv_tscnt (l : level) : nat := sum_list (map s_tscnt (lv_shards l)).

(** InternalLevel.h:50-61: a null shard pointer would be dereferenced by the
    priority queue. *)
Definition lv_reconstruct2 (base new : level) : res level :=
  if negb ((lv_no new <? lv_no base) || ((lv_no base =? 0) && (lv_no new =? 0)))
  then Fail FAssert
  else
    match lv_shards base, lv_shards new with
    | b :: _, n :: _ =>
        do s <- from_shards B [b; n];
        Ok (Level (lv_no base) 1 [s] None)
    | _, _ => Fail FNull
    end.

(** InternalLevel.h:63-78. *)
Definition lv_reconstruct_many (ls : list level) (level_idx : nat) : res level :=
  do s <- from_shards B (concat (map lv_shards ls));
  Ok (Level level_idx 1 [s] None).

(** InternalLevel.h:88-111. *)
Definition lv_append_level (this incoming : level) : res level :=
  if lv_count incoming =? 0 then Ok this
  else
    do s <- from_shards B (lv_shards incoming);
    if lv_count this =? lv_cap this
    then Ok (Level (lv_no this) (lv_cap this) (lv_shards this) (Some s))
    else Ok (Level (lv_no this) (lv_cap this) (lv_shards this ++ [s]) (lv_pending this)).

(** InternalLevel.h:119-128. *)
Definition lv_append_buffer (this : level) (d : list (wrapped R)) (v : view) : res level :=
  if lv_count this =? lv_cap this then
    match lv_pending this with
    | Some _ => Fail FAssert
    | None =>
        do s <- from_view B d v;
        Ok (Level (lv_no this) (lv_cap this) (lv_shards this) (Some s))
    end
  else
    do s <- from_view B d v;
    Ok (Level (lv_no this) (lv_cap this) (lv_shards this ++ [s]) (lv_pending this)).

(** InternalLevel.h:130-140.  [m_shards[0]] of an empty vector is a fault. *)
Definition lv_finalize (this : level) : res level :=
  match lv_pending this with
  | None => Ok this
  | Some s =>
      if lv_cap this =? 0 then Fail FOob
      else Ok (Level (lv_no this) (lv_cap this) [s] None)
  end.

(** InternalLevel.h:148-160. *)
Definition lv_combined (this : level) : res (option (shard R)) :=
  if lv_count this =? 0 then Ok None
  else do s <- from_shards B (lv_shards this); Ok (Some s).

(** InternalLevel.h:274-283: the pending shard is not copied. *)
Definition lv_clone (this : level) : level :=
  Level (lv_no this) (lv_cap this) (lv_shards this) None.

(** Index of the first record equal to [r] in a shard, the contract of the
    sorted shards' point_lookup (ISAMTree.h:96-114 is analysed in ISAM*.v) and of the
    hash map of VPTree (VPTree.h:130-141, 224-238).  Tries look records up by a search in
    the trie: KindModel.v has the erase with another lookup. *)
Fixpoint find_rec (r : R) (l : list (wrapped R)) (i : nat) : option nat :=
  match l with
  | [] => None
  | w :: l' => if req (wrec w) r then Some i else find_rec r l' (S i)
  end.

(** InternalLevel.h:191-206: tag the first match, shards in index order. *)
Definition shard_tag (r : R) (s : shard R) : option (shard R) :=
  match find_rec r (s_data s) 0 with
  | None => None
  | Some i =>
      match nth_error (s_data s) i with
      | None => None
      | Some w => Some (Shard (set_nth i (set_delete w) (s_data s)) (s_reccnt s) (s_tscnt s))
      end
  end.
Fixpoint shards_tag (r : R) (ss : list (shard R)) : option (list (shard R)) :=
  match ss with
  | [] => None
  | s :: ss' =>
      match shard_tag r s with
      | Some s' => Some (s' :: ss')
      | None => match shards_tag r ss' with
                | Some ss'' => Some (s :: ss'')
                | None => None end
      end
  end.
Definition lv_delete_record (r : R) (l : level) : option level :=
  match shards_tag r (lv_shards l) with
  | Some ss => Some (Level (lv_no l) (lv_cap l) ss (lv_pending l))
  | None => None
  end.

(** ** ExtensionStructure *)

(** ExtensionStructure.h:31-37 (level_state), one entry of the state vector. *)
Record lstate := LS { ls_rec : nat; ls_reccap : nat; ls_cnt : nat; ls_cap : nat }.

Record structure := Struct { st_levels : list level; st_state : list lstate }.

Definition st_empty : structure := Struct [] [].

(** ExtensionStructure.h:647-649, with exact integer arithmetic.  The buffer size
    of the structure is the high watermark (DynamicExtension.h:92-93). *)
Definition level_cap (idx : nat) : nat := c_hwm C * c_sf C ^ (idx + 1).

(** ExtensionStructure.h:462, 561, 598. *)
Definition shard_capacity : nat := match c_layout C with LEVELING => 1 | _ => c_sf C end.

(** ExtensionStructure.h:662-678. *)
Definition can_reconstruct_with (idx incoming : nat) (state : list lstate) : bool :=
  match nth_error state idx with
  | None => false
  | Some s =>
      match c_layout C with
      | LEVELING => ls_rec s + incoming <=? ls_reccap s
      | BSM => ls_rec s =? 0
      | TIERING => ls_cnt s <? ls_cap s
      end
  end.

(** ExtensionStructure.h:559-566: the new index is [m_levels.size()]. *)
Definition grow (st : structure) (state : list lstate) : list lstate * nat :=
  let new_idx := length (st_levels st) in
  (state ++ [LS 0 (level_cap new_idx) 0 shard_capacity], new_idx).

(** ExtensionStructure.h:586-592, the loop from level [i] over [n] levels; the
    incoming count is always the one of level [idx] (line 591). *)
Fixpoint find_target_loop (i n incoming : nat) (state : list lstate) : option nat :=
  match n with
  | O => None
  | S n' => if can_reconstruct_with i incoming state then Some i
            else find_target_loop (S i) n' incoming state
  end.

(** ExtensionStructure.h:575-595; None stands for -1. *)
Definition find_target (idx : nat) (state : list lstate) : res (option nat) :=
  if (idx =? 0) && (length state =? 0) then Ok None
  else
    match nth_error state idx with
    | None => Fail FOob
    | Some s => Ok (find_target_loop (S idx) (length state - S idx) (ls_rec s) state)
    end.

(** types.h:80-90, ReconstructionTask. *)
Record task := Task { t_sources : list nat; t_target : nat; t_reccnt : nat }.

Definition upd_state (i : nat) (f : lstate -> lstate) (state : list lstate) : list lstate :=
  match nth_error state i with Some s => set_nth i (f s) state | None => state end.

(** ExtensionStructure.h:363-370: sources base-1 .. source_level of the BSM task.
    The model starts [reccnt] at 0 (the member is uninitialised in the source and
    read by nothing). *)
Fixpoint bsm_sources (i src : nat) (state : list lstate) (acc : list nat) (cnt : nat)
  : list lstate * list nat * nat :=
  match i with
  | O => (state, acc, cnt)
  | S i' =>
      if i <=? src then (state, acc, cnt)
      else
        let rc := match nth_error state i' with Some s => ls_rec s | None => 0 end in
        let state' := upd_state i' (fun s => LS 0 (ls_reccap s) 0 (ls_cap s)) state in
        bsm_sources i' src state' (acc ++ [i']) (cnt + rc)
  end.

(** ExtensionStructure.h:383-415: the pairwise tasks base, base-1, .., source+1. *)
Fixpoint pair_tasks (i src : nat) (state : list lstate) (acc : list task)
  : list lstate * list task :=
  match i with
  | O => (state, acc)
  | S i' =>
      if i <=? src then (state, acc)
      else
        let recon := match nth_error state i' with Some s => ls_rec s | None => 0 end in
        let base := recon in
        let recon' :=
          match c_layout C with
          | LEVELING =>
              if can_reconstruct_with i base state
              then recon + match nth_error state i with Some s => ls_rec s | None => 0 end
              else recon
          | _ => recon
          end in
        let acc' := acc ++ [Task [i'] i recon'] in
        let state1 := upd_state i' (fun s => LS 0 (ls_reccap s) 0 (ls_cap s)) state in
        let state2 :=
          upd_state i (fun s =>
            LS (ls_rec s + base) (ls_reccap s)
               (match c_layout C with
                | TIERING => S (ls_cnt s)
                | _ => if ls_cnt s =? 0 then S (ls_cnt s) else ls_cnt s
                end) (ls_cap s)) state1 in
        pair_tasks i' src state2 acc'
  end.

(** ExtensionStructure.h:339-418. *)
Definition tasks_from_level (st : structure) (src : nat) (state : list lstate)
  : res (list lstate * list task) :=
  do t <- find_target src state;
  let '(state1, base) := match t with Some b => (state, b) | None => grow st state end in
  match c_layout C with
  | BSM =>
      if base =? 0 then Ok (state1, [])
      else
        let '(state2, srcs, cnt) := bsm_sources base src state1 [] 0 in
        Ok (upd_state base (fun s => LS cnt (ls_reccap s) 1 (ls_cap s)) state2,
            [Task srcs base cnt])
  | _ => Ok (pair_tasks base src state1 [])
  end.

(** ExtensionStructure.h:282-334 with LOOKAHEAD = 1 (the only iteration). *)
Definition get_tasks (st : structure) (buffer_reccnt : nat) : res (list lstate * list task) :=
  let state := st_state st in
  do (state1, ts) <-
    (if can_reconstruct_with 0 buffer_reccnt state then Ok (state, [])
     else tasks_from_level st 0 state);
  match nth_error state1 0 with
  | None => Fail FOob
  | Some s =>
      Ok (set_nth 0 (LS (ls_rec s + buffer_reccnt) (ls_reccap s)
                        (match c_layout C with
                         | TIERING => S (ls_cnt s)
                         | _ => if ls_cnt s =? 0 then S (ls_cnt s) else ls_cnt s
                         end) (ls_cap s)) state1, ts)
  end.

(** ExtensionStructure.h:443-449, the loop over the sources of a BSM task. *)
Fixpoint clear_sources (srcs : list nat) (target : nat) (ls : list level) (state : list lstate)
  : list level * list lstate :=
  match srcs with
  | [] => (ls, state)
  | i :: srcs' =>
      clear_sources srcs' target (set_nth i (lv_new i 1) ls)
                    (set_nth i (LS 0 (level_cap target) 0 1) state)
  end.

(** ExtensionStructure.h:420-452. *)
Definition reconstruct_bsm (st : structure) (t : task) : res structure :=
  do ls <- map_res (fun i => nth_res i (st_levels st)) (t_sources t);
  do nl <- lv_reconstruct_many ls (t_target t);
  let e := LS (lv_reccnt nl) (level_cap (t_target t)) 1 1 in
  let '(levels, state) :=
    if length (st_levels st) <=? t_target t
    then (st_levels st ++ [nl], st_state st ++ [e])
    else (set_nth (t_target t) nl (st_levels st), set_nth (t_target t) e (st_state st)) in
  let '(levels', state') := clear_sources (t_sources t) (t_target t) levels state in
  Ok (Struct levels' state').

(** ExtensionStructure.h:460-507. *)
Definition reconstruct_pair (st : structure) (base incoming : nat) : res structure :=
  let '(levels, state) :=
    if length (st_levels st) <=? base
    then (st_levels st ++ [lv_new base shard_capacity],
          st_state st ++ [LS 0 (level_cap base) 0 shard_capacity])
    else (st_levels st, st_state st) in
  do lb <- nth_res base levels;
  do li <- nth_res incoming levels;
  do lb' <-
    match c_layout C with
    | LEVELING =>
        if 0 <? lv_count lb then lv_reconstruct2 lb li else Ok li
    | _ => do l1 <- lv_append_level lb li; lv_finalize l1
    end;
  let levels1 := set_nth base lb' levels in
  let levels2 := set_nth incoming (lv_new incoming shard_capacity) levels1 in
  let state1 := set_nth base (LS (lv_reccnt lb') (level_cap base) (lv_count lb') shard_capacity) state in
  let state2 := set_nth incoming (LS 0 (level_cap incoming) 0 shard_capacity) state1 in
  Ok (Struct levels2 state2).

(** DynamicExtension.h:563-572, the reconstructions of one job. *)
Fixpoint exec_pairs (ts : list task) (st : structure) : res structure :=
  match ts with
  | [] => Ok st
  | t :: ts' =>
      do src <- nth_res 0 (t_sources t);
      do st' <- reconstruct_pair st (t_target t) src;
      exec_pairs ts' st'
  end.
Definition exec_tasks (ts : list task) (st : structure) : res structure :=
  match c_layout C with
  | BSM => match ts with [] => Ok st | t :: _ => reconstruct_bsm st t end
  | _ => exec_pairs ts st
  end.

(** ExtensionStructure.h:597-630. *)
Definition flush_into_l0 (st : structure) (d : list (wrapped R)) (v : view) : res structure :=
  let '(levels, state) :=
    if length (st_levels st) =? 0
    then (st_levels st ++ [lv_new 0 shard_capacity],
          st_state st ++ [LS 0 (level_cap 0) 0 shard_capacity])
    else (st_levels st, st_state st) in
  do l0 <- nth_res 0 levels;
  do l0' <-
    match c_layout C with
    | LEVELING =>
        do tmp <- lv_append_buffer (lv_new 0 1) d v;
        if 0 <? lv_count l0 then lv_reconstruct2 l0 tmp else Ok tmp
    | _ => lv_append_buffer l0 d v
    end;
  do s0 <- nth_res 0 state;
  Ok (Struct (set_nth 0 l0' levels)
             (set_nth 0 (LS (lv_reccnt l0') (ls_reccap s0) (lv_count l0') (ls_cap s0)) state)).

(** ExtensionStructure.h:108-119. *)
Definition flush_buffer (st : structure) (d : list (wrapped R)) (v : view) : res structure :=
  let tmp := if length (st_state st) =? 0 then fst (grow st (st_state st)) else st_state st in
  if can_reconstruct_with 0 (v_count v) tmp
  then flush_into_l0 st d v
  else Fail FAssert.

(** ExtensionStructure.h:64-75. *)
Definition st_copy (st : structure) : structure :=
  Struct (map lv_clone (st_levels st)) (st_state st).

(** ExtensionStructure.h:86-99. *)
Fixpoint levels_tag (r : R) (ls : list level) : option (list level) :=
  match ls with
  | [] => None
  | l :: ls' =>
      match lv_delete_record r l with
      | Some l' => Some (l' :: ls')
      | None => match levels_tag r ls' with
                | Some ls'' => Some (l :: ls'')
                | None => None end
      end
  end.
Definition tagged_delete (r : R) (st : structure) : option structure :=
  match levels_tag r (st_levels st) with
  | Some ls => Some (Struct ls (st_state st))
  | None => None
  end.

(** ExtensionStructure.h:125-155. *)
Definition st_reccnt (st : structure) : nat := sum_list (map lv_reccnt (st_levels st)).
Definition st_tscnt (st : structure) : nat := sum_list (map lv_tscnt (st_levels st)).
Definition st_height (st : structure) : nat := length (st_levels st).

(** ExtensionStructure.h:192-205 with m_max_delete_prop = 1:
    [ts / cap > 1] is [ts > cap] for a positive capacity (0/0 compares false). *)
Fixpoint validate_from (i : nat) (ls : list level) : bool :=
  match ls with
  | [] => true
  | l :: ls' => if level_cap i <? lv_tscnt l then false else validate_from (S i) ls'
  end.
Definition validate_tombstone_proportion (st : structure) : bool :=
  validate_from 0 (st_levels st).

(** Shards in the order in which queries visit them: level 0 first, shard 0 first
    (ExtensionStructure.h:522-533, InternalLevel.h:162-174). *)
Definition query_shards (st : structure) : list (shard R) :=
  concat (map lv_shards (st_levels st)).

End Structure.
Arguments level R : clear implicits.
Arguments structure R : clear implicits.

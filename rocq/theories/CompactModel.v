(** Tombstone queries of a level, and compactions
    (include/framework/structure/InternalLevel.h, ExtensionStructure.h,
    include/framework/DynamicExtension.h).  The index itself does not call these at the
    pinned commit: enforce_delete_invariant has no caller. *)
From Coq Require Import List Arith ZArith NArith Lia Bool.
From Verif Require Import Base RecordModel BufferModel MergeModel StructModel ExtModel.
Import ListNotations.

Section Compact.
Context {R : Type} {RO : RecOps R}.
Variable B : builders R.
Variable C : cfg.

(** InternalLevel.h:176-189: from the last shard down to [stop].  [find] is the shard's
    point_lookup(rec, true), which returns a position. *)
Fixpoint check_down (find : R -> list (wrapped R) -> res (option nat)) (r : R) (ss : list (shard R))
  : res bool :=
  match ss with
  | [] => Ok false
  | s :: ss' =>
      do i <- find r (s_data s);
      match i with
      | None => check_down find r ss'
      | Some i =>
          do w <- nth_res i (s_data s);
          if is_ts w then Ok true else check_down find r ss'
      end
  end.
Definition lv_check_tombstone (find : R -> list (wrapped R) -> res (option nat)) (stop : nat) (r : R)
    (l : level R) : res bool :=
  check_down find r (rev (skipn stop (lv_shards l))).

(** InternalLevel.h:261-272: numerator and denominator of the quotient that is returned. *)
Definition lv_tombstone_prop (l : level R) : nat * nat :=
  (lv_tscnt l, lv_tscnt l + lv_reccnt l).

(** m_max_delete_prop as a fraction (ExtensionStructure.h:42-45, 537; DynamicExtension.h
    always passes 1). *)
Variable mx : nat * nat.

(** ExtensionStructure.h:207-211: [ts / cap <= mx], for a positive capacity, without
    rounding. *)
Definition level_within (i : nat) (l : level R) : bool :=
  lv_tscnt l * snd mx <=? fst mx * level_cap C i.

(** ExtensionStructure.h:192-205 and 239-246: the first level beyond the bound. *)
Fixpoint violation (i : nat) (ls : list (level R)) : option nat :=
  match ls with
  | [] => None
  | l :: ls' => if level_within i l then violation (S i) ls' else Some i
  end.

(** ExtensionStructure.h:256-273: the tasks from level [i] down to 1.  Every source is
    [i - i], that is 0. *)
Fixpoint compaction_loop (st : structure R) (state : list lstate) (i : nat) : res (list task) :=
  match i with
  | O => Ok []
  | S i' =>
      do above <- nth_res i' (st_levels st);
      let n := lv_reccnt above in
      do n' <-
        match c_layout C with
        | LEVELING =>
            if can_reconstruct_with C i n state
            then do l <- nth_res i (st_levels st); Ok (n + lv_reccnt l)
            else Ok n
        | _ => Ok n
        end;
      do ts <- compaction_loop st state i';
      Ok (Task [i - i] i n' :: ts)
  end.

(** ExtensionStructure.h:229-276. *)
Definition compaction_tasks (st : structure R) : res (list task) :=
  match violation 0 (st_levels st) with
  | None => Ok []
  | Some v =>
      do t <- find_target C v (st_state st);
      let '(state, base) := match t with
                            | Some b => (st_state st, b)
                            | None => grow C st (st_state st)
                            end in
      compaction_loop st state base
  end.

(** DynamicExtension.h:403-424 with 563-580: one round of the loop, on the structure. *)
Definition compact_once (st : structure R) : res (structure R) :=
  do ts <- compaction_tasks st; exec_tasks B C ts st.

(** DynamicExtension.h:403-430: the first [n] rounds; the loop goes on while there are
    tasks. *)
Fixpoint rounds (n : nat) (st : structure R) : res (structure R) :=
  match n with
  | O => Ok st
  | S n' => do st' <- compact_once st; rounds n' st'
  end.

End Compact.

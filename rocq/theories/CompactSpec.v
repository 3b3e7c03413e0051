(** What tombstone queries and compactions should do. *)
From Coq Require Import List Arith ZArith NArith Lia Bool.
From Verif Require Import Base RecordModel BufferModel MergeModel StructModel ExtModel Spec.
Import ListNotations.

Section CompactSpec.
Context {R : Type} {RO : RecOps R}.

(** The structure of the current epoch. *)
Definition structure_of (e : ext R) : structure R :=
  match ep_ptr (e_cur e) with Some ep => ep_struct ep | None => st_empty end.

(** The records of a structure, by level and shard, and all of them. *)
Definition contents (st : structure R) : list (list (list (wrapped R))) :=
  map (fun l => map s_data (lv_shards l)) (st_levels st).
Definition all_records (st : structure R) : list (wrapped R) := concat (concat (contents st)).

(** No level has more tombstones than the fraction [mx] of its capacity. *)
Definition within (C : cfg) (mx : nat * nat) (lvls : list (list (list (wrapped R)))) : Prop :=
  forall i ls, nth_error lvls i = Some ls ->
    countb is_ts (concat ls) * snd mx <= fst mx * (c_hwm C * c_sf C ^ (i + 1)).

(** The level below level 0 can take its records: tiering has a free place or no level
    there, leveling has room in a level that exists. *)
Definition room_below (C : cfg) (lvls : list (list (list (wrapped R)))) : Prop :=
  match c_layout C, lvls with
  | TIERING, [_] => True
  | TIERING, _ :: l1 :: _ => length l1 < c_sf C
  | LEVELING, l0 :: l1 :: _ =>
      length (concat l0) + length (concat l1) <= c_hwm C * c_sf C ^ 2
  | _, _ => False
  end.

(** [ws] has a tombstone for [r]. *)
Definition tombstoned (r : R) (ws : list (wrapped R)) : Prop :=
  exists w, In w ws /\ req (wrec w) r = true /\ is_ts w = true.

(** The lookup returns the position of an entry for the record if there is one. *)
Definition finds (find : R -> list (wrapped R) -> res (option nat)) (r : R) (d : list (wrapped R)) : Prop :=
  exists o, find r d = Ok o /\ answers d r o.

(** [d] does not hold both a record and a tombstone for [r]. *)
Definition one_sort (r : R) (d : list (wrapped R)) : Prop :=
  forall w w', In w d -> In w' d -> req (wrec w) r = true -> req (wrec w') r = true -> is_ts w = is_ts w'.

End CompactSpec.

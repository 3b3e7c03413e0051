(** The vocabulary of the properties of successive reconstructions. *)
From Coq Require Import List Arith ZArith NArith Lia Bool Permutation.
From Verif Require Import Base RecordModel BufferModel MergeModel StructModel ExtModel Spec FlushModel.
Import ListNotations.

Section FlushSpec.
Context {R : Type} {RO : RecOps R}.

(** [b] is a view of the records [ws]: they are in consecutive slots of the ring, which
    has at least one more slot. *)
Definition shows (b : batch R) (ws : list (wrapped R)) : Prop :=
  let (d, v) := b in
  v_cap v = length d /\ v_tail v = v_head v + length ws /\ length ws < length d /\
  forall i, i < length ws -> nth_error ws i = nth_error d ((v_head v + i) mod length d).

(** A flush of between one and [n] records. *)
Definition run_size (n : nat) (ws : list (wrapped R)) : Prop := 1 <= length ws <= n.

(** No tombstones and no records tagged as deleted. *)
Definition all_plain (ws : list (wrapped R)) : Prop :=
  forall w, In w ws -> is_ts w = false /\ is_del w = false.

(** More plain records than tombstones, and none tagged as deleted. *)
Definition mostly_plain (ws : list (wrapped R)) : Prop :=
  countb is_ts ws < countb (fun w => negb (is_ts w)) ws /\ forall w, In w ws -> is_del w = false.

(** [a] has no record or tombstone that [b] does not have, nor any more often. *)
Definition part_of (a b : list (wrapped R)) : Prop :=
  exists rest, Permutation (map (fun w => (wrec w, is_ts w)) b) (map (fun w => (wrec w, is_ts w)) a ++ rest).

(** The shards of every level of a structure as their records, and all its records. *)
Definition st_runs (st : structure R) : list (list (list (wrapped R))) :=
  map (fun l => map s_data (lv_shards l)) (st_levels st).
Definition st_records (st : structure R) : list (wrapped R) := concat (concat (st_runs st)).

End FlushSpec.

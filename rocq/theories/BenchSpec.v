(** What C80 and C81 say about the structures of the benchmarks. *)
From Coq Require Import List Arith ZArith NArith Lia Bool Sorted.
From Verif Require Import Base RecordModel VPModel Spec.
Import ListNotations.

Section BS.
Context {R : Type} {D : Type} {DO : DistOps D} {MO : MetricOps R D}.

(** [x] is not farther from [p] than [y]. *)
Definition near (p : R) (x y : R) : bool := dleb (dist p x) (dist p y).

(** No record is farther from [p] than an earlier one. *)
Definition farthest_first (p : R) (l : list R) : Prop := StronglySorted (fun x y => near p y x = true) l.
End BS.

Section BK.
Context {R : Type} {KO : KeyOps R}.

(** A block of 50 or more records where [k] lies strictly between two keys and is not a
    key itself. *)
Definition key_between (k : Z) (rs : list R) : Prop :=
  50 <= length rs /\ (exists r, In r rs /\ (rkey r < k)%Z) /\ (exists r, In r rs /\ (k < rkey r)%Z) /\
  (forall r, In r rs -> rkey r <> k).

(** How many of the records have a key in [l, u]. *)
Definition in_range (l u : Z) (rs : list R) : nat := countb (key_in l u) rs.
End BK.

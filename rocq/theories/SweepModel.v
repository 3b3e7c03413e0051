(** The benchmark programs that try many parameters of the index
    (benchmarks/vldb/vptree_parmsweep.cpp and ts_parmsweep.cpp).

    Simplifications: those of NearModel.v and TourModel.v; reading the files is as there,
    and the programs are modelled on what was read; deleting the index at
    the end of a round is not modelled. *)
From Coq Require Import List Arith ZArith Bool.
From Verif Require Import Base RecordModel MergeModel StructModel ExtModel VPModel KindModel DriveModel QueryModel ProgModel NearModel TourModel.
Import ListNotations.

(** vptree_parmsweep.cpp:57-62, 93-95: for each size of the buffer each scale factor, first
    all with tiering, then all with leveling.  ts_parmsweep.cpp:22-23, 54-59, 89-91: the
    same but for the way to erase, [d]. *)
Definition grid (d : delpol) (l : layout) (sizes factors : list nat) : list cfg :=
  flat_map (fun bs => map (fun sf => Cfg l d bs bs sf) factors) sizes.
Definition sweep_cfgs (d : delpol) (sizes factors : list nat) : list cfg :=
  grid d TIERING sizes factors ++ grid d LEVELING sizes factors.

Section Sweep.
Context {R : Type} {RO : RecOps R} {D : Type} {DO : DistOps D} {MO : MetricOps R D}.
Variable leafsz : nat.
Variable pop : R -> list (wrapped R) -> option (wrapped R * list (wrapped R)).
(** The random numbers that the trees of each round are built with. *)
Variable rng : nat -> nat -> nat -> nat.
Variable coin : nat -> bool.
Variable fuel warmup : nat.
Variable recs : list R.
Variable qs : list (R * nat).
Variable dels : list nat.

(** vptree_parmsweep.cpp:62-86 (95-119): one round, with the random numbers from [c] on;
    delete_idx starts at 0. *)
Definition round (C : cfg) (i c : nat) : res (list (list R)) :=
  do e0 <- ext_new C;
  do (e1, d1) <- insert_records vp_shards C recs dels false coin fuel 0 warmup 0 c e0;
  do (e, d) <- insert_records vp_shards C recs dels true coin fuel warmup (length recs) d1 c e1;
  do (e2, outs) <- run_nearest leafsz pop (rng i) e qs;
  do _ <- match qs with [] => Fail FOob | _ => Ok tt end;
  Ok outs.

(** vptree_parmsweep.cpp:60-124: the rounds.  The second call of insert_records takes one
    random number for each record; the next round goes on with those after them. *)
Fixpoint rounds (i c : nat) (cs : list cfg) : res (list (list (list R))) :=
  match cs with
  | [] => Ok []
  | C :: cs' =>
      do outs <- round C i c;
      do rest <- rounds (S i) (c + (length recs - warmup)) cs';
      Ok (outs :: rest)
  end.
End Sweep.

(** vptree_parmsweep.cpp:46-124: the positions to delete are chosen once. *)
Definition bench_sweep {R : Type} {RO : RecOps R} {D : Type} {DO : DistOps D} {MO : MetricOps R D}
  (leafsz : nat) (pop : R -> list (wrapped R) -> option (wrapped R * list (wrapped R))) (rng : nat -> nat -> nat -> nat)
  (coin : nat -> bool) (fuel size warmup : nat) (recs : list R) (qs : list (R * nat)) (cs : list cfg)
  : res (list (list (list R))) :=
  let '(js, c) := picks coin size (length recs) 0 0 in
  rounds leafsz pop rng coin fuel warmup recs qs (to_delete size js) 0 c cs.

Section Counts.
(** The shards' get_lower_bound. *)
Variable lbf : list (wrapped kv) -> Z -> res nat.
Variable B : builders kv.
Variable coin : nat -> bool.
Variable fuel warmup : nat.
Variable recs : list kv.
Variable zs : list (Z * Z).
Variable dels : list nat.

(** ts_parmsweep.cpp:59-80 (91-112): one round; the second template argument of rc::Query,
    which ts_bench.cpp leaves out, has no effect. *)
Definition count_round (C : cfg) (c : nat) : res (list nat) :=
  do e0 <- ext_new C;
  do (e1, d1) <- insert_records B C recs dels false coin fuel 0 warmup 0 c e0;
  do (e, d) <- insert_records B C recs dels true coin fuel warmup (length recs) d1 c e1;
  do (e2, ns) <- run_counts lbf e zs;
  do _ <- per_query zs;
  Ok ns.

(** ts_parmsweep.cpp:57-119. *)
Fixpoint count_rounds (c : nat) (cs : list cfg) : res (list (list nat)) :=
  match cs with
  | [] => Ok []
  | C :: cs' =>
      do ns <- count_round C c;
      do rest <- count_rounds (c + (length recs - warmup)) cs';
      Ok (ns :: rest)
  end.
End Counts.

(** ts_parmsweep.cpp:44-119. *)
Definition count_sweep (lbf : list (wrapped kv) -> Z -> res nat) (B : builders kv) (coin : nat -> bool)
  (fuel size warmup : nat) (recs : list kv) (zs : list (Z * Z)) (cs : list cfg) : res (list (list nat)) :=
  let '(js, c) := picks coin size (length recs) 0 0 in
  count_rounds lbf B coin fuel warmup recs zs (to_delete size js) c cs.

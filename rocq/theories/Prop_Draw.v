(** The program that draws points from a file (C93). *)
From Coq Require Import List Arith NArith Lia Bool.
From Verif Require Import Base FileModel FileSpec NearSpec DrawModel DrawSpec DrawProofs.
Import ListNotations.

(** C93: if there are [m] different points among the first [n] of the file, the program
    prints [m] different ones of them, for all random numbers. *)
Theorem C93_different : forall rng dim n m ps rest, (forall i, (rng i < 2 ^ 32)%N) ->
  Forall (fun p => length p = dim /\ Forall (fits 8) p) ps -> (N.of_nat (length ps) < 2 ^ 31)%N -> (N.of_nat dim < 2 ^ 31)%N ->
  let pts := firstn n ps in
  (exists ds, NoDup ds /\ incl ds pts /\ m <= length ds) ->
  exists out, bigann_sample rng dim n m (point_file dim ps rest) = Ok out /\
    length out = m /\ NoDup out /\ incl out pts.
Proof. exact drawn_different. Qed.
Print Assumptions C93_different.

(** C93: in general, the program prints the first different points among those whose random
    number is accepted; if they are fewer than [m], it repeats the first point of the file. *)
Theorem C93_printed : forall rng dim n m ps rest,
  Forall (fun p => length p = dim /\ Forall (fits 8) p) ps -> (N.of_nat (length ps) < 2 ^ 31)%N -> (N.of_nat dim < 2 ^ 31)%N ->
  let pts := firstn n ps in
  let ds := firsts (accepted (fun i => N.leb (rng i * N.of_nat m) (N.of_nat (length pts) * 2 ^ 32)) 0 pts) in
  (pts <> [] \/ m = 0) ->
  bigann_sample rng dim n m (point_file dim ps rest) = Ok (firstn m ds ++ repeat (hd [] pts) (m - length ds)).
Proof. exact drawn_any. Qed.
Print Assumptions C93_printed.

(** C93: if [m] is at most the number of points, all random numbers are accepted. *)
Theorem C93_first : forall rng dim n m ps rest, (forall i, (rng i < 2 ^ 32)%N) ->
  Forall (fun p => length p = dim /\ Forall (fits 8) p) ps -> (N.of_nat (length ps) < 2 ^ 31)%N -> (N.of_nat dim < 2 ^ 31)%N ->
  let pts := firstn n ps in m <= length pts ->
  bigann_sample rng dim n m (point_file dim ps rest) =
  Ok (firstn m (firsts pts) ++ repeat (hd [] pts) (m - length (firsts pts))).
Proof. exact drawn. Qed.
Print Assumptions C93_first.

(** C93: without points the program reads outside of its vector. *)
Theorem C93_empty : forall rng dim n m rest, (N.of_nat dim < 2 ^ 31)%N -> 0 < m ->
  bigann_sample rng dim n m (point_file dim [] rest) = Fail FOob.
Proof. exact drawn_empty. Qed.
Print Assumptions C93_empty.

(** ** A case: six points, of which four differ *)

Definition dw_points : list (list N) := [[5; 1]; [2; 300]; [5; 1]; [7; 0]; [2; 300]; [9; 9]]%N.
Definition dw_run (rng : nat -> N) (n m : nat) := bigann_sample rng 2 n m (point_file 2 dw_points [7%N]).

Example C93_case : Forall (fun p => length p = 2 /\ Forall (fits 8) p) dw_points /\
  firsts dw_points = [[5; 1]; [2; 300]; [7; 0]; [9; 9]]%N /\
  dw_run (fun i => N.of_nat i * 1000003)%N 9 3 = Ok [[5; 1]; [2; 300]; [7; 0]]%N /\
  dw_run (fun i => N.of_nat i * 1000003)%N 9 6 = Ok [[5; 1]; [2; 300]; [7; 0]; [9; 9]; [5; 1]; [5; 1]]%N /\
  dw_run (fun i => N.of_nat i * 1000003)%N 2 2 = Ok [[5; 1]; [2; 300]]%N /\
  (** more points than there are: random numbers matter *)
  dw_run (fun i => if i =? 0 then (2 ^ 32 - 1)%N else 0%N) 9 8 =
    Ok [[2; 300]; [5; 1]; [7; 0]; [9; 9]; [5; 1]; [5; 1]; [5; 1]; [5; 1]]%N.
Proof.
  split; [repeat (constructor; [split; [reflexivity|repeat constructor]|]); constructor|].
  repeat split; vm_compute; reflexivity.
Qed.

(** C93 fails: the program is to draw at random, but the proportion that it compares with
    is the number of points divided by the number to be drawn, not the other way round.
    One of two points is never drawn, whatever the random numbers are. *)
Theorem C93_random_refuted : exists dim n m ps p, In p (firstn n ps) /\ m < length (firstn n ps) /\ NoDup ps /\ 0 < m /\
  forall rng, (forall i, (rng i < 2 ^ 32)%N) -> exists out,
    bigann_sample rng dim n m (point_file dim ps []) = Ok out /\ ~ In p out.
Proof.
  exists 1, 2, 1, [[3%N]; [4%N]], [4%N]. split; [simpl; auto|]. split; [simpl; lia|].
  split; [repeat constructor; simpl; intuition discriminate|]. split; [lia|]. intros rng RG.
  rewrite C93_first; [|auto|repeat (constructor; [split; [reflexivity|repeat constructor]|]); constructor|reflexivity|reflexivity|simpl; lia].
  eexists. split; [reflexivity|]. vm_compute. intuition discriminate.
Qed.
Print Assumptions C93_random_refuted.

(** C93 fails if there are fewer different points: a point is printed twice. *)
Theorem C93_few_refuted : exists rng dim n m ps out, m <= length (firstn n ps) /\
  bigann_sample rng dim n m (point_file dim ps []) = Ok out /\ ~ NoDup out.
Proof.
  exists (fun _ => 0%N), 1, 2, 2, [[3%N]; [3%N]]. eexists. split; [simpl; lia|]. split; [vm_compute; reflexivity|].
  intros H. inversion H as [|? ? N]. apply N. simpl. auto.
Qed.
Print Assumptions C93_few_refuted.

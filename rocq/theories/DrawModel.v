(** The program that draws points from a binary file (benchmarks/bigann_sample.cpp).

    Simplifications: the points are kept and not printed; [rng i] is the 32-bit number that
    the [i]-th call of gsl_rng_uniform divides by 2^32, and numbers are compared exactly
    instead of in floating point. *)
From Coq Require Import List Arith NArith Bool.
From Verif Require Import Base FileModel.
Import ListNotations.

(** bigann_sample.cpp:35, 38: a number between 0 and 1 is at most data.size() / m. *)
Definition at_most_ratio (len m : nat) (u : N) : bool := (u * N.of_nat m <=? N.of_nat len * 2 ^ 32)%N.

(** Record.h:192-200: two points are equal. *)
Definition same_point (p q : list N) : bool := if list_eq_dec N.eq_dec p q then true else false.

(** bigann_sample.cpp:34, 36-42: the positions that are chosen from [i] on, at most [room]
    of them; [seen] are the points in the filter.  A random number is drawn for each
    position. *)
Fixpoint draw (rng : nat -> N) (len m room i : nat) (seen ps : list (list N)) : list nat :=
  match ps with
  | [] => []
  | p :: ps' =>
      match room with
      | O => []
      | S room' =>
          if at_most_ratio len m (rng i) && negb (existsb (same_point p) seen)
          then i :: draw rng len m room' (S i) (p :: seen) ps'
          else draw rng len m room (S i) seen ps'
      end
  end.

(** bigann_sample.cpp:30-32, 44-49: the points at the positions; positions that were not chosen
    are 0. *)
Definition bigann_sample (rng : nat -> N) (dim n m : nat) (f : list N) : res (list (list N)) :=
  do ps <- read_binary_vector_file dim n f;
  let js := draw rng (length ps) m m 0 [] ps in
  map_res (fun j => nth_res j ps) (js ++ repeat 0 (m - length js)).

(** A binary file of points. *)
From Coq Require Import List NArith.
From Verif Require Import FileModel FileSpec.
Import ListNotations.

(** The number of points, the number of their components, the points, anything. *)
Definition point_file (dim : nat) (ps : list (list N)) (rest : list N) : list N :=
  le_bytes 4 (N.of_nat (length ps)) ++ le_bytes 4 (N.of_nat dim) ++ concat (map point_bytes ps) ++ rest.

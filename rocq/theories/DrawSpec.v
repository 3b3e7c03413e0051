(** Some elements of a list of points. *)
From Coq Require Import List NArith.
Import ListNotations.

(** In the order of their first occurrences. *)
Fixpoint firsts (ps : list (list N)) : list (list N) :=
  match ps with
  | [] => []
  | p :: ps' => p :: remove (list_eq_dec N.eq_dec) p (firsts ps')
  end.

(** The points with an accepted position, from position [i] on. *)
Fixpoint accepted (ok : nat -> bool) (i : nat) (ps : list (list N)) : list (list N) :=
  match ps with
  | [] => []
  | p :: ps' => if ok i then p :: accepted ok (S i) ps' else accepted ok (S i) ps'
  end.

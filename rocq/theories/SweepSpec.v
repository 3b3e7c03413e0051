(** How many records a benchmark erases. *)
From Coq Require Import List Arith Bool.
Import ListNotations.

(** [n] records are inserted, from position [i] on, one random number is taken after each,
    from number [c] on, and [js] are the positions to erase: if the random number says so,
    the first of them is erased and dropped, provided it has been reached. *)
Fixpoint due (coin : nat -> bool) (n i c : nat) (js : list nat) : nat :=
  match n, js with
  | S n', j :: js' => if coin c && (j <=? i) then S (due coin n' (S i) (S c) js') else due coin n' (S i) (S c) js
  | _, _ => 0
  end.

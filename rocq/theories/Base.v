(** Base definitions shared by the model: outcomes of C++ code that may fault,
    and a few list functions with no counterpart in the source. *)
From Coq Require Import List Arith ZArith Lia Bool.
Import ListNotations.

(** Ways in which a modelled C++ function can leave defined behaviour.  They
    are kept apart only for readability of counterexamples: every theorem that
    says "does not fault" excludes all of them. *)
Inductive fault :=
| FOob        (* read or write outside an object, or of uninitialised memory *)
| FNull       (* dereference of a null pointer *)
| FAssert     (* failed assert() *)
| FLoop       (* the source loops forever *)
| FFuel.      (* model artefact: recursion budget exhausted *)

(** Outcome of a modelled function. *)
Inductive res (A : Type) :=
| Ok (a : A)
| Fail (f : fault).
Arguments Ok {A} a.
Arguments Fail {A} f.

Definition bind {A B} (x : res A) (k : A -> res B) : res B :=
  match x with Ok a => k a | Fail f => Fail f end.

Notation "'do' x <- e ; k" := (bind e (fun x => k))
  (at level 200, x pattern, e at level 100, k at level 200).

Definition is_ok {A} (x : res A) : bool :=
  match x with Ok _ => true | Fail _ => false end.

(** [set_nth i x l]: the vector [l] after the assignment [l[i] = x]; an index
    outside the vector leaves the list unchanged (callers check bounds). *)
Fixpoint set_nth {A} (i : nat) (x : A) (l : list A) : list A :=
  match l, i with
  | [], _ => []
  | _ :: l', O => x :: l'
  | y :: l', S i' => y :: set_nth i' x l'
  end.

(** [nth_res i l]: the vector access [l[i]]; outside the vector it is a fault. *)
Definition nth_res {A} (i : nat) (l : list A) : res A :=
  match nth_error l i with Some x => Ok x | None => Fail FOob end.

(** Sum of a list of numbers. *)
Definition sum_list (l : list nat) : nat := fold_right plus 0 l.

(** Number of elements of [l] that satisfy [p]. *)
Fixpoint countb {A} (p : A -> bool) (l : list A) : nat :=
  match l with
  | [] => 0
  | x :: l' => (if p x then 1 else 0) + countb p l'
  end.

(** Map over a list in the outcome monad, left to right. *)
Fixpoint map_res {A B} (f : A -> res B) (l : list A) : res (list B) :=
  match l with
  | [] => Ok []
  | x :: l' => do y <- f x; do ys <- map_res f l'; Ok (y :: ys)
  end.

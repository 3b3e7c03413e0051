(** Contracts and specifications of sampling. *)
From Coq Require Import List Arith ZArith NArith Bool.
From Verif Require Import Base RecordModel Spec.
Import ListNotations.

(** An alias structure returns an index whose weight is positive, if there is one. *)
Definition alias_contract (alias : list nat -> nat -> nat) : Prop :=
  forall ws c, sum_list ws <> 0 -> exists n, nth_error ws (alias ws c) = Some n /\ 0 < n.

Section Spec.
Context {R : Type} {RO : RecOps R} {KO : KeyOps R}.

(** The two bounds count the smaller keys and the keys not larger. *)
Definition bounds_exact (lbf ubf : list (wrapped R) -> Z -> res nat) : Prop :=
  forall d k, d <> [] -> sorted d ->
    lbf d k = Ok (countb (fun w => (rkey (wrec w) <? k)%Z) d) /\
    ubf d k = Ok (countb (fun w => (rkey (wrec w) <=? k)%Z) d).

(** [r] is stored in the buffer or a shard, with its key in the range. *)
Definition stored_in_range (l u : Z) (ws : list (wrapped R)) (ds : list (list (wrapped R))) (r : R) : Prop :=
  (l <= rkey r <= u)%Z /\ exists w, In w (ws ++ concat ds) /\ wrec w = r.
End Spec.

(** ** Distributions *)

(** A random number picks an index with a probability proportional to its weight:
    [x] falls into the [i]-th of the intervals of the lengths [ws]. *)
Fixpoint pick (ws : list nat) (x : nat) : nat :=
  match ws with
  | [] => 0
  | w :: ws' => if x <? w then 0 else S (pick ws' (x - w))
  end.
(** An alias structure without rounding errors, which uses one number of the stream. *)
Definition exact_alias (rng : nat -> nat) (ws : list nat) (c : nat) : nat := pick ws (rng c mod sum_list ws).

(** A stream that starts with the given numbers. *)
Definition stream (xs : list nat) (c : nat) : nat := nth c xs 0.

(** The number of pairs of a number below [X] and a number below [Y] for which [f] holds. *)
Definition outcomes (X Y : nat) (f : nat -> nat -> bool) : nat :=
  countb (fun p => f (fst p) (snd p)) (list_prod (seq 0 X) (seq 0 Y)).

(** [M] is a multiple of all numbers up to [n], so that a number below [M] gives each
    number below any of them equally often. *)
Definition divisible (M n : nat) : Prop := forall k, 0 < k <= n -> exists q, M = q * k.

(** The outcome is one record, which satisfies [P]. *)
Definition one_of {R} (P : R -> bool) (x : res (list R)) : bool :=
  match x with Ok [r] => P r | _ => false end.

(** The sum of the weights of the records that satisfy [P]. *)
Definition weight_where {R} (rweight : R -> nat) (P : wrapped R -> bool) (ws : list (wrapped R)) : nat :=
  sum_list (map (fun w => if P w then rweight (wrec w) else 0) ws).

(** The outcome of a call that returns the index and the samples. *)
Definition sampled {E R} (P : R -> bool) (x : res (E * list R)) : bool :=
  match x with Ok (_, [r]) => P r | _ => false end.

(** Sequences of calls on one buffer, and what they say about its contents. *)
From Coq Require Import List Arith ZArith NArith Lia Bool.
From Verif Require Import Base RecordModel BufferModel.
Import ListNotations.

Section BufSpec.
Context {R : Type} {RO : RecOps R}.

(** The calls: append a record or tombstone, advance the head, take a view of the
    head with the given number, release such a view. *)
Inductive bop :=
| BApp (r : R) (ts : bool)
| BAdv (n : nat)
| BAcq (h : nat)
| BRel (h : nat).

Definition bexec (b : buffer R) (o : bop) : res (buffer R * nat) :=
  match o with
  | BApp r ts => Ok (buf_append b r ts)
  | BAdv n => do (b', ok) <- buf_advance_head b n; Ok (b', if ok : bool then 1 else 0)
  | BAcq h => do (b', _) <- buf_get_view b h; Ok (b', 1)
  | BRel h => do b' <- buf_release b h; Ok (b', 1)
  end.

Fixpoint brun (b : buffer R) (ops : list bop) : res (buffer R * list nat) :=
  match ops with
  | [] => Ok (b, [])
  | o :: ops' =>
      do (b1, x) <- bexec b o;
      do (b2, xs) <- brun b1 ops';
      Ok (b2, x :: xs)
  end.

(** The records whose append returned 1, in order. *)
Fixpoint appended (ops : list bop) (rs : list nat) : list (R * bool) :=
  match ops, rs with
  | BApp r ts :: ops', 1 :: rs' => (r, ts) :: appended ops' rs'
  | _ :: ops', _ :: rs' => appended ops' rs'
  | _, _ => []
  end.

(** The last successful advance. *)
Fixpoint head_after (h : nat) (ops : list bop) (rs : list nat) : nat :=
  match ops, rs with
  | BAdv n :: ops', 1 :: rs' => head_after n ops' rs'
  | _ :: ops', _ :: rs' => head_after h ops' rs'
  | _, _ => h
  end.

End BufSpec.
Arguments bop R : clear implicits.

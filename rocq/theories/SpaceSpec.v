(** The views that a client holds. *)
From Coq Require Import List Arith.
From Verif Require Import Base RecordModel BufferModel BufSpec.
Import ListNotations.

Section SpaceSpec.
Context {R : Type} {RO : RecOps R}.

(** Remove one copy of [x]. *)
Fixpoint drop_one (x : nat) (l : list nat) : list nat :=
  match l with
  | [] => []
  | y :: l' => if y =? x then l' else y :: drop_one x l'
  end.

(** The heads of the views held after the calls, if those in [vs] were held before. *)
Fixpoint views (vs : list nat) (ops : list (bop R)) : list nat :=
  match ops with
  | [] => vs
  | BAcq h :: ops' => views (h :: vs) ops'
  | BRel h :: ops' => views (drop_one h vs) ops'
  | _ :: ops' => views vs ops'
  end.

(** The client takes views of heads that exist (the current head is [h] at first), and
    releases only the views it holds. *)
Fixpoint polite (h : nat) (vs : list nat) (ops : list (bop R)) (rs : list nat) : Prop :=
  match ops, rs with
  | BAcq x :: ops', _ :: rs' => x <= h /\ polite h (x :: vs) ops' rs'
  | BRel x :: ops', _ :: rs' => In x vs /\ polite h (drop_one x vs) ops' rs'
  | BAdv n :: ops', 1 :: rs' => polite n vs ops' rs'
  | _ :: ops', _ :: rs' => polite h vs ops' rs'
  | _, _ => True
  end.

(** Appends only. *)
Definition appends (l : list (R * bool)) : list (bop R) := map (fun x => BApp (fst x) (snd x)) l.

End SpaceSpec.

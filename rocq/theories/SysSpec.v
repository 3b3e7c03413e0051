(** The vocabulary of the properties of epochs, and of epochs together with the structure. *)
From Coq Require Import List Arith Bool.
From Verif Require Import Base RecordModel SysModel.
Import ListNotations.

Section SysSpec.
Context {R : Type} {RO : RecOps R}.

(** The appends of [l] that insert and that erase [r].  An append is its position, its
    record and whether it is a tombstone. *)
Definition a_ins (r : R) (l : list (nat * (R * bool))) : nat :=
  countb (fun x => req r (fst (snd x)) && negb (snd (snd x))) l.
Definition a_del (r : R) (l : list (nat * (R * bool))) : nat :=
  countb (fun x => req r (fst (snd x)) && snd (snd x)) l.

(** The records that the appends of [l] add. *)
Definition a_recs (l : list (nat * (R * bool))) : list R := map (fun x => fst (snd x)) l.

(** No append of [l] is an erase. *)
Definition no_erase (l : list (nat * (R * bool))) : Prop := forall y r ts, In (y, (r, ts)) l -> ts = false.

(** The action does not call erase. *)
Definition plain_act (s : sys R) (x : sact R) : Prop := match x with UCall _ (UInsert _ ts) => ts = false | _ => True end.

(** The epoch that only the thread about to do [p] knows: it is to be stored or to be
    deleted. *)
Definition holds (p : spc R) : option nat :=
  match p with
  | NStore _ a _ _ => Some a
  | DDel _ e => Some e
  | DPrev _ c => c_ep c
  | _ => None
  end.

(** Somebody knows the epoch [e]. *)
Definition held (s : sys R) (e : nat) : Prop :=
  c_ep (y_next s) = Some e \/ c_ep (y_cur s) = Some e \/ c_ep (y_prev s) = Some e \/
  exists t p, nth_error (y_pcs s) t = Some p /\ holds p = Some e.

End SysSpec.

(** The vocabulary of the properties about calls that end. *)
From Coq Require Import List Arith Bool.
From Verif Require Import Base RecordModel BufferModel BufConcModel SysModel.
Import ListNotations.

Section SoloSpec.
Context {R : Type} {RO : RecOps R}.
Variables lwm hwm cap : nat.

(** A step of thread [t]. *)
Definition own (t : nat) (x : sact R) : Prop := x = UStep t \/ x = Alt t \/ exists a, x = Alloc t a.

(** Thread [t] makes [k] steps, and the other threads make none. *)
Inductive solo (t : nat) : nat -> sys R -> sys R -> Prop :=
| so_refl : forall s, solo t 0 s s
| so_step : forall k s s1 x s2, own t x -> sexec lwm hwm cap s x = Some s1 -> solo t k s1 s2 -> solo t (S k) s s2.

(** Inside insert() or erase(). *)
Definition inserting (p : spc R) : bool :=
  match p with
  | ILow _ _ | ILowH _ _ _ | ILowT _ _ _ | IFlag _ _ | IApp _ _ | IAppW
  | NNull _ _ | SGet _ (ForNew _ _) | NClone _ _ _ | NStore _ _ _ _ | SEnd _ _ (ToNew _ _) | NLoad _ _ | NTask _ _ _ => true
  | _ => false
  end.

(** Inside a query, create_static_structure() or one of the functions that return a
    size. *)
Definition reading (p : spc R) : bool :=
  match p with
  | SGet _ (ForJob _ _) | JFirst _ _ | JView _ _ _ _ | JHold _ _ _ _ | JRead _ _ _ _ _ _ _ | JShards _ _ _ _ _ _
  | JRel _ | JRelW _ | QRel | QRelW | SEnd _ _ ToRelease | SEnd _ _ ToIdle => true
  | _ => false
  end.

(** Inside a reconstruction. *)
Definition rebuilding (p : spc R) : bool :=
  match p with
  | RView _ | RHold _ | RRead _ _ _ _ | RFlush _ _ _ | RRel _ _ | RRelW _ _
  | DLoad _ | DRet _ _ | DRetCas _ _ _ | DDel _ _ | DCur _ | DCurCas _ _ | DPrev _ _ | DAdv _ | DAdvW _
  | DPub | DPubSt _ | DNext | DNotify | DFlag => true
  | _ => false
  end.

(** The current epoch is not between its two cells. *)
Definition epoch_there (s : sys R) : Prop := c_ep (y_cur s) <> None \/ c_ep (y_prev s) <> None.
(** Nor is the buffer head. *)
Definition head_there (s : sys R) : Prop :=
  match cs_adv (y_buf s) with VOld _ _ => False | _ => True end.
(** All references to the buffer head are counted in it. *)
Definition refs_there (s : sys R) : Prop :=
  countb (BufConcModel.holds (hidx (cb_head (cs_buf (y_buf s))))) (cs_pcs (y_buf s)) <= href (cb_head (cs_buf (y_buf s))).
Definition can_read (s : sys R) : Prop := epoch_there s /\ head_there s /\ refs_there s.

(** The epoch to be deleted and the buffer head to be overwritten are no longer
    counted as used, if the reconstruction has not come that far. *)
Definition can_rebuild (s : sys R) (p : spc R) : Prop :=
  match p with
  | RView _ | RHold _ | RRead _ _ _ _ | RFlush _ _ _ | RRel _ _ | RRelW _ _ | DLoad _ | DRet _ _ | DRetCas _ _ _ =>
      c_ref (y_prev s) = 0 /\ href (cb_old (cs_buf (y_buf s))) = 0
  | DDel _ _ | DCur _ | DCurCas _ _ | DPrev _ _ | DAdv _ => href (cb_old (cs_buf (y_buf s))) = 0
  | DAdvW _ => match cs_adv (y_buf s) with VOld _ _ => True | _ => href (cb_old (cs_buf (y_buf s))) = 0 end
  | _ => True
  end.

(** Thread [t] has returned from its call, or an assertion has failed. *)
Definition over (t : nat) (s : sys R) : Prop :=
  y_stop s = Some AssertFailed \/ nth_error (y_pcs s) t = Some SIdle.

End SoloSpec.

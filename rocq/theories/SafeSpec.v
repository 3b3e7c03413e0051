(** The vocabulary of the properties about executions without lost references. *)
From Coq Require Import List Arith Bool.
From Verif Require Import Base RecordModel BufferModel BufConcModel SysModel.
Import ListNotations.

Section SafeSpec.
Context {R : Type} {RO : RecOps R}.

(** end_job has found at line 759 that its epoch is not the previous one, and has not yet
    loaded the current one (776). *)
Definition leaving (p : spc R) : bool := match p with SEnd ECurr _ _ => true | _ => false end.
(** release_head_reference has found at line 259 that its head is not the old one, and has
    not yet loaded the current one (268). *)
Definition dropping (p : pc R) : bool := match p with RCurLd _ => true | _ => false end.

(** No job stands there when the new epoch becomes the current one (485), no view when
    the head becomes the old one (MutableBuffer.h:167), and a reconstruction does not find
    the buffer empty.  The code ensures none of the three. *)
Definition safe (s : sys R) (x : sact R) : Prop :=
  match x with
  | UStep t =>
      match nth_error (y_pcs s) t with
      | Some (DPubSt _) => forall q, In q (y_pcs s) -> leaving q = false
      | Some (DAdvW _) =>
          match cs_adv (y_buf s) with
          | VOld _ _ => forall q, In q (cs_pcs (y_buf s)) -> dropping q = false
          | _ => True
          end
      | Some (RHold _) =>
          match nth_error (cs_pcs (y_buf s)) t with
          | Some (GTail _) => hidx (cb_head (cs_buf (y_buf s))) < cb_tail (cs_buf (y_buf s))
          | _ => True
          end
      | _ => True
      end
  | _ => True
  end.

(** The three separately: [safe] is their conjunction (C76_three). *)
Definition leave_ok (s : sys R) (x : sact R) : Prop :=
  forall t n, x = UStep t -> nth_error (y_pcs s) t = Some (DPubSt n) -> forall q, In q (y_pcs s) -> leaving q = false.
Definition drop_ok (s : sys R) (x : sact R) : Prop :=
  forall t n m k, x = UStep t -> nth_error (y_pcs s) t = Some (DAdvW n) -> cs_adv (y_buf s) = VOld m k ->
  forall q, In q (cs_pcs (y_buf s)) -> dropping q = false.
Definition full_ok (s : sys R) (x : sact R) : Prop :=
  forall t a h, x = UStep t -> nth_error (y_pcs s) t = Some (RHold a) -> nth_error (cs_pcs (y_buf s)) t = Some (GTail h) ->
  hidx (cb_head (cs_buf (y_buf s))) < cb_tail (cs_buf (y_buf s)).

(** The jobs on epoch [e], and the views of head [h]. *)
Definition jobs_on (s : sys R) (e : nat) : nat :=
  countb (fun p => match pinned p with Some x => x =? e | None => false end) (y_pcs s).
Definition views_of (s : sys R) (h : nat) : nat := countb (BufConcModel.holds h) (cs_pcs (y_buf s)).

(** Inside no call, or waiting for the next epoch. *)
Definition at_rest (p : spc R) : Prop := p = SIdle \/ p = WWait.

End SafeSpec.

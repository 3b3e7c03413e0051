(** The vocabulary of the properties about records that are never erased. *)
From Coq Require Import List Bool.
From Verif Require Import Base RecordModel SysModel.
Import ListNotations.

Section KeepSpec.
Context {R : Type} {RO : RecOps R}.

(** No record is tagged as deleted. *)
Definition untagged (ws : list (wrapped R)) : Prop := Forall (fun w => is_del w = false) ws.

(** The action does not call erase with a record equal to [r]. *)
Definition spares (r : R) (s : sys R) (x : sact R) : Prop :=
  match x with UCall _ (UInsert r' true) => req r r' = false | _ => True end.
End KeepSpec.

(** What it means to run jobs at once. *)
From Coq Require Import List Arith Bool.
From Verif Require Import Base SerModel.
Import ListNotations.

(** The names of a job and of those it schedules, in the order of the calls. *)
Fixpoint names (j : job) : list nat := match j with Job n _ b => n :: flat_map names b end.
(** The number of jobs of a type. *)
Fixpoint typed (t : nat) (j : job) : nat :=
  match j with Job _ ty b => (if ty =? t then 1 else 0) + list_sum (map (typed t) b) end.

(** All types are 1 or 2. *)
Inductive typed_ok : job -> Prop :=
| ty_job : forall n t b, t = 1 \/ t = 2 -> Forall typed_ok b -> typed_ok (Job n t b).

(** The jobs started, with their timestamps. *)
Definition started (l : list event) : list (nat * nat) :=
  flat_map (fun e => match e with EBegin ts n => [(ts, n)] | EEnd _ _ => [] end) l.

(** The jobs that run inside each other after [l], innermost first; none if some job ends
    that is not the innermost one. *)
Fixpoint nesting (l : list event) (stack : list (nat * nat)) : option (list (nat * nat)) :=
  match l with
  | [] => Some stack
  | EBegin ts n :: l' => nesting l' ((ts, n) :: stack)
  | EEnd ts n :: l' =>
      match stack with
      | (ts', n') :: st => if (ts =? ts') && (n =? n') then nesting l' st else None
      | [] => None
      end
  end.

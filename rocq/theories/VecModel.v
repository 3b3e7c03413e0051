(** The list of planned reconstructions with its total size
    (include/util/types.h:80-142).

    Simplifications: as in StructModel, a new ReconstructionTask starts with reccnt 0. *)
From Coq Require Import List Arith NArith Bool.
From Verif Require Import Base RecordModel BufferModel MergeModel StructModel.
Import ListNotations.

(** types.h:139-140.  The total is a 64-bit number. *)
Record rvec := RV { rv_tasks : list task; rv_total : N }.
Definition w64 : N := (2 ^ 64)%N.
Definition add64 (a b : N) : N := ((a + b) mod w64)%N.
Definition sub64 (a b : N) : N := ((a + w64 - b mod w64) mod w64)%N.

(** types.h:94. *)
Definition rv_empty : rvec := RV [] 0.

(** types.h:100-104. *)
Definition rv_add (source target reccnt : nat) (v : rvec) : rvec :=
  RV (rv_tasks v ++ [Task [source] target reccnt]) (add64 (rv_total v) (N.of_nat reccnt)).

(** types.h:106. *)
Definition rv_add_task (t : task) (v : rvec) : rvec := RV (rv_tasks v ++ [t]) (rv_total v).

(** types.h:98. *)
Definition rv_get (i : nat) (v : rvec) : res task :=
  match nth_error (rv_tasks v) i with Some t => Ok t | None => Fail FOob end.

Fixpoint remove_at {A} (i : nat) (l : list A) : list A :=
  match l, i with
  | [], _ => []
  | _ :: l', O => l'
  | x :: l', S i' => x :: remove_at i' l'
  end.

(** types.h:108-116. *)
Definition rv_remove (i : nat) (v : rvec) : res (task * rvec) :=
  match nth_error (rv_tasks v) i with
  | None => Fail FAssert
  | Some t => Ok (t, RV (remove_at i (rv_tasks v)) (sub64 (rv_total v) (N.of_nat (t_reccnt t))))
  end.

(** types.h:118-126: the loop from position [i] on. *)
Fixpoint smallest_loop (ts : list task) (i min idx : nat) : nat :=
  match ts with
  | [] => idx
  | t :: ts' =>
      if t_reccnt t <? min then smallest_loop ts' (S i) (t_reccnt t) i
      else smallest_loop ts' (S i) min idx
  end.

(** types.h:118-133. *)
Definition rv_remove_smallest (v : rvec) : res (task * rvec) :=
  match rv_tasks v with
  | [] => Fail FOob
  | t :: ts =>
      let idx := smallest_loop ts 1 (t_reccnt t) 0 in
      match nth_error (rv_tasks v) idx with
      | None => Fail FOob
      | Some t' => Ok (t', RV (remove_at idx (rv_tasks v)) (sub64 (rv_total v) (N.of_nat (t_reccnt t'))))
      end
  end.

(** The calls of a vector. *)
Inductive vcall :=
| VAdd (source target reccnt : nat)
| VAddTask (t : task)
| VRemove (i : nat)
| VSmallest.

Definition vexec (c : vcall) (v : rvec) : res rvec :=
  match c with
  | VAdd s t n => Ok (rv_add s t n v)
  | VAddTask t => Ok (rv_add_task t v)
  | VRemove i => do (_, v') <- rv_remove i v; Ok v'
  | VSmallest => do (_, v') <- rv_remove_smallest v; Ok v'
  end.

Fixpoint vrun (cs : list vcall) (v : rvec) : res rvec :=
  match cs with
  | [] => Ok v
  | c :: cs' => do v' <- vexec c v; vrun cs' v'
  end.

(** ExtensionStructure.h:282-418: the planner adds its BSM task as a whole (372), the
    others by source, target and size (397). *)
Definition add_planned (C : cfg) (ts : list task) : rvec :=
  match c_layout C with
  | BSM => fold_left (fun v t => rv_add_task t v) ts rv_empty
  | _ => fold_left (fun v t => rv_add (hd 0 (t_sources t)) (t_target t) (t_reccnt t) v) ts rv_empty
  end.

Definition plan_vec {R} (C : cfg) (st : structure R) (buffer_reccnt : nat) : res rvec :=
  do (_, ts) <- get_tasks C st buffer_reccnt; Ok (add_planned C ts).

(** The vocabulary of the property of planned reconstructions. *)
From Coq Require Import List NArith.
From Verif Require Import Base StructModel VecModel.
Import ListNotations.

(** The sum of the sizes of the tasks. *)
Fixpoint sizes (ts : list task) : N :=
  match ts with
  | [] => 0%N
  | t :: ts' => (N.of_nat (t_reccnt t) + sizes ts')%N
  end.

(** The call does not add a task of some size as a whole. *)
Definition counted_call (c : vcall) : Prop := match c with VAddTask t => t_reccnt t = 0 | _ => True end.

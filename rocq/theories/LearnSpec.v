(** What C77 says about the shards with a learned index. *)
From Coq Require Import List Arith ZArith NArith Lia Bool Sorted.
From Verif Require Import Base RecordModel MergeModel LearnModel.
Import ListNotations.

Section LS.
Context {R : Type} {KO : KeyOps R}.

(** The keys of an array of records. *)
Definition keys_of (d : list (wrapped R)) : list Z := map wkey d.

(** The builder received exactly these keys, smallest first, all between its bounds. *)
Definition handed (b : tbuild) (d : list (wrapped R)) : Prop :=
  rev (tb_keys b) = keys_of d /\ Sorted Z.le (keys_of d) /\
  Forall (fun k => tb_min b <= k <= tb_max b)%Z (keys_of d).

(** m_min_key and m_max_key are the least and the greatest key of the records. *)
Definition exact_bounds (t : spline R) : Prop :=
  let ks := keys_of (s_data (sp_shard t)) in
  ks <> [] -> In (sp_min t) ks /\ In (sp_max t) ks /\ Forall (fun k => sp_min t <= k <= sp_max t)%Z ks.

(** The keys given to PGMIndex are those of the records, smallest first; it is built if
    and only if there are records. *)
Definition pgm_handed (p : pgm R) : Prop :=
  Sorted Z.le (keys_of (s_data (fst p))) /\
  snd p = match s_data (fst p) with [] => None | _ :: _ => Some (keys_of (s_data (fst p))) end.

End LS.

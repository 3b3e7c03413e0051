(** Proofs about the program that draws points from a file. *)
From Coq Require Import List Arith NArith Lia Bool.
From Verif Require Import Base ListLemmas FileModel FileSpec FileProofs NearSpec DrawModel DrawSpec.
Import ListNotations.

Notation rm := (remove (list_eq_dec N.eq_dec)).

Lemma rm_nodup : forall p l, NoDup l -> NoDup (rm p l).
Proof.
  induction l as [|x l IH]; intros N; [constructor|]. apply NoDup_cons_iff in N as (N1 & N2). cbn [remove].
  destruct (list_eq_dec N.eq_dec p x); auto. constructor; auto. intros I. apply in_remove in I. tauto.
Qed.

Lemma firsts_nodup : forall ps, NoDup (firsts ps).
Proof. induction ps; simpl; constructor; auto using rm_nodup. apply remove_In. Qed.

Lemma firsts_in : forall ps p, In p (firsts ps) <-> In p ps.
Proof.
  induction ps as [|x ps IH]; intros p; cbn [firsts]; [tauto|]. cbn [In]. split; intros [E|I]; auto.
  - apply in_remove in I as [I _]. right. apply IH. auto.
  - destruct (list_eq_dec N.eq_dec p x) as [->|NE]; auto. right. apply in_in_remove; auto. apply IH. auto.
Qed.

Definition unseen (seen : list (list N)) (p : list N) : bool := negb (existsb (same_point p) seen).

Lemma same_refl : forall p, same_point p p = true.
Proof. intros p. unfold same_point. destruct (list_eq_dec N.eq_dec p p); auto. Qed.

Lemma unseen_cons : forall p seen l, filter (unseen (p :: seen)) l = filter (unseen seen) (rm p l).
Proof.
  intros p seen. induction l as [|x l IH]; auto. cbn [filter remove]. unfold unseen at 1. cbn [existsb]. unfold same_point at 1.
  destruct (list_eq_dec N.eq_dec x p) as [->|NE].
  - cbn [orb negb]. rewrite IH. destruct (list_eq_dec N.eq_dec p p); [auto|contradiction].
  - cbn [orb]. fold (unseen seen x). rewrite IH. destruct (list_eq_dec N.eq_dec p x) as [E|_]; [congruence|]. reflexivity.
Qed.

Lemma seen_skip : forall p seen l, unseen seen p = false -> filter (unseen seen) (rm p l) = filter (unseen seen) l.
Proof.
  intros p seen l U. induction l as [|x l IH]; auto. cbn [filter remove]. destruct (list_eq_dec N.eq_dec p x) as [<-|NE].
  - rewrite U. auto.
  - cbn [filter]. rewrite IH. reflexivity.
Qed.

Lemma ratio_true : forall len m u, m <= len -> (u < 2 ^ 32)%N -> at_most_ratio len m u = true.
Proof. intros len m u L U. unfold at_most_ratio. apply N.leb_le. rewrite (N.mul_comm (N.of_nat len)). apply N.mul_le_mono; lia. Qed.

Lemma draw_all : forall rng len m ps room seen pre,
  map (nth_error (pre ++ ps)) (draw rng len m room (length pre) seen ps) =
  map Some (firstn room (filter (unseen seen) (firsts (accepted (fun i => at_most_ratio len m (rng i)) (length pre) ps)))).
Proof.
  intros rng len m. induction ps as [|p ps IH]; intros room seen pre; cbn [draw accepted]; [cbn; rewrite firstn_nil; auto|].
  destruct room as [|room]; auto. fold (unseen seen p).
  pose proof (fun r s => IH r s (pre ++ [p])) as Q. rewrite app_length in Q. cbn [length] in Q. rewrite Nat.add_1_r in Q.
  rewrite <- app_assoc in Q. cbn [app] in Q.
  destruct (at_most_ratio len m (rng (length pre))); cbn [andb]; [|apply Q]. cbn [firsts filter].
  destruct (unseen seen p) eqn:U.
  - cbn [map firstn]. rewrite Q, unseen_cons. f_equal. rewrite nth_error_app2, Nat.sub_diag by lia. reflexivity.
  - rewrite Q, seen_skip by auto. reflexivity.
Qed.

Lemma accepted_all : forall ok ps i, (forall j, ok j = true) -> accepted ok i ps = ps.
Proof. intros ok. induction ps as [|p ps IH]; intros i H; auto. cbn [accepted]. rewrite H, IH; auto. Qed.

Lemma unseen_nil : forall l, filter (unseen []) l = l.
Proof. induction l; simpl; auto. f_equal. auto. Qed.

Lemma nths_ok : forall (ps : list (list N)) js out, map (nth_error ps) js = map Some out ->
  map_res (fun j => nth_res j ps) js = Ok out.
Proof.
  intros ps. induction js as [|j js IH]; intros [|x out] E; try discriminate; auto. cbn [map] in E. injection E as E1 E2.
  cbn [map_res]. unfold nth_res at 1. rewrite E1. cbn [bind]. rewrite (IH out E2). reflexivity.
Qed.

Lemma nth_repeat_0 : forall (p : list N) ps k, map (nth_error (p :: ps)) (repeat 0 k) = map Some (repeat p k).
Proof. intros p ps. induction k; simpl; auto. f_equal. auto. Qed.

Lemma nodup_front : forall a b : list (list N), NoDup (a ++ b) -> NoDup a.
Proof.
  induction a as [|x a IH]; intros b H; [constructor|]. inversion H; subst. constructor; eauto.
  intros I. apply H2. apply in_or_app. auto.
Qed.

(** What the program prints. *)
Theorem drawn_any : forall rng dim n m ps rest,
  Forall (fun p => length p = dim /\ Forall (fits 8) p) ps -> (N.of_nat (length ps) < 2 ^ 31)%N -> (N.of_nat dim < 2 ^ 31)%N ->
  let pts := firstn n ps in
  let ds := firsts (accepted (fun i => N.leb (rng i * N.of_nat m) (N.of_nat (length pts) * 2 ^ 32)) 0 pts) in
  (pts <> [] \/ m = 0) ->
  bigann_sample rng dim n m (point_file dim ps rest) = Ok (firstn m ds ++ repeat (hd [] pts) (m - length ds)).
Proof.
  intros rng dim n m ps rest FP LP LD pts ds NE. unfold bigann_sample, point_file.
  rewrite (points_read dim dim ps rest n FP ltac:(lia) LP LD). cbn [bind]. fold pts.
  pose proof (draw_all rng (length pts) m pts m [] []) as Q. cbn [app length] in Q. rewrite unseen_nil in Q.
  change (map (nth_error pts) (draw rng (length pts) m m 0 [] pts) = map Some (firstn m ds)) in Q.
  pose proof (f_equal (@length _) Q) as QL. rewrite !map_length, firstn_length in QL.
  apply nths_ok. rewrite !map_app. rewrite Q. f_equal. rewrite QL.
  replace (m - Nat.min m (length ds)) with (m - length ds) by lia.
  clearbody ds. destruct pts as [|p pts']; [|apply nth_repeat_0]. destruct NE as [NE| ->]; [contradiction|]. reflexivity.
Qed.

Theorem drawn : forall rng dim n m ps rest, (forall i, (rng i < 2 ^ 32)%N) ->
  Forall (fun p => length p = dim /\ Forall (fits 8) p) ps -> (N.of_nat (length ps) < 2 ^ 31)%N -> (N.of_nat dim < 2 ^ 31)%N ->
  let pts := firstn n ps in m <= length pts ->
  bigann_sample rng dim n m (point_file dim ps rest) =
  Ok (firstn m (firsts pts) ++ repeat (hd [] pts) (m - length (firsts pts))).
Proof.
  intros rng dim n m ps rest RG FP LP LD pts LM. rewrite (drawn_any rng dim n m ps rest FP LP LD).
  - fold pts. rewrite accepted_all; auto. intros j. apply (ratio_true (length pts) m (rng j)); auto.
  - fold pts. destruct pts; [right; simpl in LM; lia|left; discriminate].
Qed.

Theorem drawn_different : forall rng dim n m ps rest, (forall i, (rng i < 2 ^ 32)%N) ->
  Forall (fun p => length p = dim /\ Forall (fits 8) p) ps -> (N.of_nat (length ps) < 2 ^ 31)%N -> (N.of_nat dim < 2 ^ 31)%N ->
  let pts := firstn n ps in
  (exists ds, NoDup ds /\ incl ds pts /\ m <= length ds) ->
  exists out, bigann_sample rng dim n m (point_file dim ps rest) = Ok out /\
    length out = m /\ NoDup out /\ incl out pts.
Proof.
  intros rng dim n m ps rest RG FP LP LD pts (ds & ND & IN & LM).
  assert (L1 : length ds <= length (firsts pts)) by (apply NoDup_incl_length; auto; intros x I; apply firsts_in; auto).
  assert (L2 : length (firsts pts) <= length pts) by (apply NoDup_incl_length; [apply firsts_nodup|intros x I; apply firsts_in; auto]).
  rewrite (drawn rng dim n m ps rest RG FP LP LD) by (fold pts; lia). fold pts.
  replace (m - length (firsts pts)) with 0 by lia. cbn [repeat]. rewrite app_nil_r. eexists. split; [reflexivity|].
  split; [rewrite firstn_length; lia|]. pose proof (firsts_nodup pts) as NF. rewrite <- (firstn_skipn m (firsts pts)) in NF.
  split; [apply nodup_front in NF; auto|]. intros x I. apply firsts_in. rewrite <- (firstn_skipn m (firsts pts)).
  apply in_or_app. auto.
Qed.

Theorem drawn_empty : forall rng dim n m rest, (N.of_nat dim < 2 ^ 31)%N -> 0 < m ->
  bigann_sample rng dim n m (point_file dim [] rest) = Fail FOob.
Proof.
  intros rng dim n m rest LD LM. unfold bigann_sample, point_file.
  rewrite (points_read dim dim [] rest n (Forall_nil _) ltac:(lia) ltac:(simpl; lia) LD). rewrite firstn_nil. cbn [bind draw length app].
  destruct m; [lia|]. reflexivity.
Qed.

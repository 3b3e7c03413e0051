(** The total size of the planned reconstructions. *)
From Coq Require Import List Arith ZArith NArith Lia Bool Permutation.
From Verif Require Import Base RecordModel BufferModel MergeModel StructModel VecModel VecSpec.
Import ListNotations.

Lemma sizes_app : forall a b, sizes (a ++ b) = (sizes a + sizes b)%N.
Proof. induction a; intro b; cbn; auto. rewrite IHa. lia. Qed.

Lemma w64_pos : w64 <> 0%N.
Proof. discriminate. Qed.

Lemma sub64_ok : forall n x, sub64 ((n + x) mod w64) x = (n mod w64)%N.
Proof.
  intros n x. unfold sub64. pose proof (N.mod_upper_bound x w64 w64_pos) as B.
  rewrite <- N.add_sub_assoc by (apply N.lt_le_incl; auto).
  rewrite N.add_mod_idemp_l by apply w64_pos.
  pose proof (N.div_mod x w64 w64_pos) as D.
  assert (E : (n + x + (w64 - x mod w64) = n + (x / w64 + 1) * w64)%N).
  { set (m := (x mod w64)%N) in *. set (q := (x / w64)%N) in *. clearbody m q. revert D B. generalize w64. intros w D B. subst x. nia. }
  rewrite E. apply N.mod_add. apply w64_pos.
Qed.

Lemma remove_at_sizes : forall ts i t, nth_error ts i = Some t -> sizes ts = (sizes (remove_at i ts) + N.of_nat (t_reccnt t))%N.
Proof.
  induction ts as [|x ts IH]; intros [|i] t E; cbn in E; try discriminate.
  - inversion E; subst. cbn. lia.
  - cbn. rewrite (IH _ _ E). lia.
Qed.

Definition exact (v : rvec) : Prop := rv_total v = (sizes (rv_tasks v) mod w64)%N.

Lemma vexec_exact : forall c v v', exact v -> counted_call c -> vexec c v = Ok v' -> exact v'.
Proof.
  unfold exact. intros [s t n|t|i|] v v' X C E; cbn [vexec] in E.
  - inversion E; subst. cbn [rv_add rv_total rv_tasks]. unfold add64. rewrite sizes_app, X. cbn [sizes t_reccnt].
    rewrite N.add_mod_idemp_l by apply w64_pos. f_equal. lia.
  - inversion E; subst. cbn in C. cbn [rv_add_task rv_total rv_tasks]. rewrite sizes_app, X. cbn [sizes]. rewrite C. f_equal. cbn. lia.
  - unfold rv_remove in E. destruct (nth_error (rv_tasks v) i) as [t|] eqn:N; [|discriminate]. cbn [bind] in E. inversion E; subst.
    cbn [rv_total rv_tasks]. rewrite X, (remove_at_sizes _ _ _ N). apply sub64_ok.
  - unfold rv_remove_smallest in E. destruct (rv_tasks v) as [|t ts] eqn:T; [discriminate|]. cbv zeta in E.
    destruct (nth_error (t :: ts) _) as [t'|] eqn:N; [|discriminate]. cbn [bind] in E. inversion E; subst. cbn [rv_total rv_tasks].
    rewrite X, (remove_at_sizes _ _ _ N). apply sub64_ok.
Qed.

Theorem vrun_exact : forall cs v v', exact v -> Forall counted_call cs -> vrun cs v = Ok v' -> exact v'.
Proof.
  induction cs as [|c cs IH]; intros v v' X F E; cbn [vrun] in E; [inversion E; subst; auto|].
  inversion F; subst. destruct (vexec c v) as [v1|] eqn:V; [|discriminate]. cbn [bind] in E. apply (IH v1); auto. apply (vexec_exact c v); auto.
Qed.

Lemma empty_exact : exact rv_empty.
Proof. reflexivity. Qed.

Theorem total_exact : forall cs v, Forall counted_call cs -> vrun cs rv_empty = Ok v -> (sizes (rv_tasks v) < w64)%N ->
  rv_total v = sizes (rv_tasks v).
Proof.
  intros cs v F E L. pose proof (vrun_exact _ _ _ empty_exact F E) as X. unfold exact in X. rewrite X. apply N.mod_small. auto.
Qed.

(** ** The smallest *)

Lemma smallest_loop_ok : forall ts pre min idx, nth_error pre idx <> None ->
  (exists t, nth_error pre idx = Some t /\ t_reccnt t = min) ->
  (forall j t, nth_error pre j = Some t -> min <= t_reccnt t /\ (j < idx -> min < t_reccnt t)) ->
  exists t, nth_error (pre ++ ts) (smallest_loop ts (length pre) min idx) = Some t /\
    forall j x, nth_error (pre ++ ts) j = Some x ->
      t_reccnt t <= t_reccnt x /\ (j < smallest_loop ts (length pre) min idx -> t_reccnt t < t_reccnt x).
Proof.
  induction ts as [|y ts IH]; intros pre min idx NN (t & T1 & T2) H; cbn [smallest_loop].
  - rewrite app_nil_r. exists t. split; auto. subst min. auto.
  - replace (S (length pre)) with (length (pre ++ [y])) by (rewrite app_length; cbn; lia).
    replace (pre ++ y :: ts) with ((pre ++ [y]) ++ ts) by (rewrite <- app_assoc; auto).
    assert (LT : idx < length pre) by (apply nth_error_Some; auto).
    assert (NY : nth_error (pre ++ [y]) (length pre) = Some y) by (rewrite nth_error_app2, Nat.sub_diag; auto).
    assert (SPL : forall j x, nth_error (pre ++ [y]) j = Some x -> nth_error pre j = Some x \/ (j = length pre /\ x = y)).
    { intros j x E. destruct (Nat.lt_ge_cases j (length pre)) as [L|L].
      - rewrite nth_error_app1 in E; auto.
      - rewrite nth_error_app2 in E; auto. destruct (j - length pre) eqn:D; cbn in E; [inversion E; right; split; auto; lia|].
        destruct n; discriminate. }
    destruct (Nat.ltb_spec (t_reccnt y) min).
    + apply IH.
      * congruence.
      * exists y. auto.
      * intros j x E. destruct (SPL _ _ E) as [E'|[-> ->]]; [|lia].
        destruct (H _ _ E') as [A _]. split; intros; lia.
    + apply IH.
      * rewrite nth_error_app1 by lia. auto.
      * exists t. rewrite nth_error_app1 by lia. auto.
      * intros j x E. destruct (SPL _ _ E) as [E'|[-> ->]]; [apply H; auto|]. split; lia.
Qed.

(** C72: the first of the smallest is taken, the others stay in order. *)
Theorem smallest_ok : forall v, rv_tasks v <> [] ->
  exists t a b v', rv_remove_smallest v = Ok (t, v') /\ rv_tasks v = a ++ t :: b /\ rv_tasks v' = a ++ b /\
    (forall x, In x a -> t_reccnt t < t_reccnt x) /\ (forall x, In x b -> t_reccnt t <= t_reccnt x).
Proof.
  intros v NE. unfold rv_remove_smallest. destruct (rv_tasks v) as [|t0 ts] eqn:T; [congruence|]. cbv zeta.
  destruct (smallest_loop_ok ts [t0] (t_reccnt t0) 0) as (t & T1 & T2).
  - discriminate.
  - exists t0. auto.
  - intros [|j] x E; cbn in E; [inversion E; subst; split; intros; lia|destruct j; discriminate].
  - cbn [length app] in T1, T2. set (idx := smallest_loop ts 1 (t_reccnt t0) 0) in *. rewrite T1.
    assert (SP : forall (l : list task) i x, nth_error l i = Some x ->
      l = firstn i l ++ x :: skipn (S i) l /\ remove_at i l = firstn i l ++ skipn (S i) l).
    { induction l as [|y l IH]; intros [|i] x E; cbn in E; try discriminate.
      - inversion E; subst. auto.
      - destruct (IH _ _ E) as [A B]. cbn. split; f_equal; auto. }
    destruct (SP _ _ _ T1) as [S1 S2]. eexists t, (firstn idx (t0 :: ts)), (skipn (S idx) (t0 :: ts)), _.
    split; [reflexivity|]. split; [exact S1|]. split; [exact S2|].
    assert (LI : idx < length (t0 :: ts)) by (apply nth_error_Some; congruence).
    split; intros x I; apply In_nth_error in I as [j J].
    + assert (j < length (firstn idx (t0 :: ts))) by (apply nth_error_Some; congruence). rewrite firstn_length in H.
      apply (T2 j x); [|lia]. rewrite S1, nth_error_app1; [exact J|rewrite firstn_length; lia].
    + apply (T2 (idx + S j) x). rewrite S1, nth_error_app2; rewrite firstn_length; [|lia].
      replace (idx + S j - Nat.min idx (length (t0 :: ts))) with (S j) by lia. exact J.
Qed.

(** ** The planner *)

Definition single (t : task) : Prop := exists s, t_sources t = [s].

Lemma pair_single : forall C i src state acc, Forall single acc -> Forall single (snd (pair_tasks C i src state acc)).
Proof.
  induction i as [|i IH]; intros src state acc F; cbn [pair_tasks]; auto.
  destruct (S i <=? src); auto. apply IH. apply Forall_app. split; auto. constructor; auto. exists i. auto.
Qed.

Lemma add_all : forall ts v, Forall single ts -> exact v ->
  let v' := fold_left (fun v t => rv_add (hd 0 (t_sources t)) (t_target t) (t_reccnt t) v) ts v in
  rv_tasks v' = rv_tasks v ++ ts /\ exact v'.
Proof.
  induction ts as [|t ts IH]; intros v F X; cbn; [rewrite app_nil_r; auto|].
  inversion F as [|? ? [s S] F']; subst. destruct (IH (rv_add (hd 0 (t_sources t)) (t_target t) (t_reccnt t) v) F') as [A B].
  - eapply (vexec_exact (VAdd _ _ _)); eauto; [exact Logic.I|reflexivity].
  - split; auto. rewrite A. cbn [rv_add rv_tasks]. rewrite <- app_assoc. cbn. do 2 f_equal. destruct t as [ss tt n]. cbn in *. rewrite S. auto.
Qed.

Lemma add_all_tasks : forall ts v, let v' := fold_left (fun v t => rv_add_task t v) ts v in
  rv_tasks v' = rv_tasks v ++ ts /\ rv_total v' = rv_total v.
Proof.
  induction ts as [|t ts IH]; intros v; cbn; [rewrite app_nil_r; auto|].
  destruct (IH (rv_add_task t v)) as [A B]. split; [rewrite A; cbn; rewrite <- app_assoc; auto|rewrite B; auto].
Qed.

(** C72: the vector has the planned tasks; its total is right except under BSM, where
    it is 0. *)
Theorem plan_total : forall {R} (C : cfg) (st : structure R) n v, plan_vec C st n = Ok v ->
  (exists state, get_tasks C st n = Ok (state, rv_tasks v)) /\
  (c_layout C <> BSM -> rv_total v = (sizes (rv_tasks v) mod w64)%N) /\
  (c_layout C = BSM -> rv_total v = 0%N).
Proof.
  intros R C st n v E. unfold plan_vec in E. destruct (get_tasks C st n) as [[state ts]|] eqn:G; [|discriminate].
  cbn [bind] in E. inversion E; subst. unfold add_planned.
  assert (S : c_layout C <> BSM -> Forall single ts).
  { intro NB. unfold get_tasks in G.
    assert (Q : forall state1 ts1, (if can_reconstruct_with C 0 n (st_state st) then Ok (st_state st, []) else tasks_from_level C st 0 (st_state st)) = Ok (state1, ts1) -> Forall single ts1).
    { intros state1 ts1 Q. destruct (can_reconstruct_with C 0 n (st_state st)); [inversion Q; constructor|].
      unfold tasks_from_level in Q. destruct (find_target C 0 (st_state st)) as [o|]; [|discriminate]. cbn [bind] in Q.
      destruct (match o with Some b => (st_state st, b) | None => grow C st (st_state st) end) as [s1 base].
      destruct (c_layout C); try congruence;
        (pose proof (pair_single C base 0 s1 [] (Forall_nil _)) as P; injection Q as Q; rewrite Q in P; exact P). }
    destruct (if can_reconstruct_with C 0 n (st_state st) then Ok (st_state st, []) else tasks_from_level C st 0 (st_state st)) as [[s1 t1]|] eqn:Q1; [|discriminate].
    cbn [bind] in G. destruct (nth_error s1 0); [|discriminate]. inversion G; subst. eapply Q; eauto. }
  destruct (c_layout C) eqn:L.
  all: try (destruct (add_all ts rv_empty) as [A B]; [apply S; discriminate|apply empty_exact|];
    split; [exists state; rewrite A; auto|split; [intros _; exact B|discriminate]]).
  destruct (add_all_tasks ts rv_empty) as [A B]. split; [exists state; rewrite A; auto|]. split; [congruence|]. intros _. rewrite B. auto.
Qed.

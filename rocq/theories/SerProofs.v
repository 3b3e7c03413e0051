(** The scheduler that runs jobs at once. *)
From Coq Require Import List Arith Lia Bool.
From Verif Require Import Base SerModel SerSpec.
Import ListNotations.

Section JobInd.
Variable P : job -> Prop.
Hypothesis H : forall n t b, Forall P b -> P (Job n t b).
Fixpoint job_ind2 (j : job) : P j :=
  match j with
  | Job n t b => H n t b ((fix go l := match l return Forall P l with [] => Forall_nil _ | x :: l' => Forall_cons _ (job_ind2 x) (go l') end) b)
  end.
End JobInd.

Lemma schedule_eq : forall n t b s, schedule_job (Job n t b) s =
  (do s2 <- schedule_all b (emit (EBegin (r_counter s) n) (Ser (S (r_counter s)) (r_trace s) (r_cnt1 s) (r_cnt2 s)));
   log_time t (emit (EEnd (r_counter s) n) s2)).
Proof. intros. cbn [schedule_job]. f_equal. Qed.

Lemma nesting_app : forall l m st, nesting (l ++ m) st = match nesting l st with Some st' => nesting m st' | None => None end.
Proof.
  induction l as [|[ts n|ts n] l IH]; intros m st; cbn; auto. destruct st as [|[ts' n'] st]; auto.
  destruct ((ts =? ts') && (n =? n')); auto.
Qed.

Lemma started_app : forall l m, started (l ++ m) = started l ++ started m.
Proof. intros. unfold started. apply flat_map_app. Qed.

(** What the call of [j] adds. *)
Definition ran (ns : list nat) (c1 c2 : nat) (s s' : ser) : Prop :=
  r_counter s' = r_counter s + length ns /\
  r_cnt1 s' = r_cnt1 s + c1 /\ r_cnt2 s' = r_cnt2 s + c2 /\
  exists l, r_trace s' = r_trace s ++ l /\ started l = combine (seq (r_counter s) (length ns)) ns /\
    forall st, nesting l st = Some st.

Lemma combine_app : forall {A B} (a a' : list A) (b b' : list B), length a = length b -> combine (a ++ a') (b ++ b') = combine a b ++ combine a' b'.
Proof. induction a; intros a' [|y b] b' L; cbn in *; try discriminate; auto. f_equal. auto. Qed.

Lemma ran_trans : forall n1 n2 a1 a2 b1 b2 s s1 s2, ran n1 a1 b1 s s1 -> ran n2 a2 b2 s1 s2 -> ran (n1 ++ n2) (a1 + a2) (b1 + b2) s s2.
Proof.
  intros n1 n2 a1 a2 b1 b2 s s1 s2 (A1 & A2 & A3 & l & A4 & A5 & A6) (B1 & B2 & B3 & m & B4 & B5 & B6).
  rewrite A1 in B5. unfold ran. rewrite app_length. repeat split; try lia. exists (l ++ m). split; [rewrite B4, A4, app_assoc; auto|]. split.
  - rewrite started_app, A5, B5, seq_app, combine_app; auto. rewrite seq_length. auto.
  - intro st. rewrite nesting_app, A6. auto.
Qed.

Lemma runs : forall j, typed_ok j -> forall s, exists s', schedule_job j s = Ok s' /\ ran (names j) (typed 1 j) (typed 2 j) s s'.
Proof.
  intro j. induction j as [n t b IH] using job_ind2. intros T s. inversion T as [? ? ? TY TB]; subst.
  assert (A : forall s, exists s', schedule_all b s = Ok s' /\ ran (flat_map names b) (list_sum (map (typed 1) b)) (list_sum (map (typed 2) b)) s s').
  { clear T s. induction b as [|j b IHb]; intro s.
    - exists s. split; auto. split; [cbn; lia|]. split; [cbn; lia|]. split; [cbn; lia|]. exists []. rewrite app_nil_r. auto.
    - inversion IH; inversion TB; subst. destruct (H1 H5 s) as (s1 & E1 & R1). destruct (IHb H2 H6 s1) as (s2 & E2 & R2).
      exists s2. cbn [schedule_all]. rewrite E1. cbn [bind]. split; auto. cbn [flat_map map list_sum fold_right]. eapply ran_trans; eauto. }
  rewrite schedule_eq. set (s1 := emit _ _). destruct (A s1) as (s2 & E & (R1 & R2 & R3 & l & R4 & R5 & R6)). rewrite E. cbn [bind].
  assert (TR : r_trace s1 = r_trace s ++ [EBegin (r_counter s) n]) by reflexivity. assert (C1 : r_counter s1 = S (r_counter s)) by reflexivity.
  assert (C2 : r_cnt1 s1 = r_cnt1 s) by reflexivity. assert (C3 : r_cnt2 s1 = r_cnt2 s) by reflexivity.
  assert (TT : forall s', r_trace s' = r_trace s2 ++ [EEnd (r_counter s) n] -> exists l, r_trace s' = r_trace s ++ l /\
     started l = combine (seq (r_counter s) (length (names (Job n t b)))) (names (Job n t b)) /\ forall st, nesting l st = Some st).
  { intros s' E'. exists (EBegin (r_counter s) n :: l ++ [EEnd (r_counter s) n]). split; [|split].
    - rewrite E', R4, TR, <- !app_assoc. auto.
    - change (EBegin (r_counter s) n :: l ++ [EEnd (r_counter s) n]) with ([EBegin (r_counter s) n] ++ l ++ [EEnd (r_counter s) n]).
      rewrite !started_app, R5, C1. cbn. rewrite app_nil_r. auto.
    - intro st. cbn [nesting]. rewrite nesting_app, R6. cbn. rewrite !Nat.eqb_refl. auto. }
  assert (LN : length (names (Job n t b)) = S (length (flat_map names b))) by reflexivity.
  assert (T1 : forall k, typed k (Job n t b) = (if t =? k then 1 else 0) + list_sum (map (typed k) b)) by reflexivity.
  destruct TY as [-> | ->]; cbn [log_time]; eexists; (split; [reflexivity|]); unfold ran; rewrite !T1, LN; cbn [Nat.eqb r_counter r_cnt1 r_cnt2 emit];
    (split; [lia|]); (split; [lia|]); (split; [lia|]); apply TT; reflexivity.
Qed.

(** C73 *)
Theorem serial_runs : forall l, Forall typed_ok l -> exists s, schedule_all l ser_init = Ok s /\
  started (r_trace s) = combine (seq 0 (length (flat_map names l))) (flat_map names l) /\
  nesting (r_trace s) [] = Some [] /\
  r_cnt1 s = list_sum (map (typed 1) l) /\ r_cnt2 s = list_sum (map (typed 2) l).
Proof.
  assert (A : forall l, Forall typed_ok l -> forall s, exists s', schedule_all l s = Ok s' /\ ran (flat_map names l) (list_sum (map (typed 1) l)) (list_sum (map (typed 2) l)) s s').
  { induction l as [|j l IH]; intros F s.
    - exists s. split; auto. split; [cbn; lia|]. split; [cbn; lia|]. split; [cbn; lia|]. exists []. rewrite app_nil_r. auto.
    - inversion F; subst. destruct (runs j H1 s) as (s1 & E1 & R1). destruct (IH H2 s1) as (s2 & E2 & R2).
      exists s2. cbn [schedule_all]. rewrite E1. cbn [bind]. split; auto. cbn [flat_map map list_sum fold_right]. eapply ran_trans; eauto. }
  intros l F. destruct (A l F ser_init) as (s & E & (R1 & R2 & R3 & m & R4 & R5 & R6)). exists s. split; auto.
  cbn in R4. rewrite R4. auto.
Qed.

(** Between two calls nothing is running. *)
Theorem serial_blocks : forall l j, Forall typed_ok l -> typed_ok j -> exists s s', schedule_all l ser_init = Ok s /\ schedule_job j s = Ok s' /\
  exists m, r_trace s' = r_trace s ++ m /\ nesting m [] = Some [] /\ map snd (started m) = names j.
Proof.
  intros l j F T. destruct (serial_runs l F) as (s & E & _). destruct (runs j T s) as (s' & E' & (R1 & _ & _ & m & R4 & R5 & R6)).
  exists s, s'. split; auto. split; auto. exists m. split; auto. split; auto. rewrite R5. clear.
  generalize (r_counter s) as k. induction (names j); intro k; cbn; auto. f_equal. auto.
Qed.

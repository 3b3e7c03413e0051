From Coq Require Import List Arith Lia Bool.
From Verif Require Import StatModel.
Import ListNotations.

Lemma set_nth_split : forall {A} (l : list A) n x y, nth_error l n = Some y ->
  exists l1 l2, l = l1 ++ y :: l2 /\ set_nth n x l = l1 ++ x :: l2 /\ length l1 = n.
Proof.
  induction l as [|a l IH]; intros [|n] x y N; cbn in *; try discriminate.
  - inversion N; subst. exists [], l. auto.
  - destruct (IH _ x _ N) as (l1 & l2 & -> & -> & L). exists (a :: l1), l2. cbn. auto.
Qed.

Definition counted (c : nat * lpc) : nat := match snd c with LCnt => 0 | _ => 1 end.
Definition added (c : nat * lpc) : nat := match snd c with LCnt | LTotal => 0 | _ => fst c end.

Lemma sum_app : forall l1 l2, list_sum (l1 ++ l2) = list_sum l1 + list_sum l2.
Proof. unfold list_sum. induction l1; cbn; intros; auto. rewrite IHl1. lia. Qed.

Lemma sum_cons : forall a l, list_sum (a :: l) = a + list_sum l.
Proof. reflexivity. Qed.

Record ainv (s : stat) : Prop := {
  a_i_cnt : a_cnt s = list_sum (map counted (a_calls s));
  a_i_total : a_total s = list_sum (map added (a_calls s));
  a_i_max : a_max s = 0 \/ In (a_max s) (durations s)
}.

Lemma ainv_step : forall s x s', ainv s -> sexec s x = Some s' -> ainv s'.
Proof.
  intros s x s' [C T M] E. destruct x as [n|c]; cbn [sexec] in E.
  - inversion E; subst; constructor; cbn.
    + rewrite map_app, sum_app, C. cbn. lia.
    + rewrite map_app, sum_app, T. cbn. lia.
    + unfold durations in *. cbn. rewrite map_app, in_app_iff. intuition.
  - destruct (nth_error (a_calls s) c) as [[n p]|] eqn:N; [|discriminate].
    assert (X : forall q, exists l1 l2, a_calls s = l1 ++ (n, p) :: l2 /\ set_nth c (n, q) (a_calls s) = l1 ++ (n, q) :: l2).
    { intro q. destruct (set_nth_split _ _ (n, q) _ N) as (l1 & l2 & A & B & _). eauto. }
    assert (G : forall q cnt total mx, cnt + counted (n, p) = a_cnt s + counted (n, q) ->
      total + added (n, p) = a_total s + added (n, q) -> (mx = a_max s \/ mx = n) ->
      ainv (Stat cnt total mx (set_nth c (n, q) (a_calls s)))).
    { intros q cnt total mx G1 G2 G3. destruct (X q) as (l1 & l2 & A & B).
      rewrite A, map_app, sum_app in C, T. cbn [map] in C, T. rewrite sum_cons in C, T.
      constructor; cbn [a_cnt a_total a_max a_calls]; rewrite ?B, ?map_app, ?sum_app; cbn [map]; rewrite ?sum_cons; try lia.
      unfold durations in *. cbn [a_calls]. rewrite ?B. rewrite A in M. rewrite map_app in *. cbn in *. destruct G3 as [->| ->]; auto.
      right. apply in_app_iff. cbn. auto. }
    destruct p; try destruct (a_max s <? n); inversion E; subst; apply G; auto; cbn; lia.
Qed.

Lemma ainv_reach : forall s, sreach s -> ainv s.
Proof.
  intros s H. induction H; [|eapply ainv_step; eauto]. constructor; cbn; auto.
Qed.

(** C52 *)
Theorem stat_exact : forall s, sreach s -> logged s ->
  a_cnt s = length (durations s) /\ a_total s = list_sum (durations s).
Proof.
  intros s H L. destruct (ainv_reach s H) as [C T _]. rewrite C, T. unfold durations, logged in *. clear - L.
  induction (a_calls s) as [|[n p] l IH]; cbn [map length]; auto. rewrite !sum_cons.
  rewrite (L n p (or_introl eq_refl)). cbn. destruct IH as [-> ->]; [intros m q I; apply (L m q); cbn; auto|]. auto.
Qed.

Theorem stat_max_real : forall s, sreach s -> a_max s = 0 \/ In (a_max s) (durations s).
Proof. intros s H. apply (a_i_max _ (ainv_reach s H)). Qed.

(** One at a time: calls that have ended are below the maximum, and one about to store is above it. *)
Definition sinv (s : stat) : Prop := forall n p, In (n, p) (a_calls s) ->
  match p with LEnd => n <= a_max s | LStore => a_max s < n | _ => True end.

Definition active (c : nat * lpc) : bool := match snd c with LEnd => false | _ => true end.

Lemma others_ended : forall (l1 l2 : list (nat * lpc)) a b, length (filter active (l1 ++ a :: l2)) <= 1 -> active a = true ->
  In b (l1 ++ l2) -> active b = false.
Proof.
  intros l1 l2 a b L A I. destruct (active b) eqn:B; auto. rewrite filter_app, app_length in L. cbn in L. rewrite A in L. cbn in L.
  assert (X : 0 < length (filter active (l1 ++ l2))).
  { assert (Y : In b (filter active (l1 ++ l2))) by (apply filter_In; auto). destruct (filter active (l1 ++ l2)); [contradiction|cbn; lia]. }
  rewrite filter_app, app_length in X. lia.
Qed.

Lemma serial_inv : forall s, serial s -> one_at_a_time s /\ sinv s.
Proof.
  intros s H. induction H as [|s x s' H [ONE IH] E O]; [split; [unfold one_at_a_time; cbn; lia|intros n p []]|]. split; auto.
  destruct x as [n|c]; cbn [sexec] in E.
  - inversion E; subst. intros m p I. cbn in I. apply in_app_iff in I as [I|[I|[]]]; [apply (IH m p I)|].
    inversion I; auto.
  - destruct (nth_error (a_calls s) c) as [[n p]|] eqn:N; [|discriminate].
    pose proof (IH n p (nth_error_In _ _ N)) as NP.
    assert (G : forall q mx cnt total, active (n, p) = true -> a_max s <= mx ->
      (match q with LEnd => n <= mx | LStore => mx < n | _ => True end) ->
      sinv (Stat cnt total mx (set_nth c (n, q) (a_calls s)))).
    { intros q mx cnt total AC G1 G2 m r I. cbn [a_calls a_max] in *.
      destruct (set_nth_split _ _ (n, q) _ N) as (l1 & l2 & A & B & _).
      rewrite B in I. assert (IN : (m, r) = (n, q) \/ In (m, r) (l1 ++ l2)).
      { apply in_app_iff in I as [I|[I|I]]; [right|left|right]; auto; apply in_app_iff; auto. }
      clear I. destruct IN as [I|I]; [inversion I; subst; auto|].
      assert (I2 : In (m, r) (a_calls s)).
      { rewrite A. apply in_app_iff in I as [I|I]; apply in_app_iff; cbn; auto. }
      specialize (IH m r I2). unfold one_at_a_time in ONE. rewrite A in ONE.
      pose proof (others_ended _ _ _ _ ONE AC I) as Z. destruct r; try discriminate Z. lia. }
    destruct p; try destruct (Nat.ltb_spec (a_max s) n); inversion E; subst; apply G; auto; cbn in *; lia.
Qed.

Theorem stat_max_serial : forall s, serial s -> logged s -> forall n, In n (durations s) -> n <= a_max s.
Proof.
  intros s H L n I. unfold durations in I. apply in_map_iff in I as ([m p] & <- & I). cbn.
  destruct (serial_inv s H) as [_ S]. specialize (S m p I). rewrite (L m p I) in S. auto.
Qed.

Lemma splay_reach : forall l s s', sreach s -> splay s l = Some s' -> sreach s'.
Proof.
  induction l as [|x l IH]; intros s s' H E; cbn in E; [inversion E; subst; auto|].
  destruct (sexec s x) eqn:X; [|discriminate]. eapply IH; [|eauto]. econstructor; eauto.
Qed.

Lemma stat_max_lost : forall l, match splay stat_init l with
    | Some s => forallb (fun c => negb (active c)) (a_calls s) && existsb (fun n => a_max s <? n) (durations s)
    | None => false end = true ->
  exists s, sreach s /\ logged s /\ exists n, In n (durations s) /\ a_max s < n.
Proof.
  intros l H. destruct (splay stat_init l) as [s|] eqn:E; [|discriminate]. exists s.
  apply andb_prop in H as [H1 H2]. split; [eapply splay_reach; [constructor|eauto]|]. split.
  - intros n p I. rewrite forallb_forall in H1. specialize (H1 _ I). destruct p; auto; discriminate.
  - apply existsb_exists in H2 as (n & I & L). exists n. split; auto. apply Nat.ltb_lt. auto.
Qed.

(** A schedule whose calls do not overlap. *)
Fixpoint splay1 (s : stat) (l : list sact) : option stat :=
  match l with
  | [] => Some s
  | x :: l' => match sexec s x with
               | Some s' => if length (filter active (a_calls s')) <=? 1 then splay1 s' l' else None
               | None => None
               end
  end.

Lemma splay1_serial : forall l s s', serial s -> splay1 s l = Some s' -> serial s'.
Proof.
  induction l as [|x l IH]; intros s s' H E; cbn in E; [inversion E; subst; auto|].
  destruct (sexec s x) as [s1|] eqn:X; [|discriminate].
  destruct (Nat.leb_spec (length (filter active (a_calls s1))) 1) as [L|L]; [|discriminate].
  eapply IH; [|eauto]. econstructor; eauto.
Qed.

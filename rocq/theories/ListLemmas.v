(** Facts about lists used by the proofs. *)
From Coq Require Import List Arith ZArith Lia Bool Permutation Sorted.
From Verif Require Import Base.
Import ListNotations.

Lemma bind_ok : forall {A B} (x : res A) (k : A -> res B) b,
  bind x k = Ok b -> exists a, x = Ok a /\ k a = Ok b.
Proof. intros A B [a|f] k b H; simpl in H; [eauto | discriminate]. Qed.

Ltac inv H := inversion H; subst; clear H.
Ltac mon H :=
  let a := fresh "a" in let E := fresh "E" in
  apply bind_ok in H; destruct H as (a & E & H).

Section L.
Context {A : Type}.

Lemma set_nth_length : forall i (x : A) l, length (set_nth i x l) = length l.
Proof. induction i; destruct l; simpl; auto. Qed.

Lemma nth_error_set_nth_eq : forall i (x : A) l,
  i < length l -> nth_error (set_nth i x l) i = Some x.
Proof. induction i; destruct l; simpl; intros; try lia; auto. apply IHi. lia. Qed.

Lemma nth_error_set_nth_neq : forall i j (x : A) l,
  i <> j -> nth_error (set_nth i x l) j = nth_error l j.
Proof.
  induction i; destruct l; destruct j; simpl; intros; auto; try congruence.
Qed.

Lemma set_nth_id : forall i (x : A) l, nth_error l i = Some x -> set_nth i x l = l.
Proof. induction i; destruct l; simpl; intros; try congruence. f_equal; auto. Qed.

Lemma set_nth_out : forall i (x : A) l, length l <= i -> set_nth i x l = l.
Proof. induction i; destruct l; simpl; intros; auto; try lia. f_equal; apply IHi; lia. Qed.

Lemma set_nth_split : forall i (x y : A) l,
  nth_error l i = Some y ->
  exists a b, l = a ++ y :: b /\ length a = i /\ set_nth i x l = a ++ x :: b.
Proof.
  induction i; destruct l; simpl; intros; try discriminate.
  - inv H. exists [], l. auto.
  - destruct (IHi x y l H) as (a' & b & -> & <- & E).
    exists (a :: a'), b. simpl. rewrite E. auto.
Qed.

Lemma set_nth_app_mid : forall (a : list A) x y b,
  set_nth (length a) x (a ++ y :: b) = a ++ x :: b.
Proof. induction a; simpl; intros; auto. f_equal; auto. Qed.

Lemma map_set_nth : forall {B} (f : A -> B) i x l,
  map f (set_nth i x l) = set_nth i (f x) (map f l).
Proof. induction i; destruct l; simpl; intros; auto. f_equal; auto. Qed.

Lemma nth_error_nth_default : forall (l : list A) i x d,
  nth_error l i = Some x -> nth i l d = x.
Proof. induction l; destruct i; simpl; intros; try discriminate; try congruence; eauto. Qed.

Lemma countb_app : forall p (l m : list A), countb p (l ++ m) = countb p l + countb p m.
Proof. induction l; simpl; intros; auto. rewrite IHl. lia. Qed.

Lemma countb_perm : forall p (l m : list A), Permutation l m -> countb p l = countb p m.
Proof. induction 1; simpl; lia. Qed.

Lemma countb_le : forall p (l : list A), countb p l <= length l.
Proof. induction l; simpl; auto. destruct (p a); lia. Qed.

Lemma countb_filter : forall p (l : list A), countb p l = length (filter p l).
Proof. induction l; simpl; auto. destruct (p a); simpl; lia. Qed.

Lemma countb_false_inv : forall p (l : list A), countb p l = 0 -> forall x, In x l -> p x = false.
Proof.
  induction l as [|y l IH]; simpl; intros H x; [tauto|].
  destruct (p y) eqn:E; [discriminate|]. intros [<-|Hx]; auto.
Qed.

Lemma countb_false : forall p (l : list A),
  (forall x, In x l -> p x = false) -> countb p l = 0.
Proof. induction l; simpl; intros; auto. rewrite H, IHl; auto. Qed.

Lemma countb_true : forall p (l : list A),
  (forall x, In x l -> p x = true) -> countb p l = length l.
Proof. induction l; simpl; intros; auto. rewrite H, IHl; auto. Qed.

Lemma countb_ext : forall p q (l : list A),
  (forall x, In x l -> p x = q x) -> countb p l = countb q l.
Proof. induction l; simpl; intros; auto. rewrite H, IHl; auto. Qed.

Lemma countb_rev : forall p (l : list A), countb p (rev l) = countb p l.
Proof. intros. apply countb_perm. apply Permutation_sym, Permutation_rev. Qed.

Lemma countb_pos : forall p (l : list A), 0 < countb p l <-> exists x, In x l /\ p x = true.
Proof.
  induction l; simpl; split; intros.
  - lia.
  - destruct H as (x & [] & _).
  - destruct (p a) eqn:E.
    + eauto.
    + simpl in H. apply IHl in H as (x & Hx & Hp). eauto.
  - destruct H as (x & [<-|Hx] & Hp).
    + rewrite Hp. lia.
    + destruct (p a); [lia|]. simpl. apply IHl. eauto.
Qed.

Lemma filter_rev : forall p (l : list A), filter p (rev l) = rev (filter p l).
Proof.
  induction l; simpl; auto. rewrite filter_app, IHl. simpl.
  destruct (p a); simpl; [reflexivity|apply app_nil_r].
Qed.

Lemma sum_list_app : forall a b, sum_list (a ++ b) = sum_list a + sum_list b.
Proof. induction a; simpl; intros; auto. unfold sum_list in *. simpl. rewrite IHa. lia. Qed.

End L.

Section L2.
Context {A : Type}.

Lemma length_concat_sum : forall (l : list (list A)),
  length (concat l) = sum_list (map (@length A) l).
Proof. induction l; simpl; auto. rewrite app_length, IHl. reflexivity. Qed.

Lemma concat_set_nth_perm : forall (cs : list (list A)) v w c,
  nth_error cs v = Some (w :: c) ->
  Permutation (concat cs) (w :: concat (set_nth v c cs)).
Proof.
  intros cs v w c H.
  destruct (set_nth_split v c (w :: c) cs H) as (a & b & -> & Hl & ->).
  rewrite !concat_app. simpl. apply Permutation_sym, Permutation_middle.
Qed.

Lemma nth_error_concat_in : forall (cs : list (list A)) v c x,
  nth_error cs v = Some c -> In x c -> In x (concat cs).
Proof.
  intros. apply in_concat. exists c. split; auto. eapply nth_error_In; eauto.
Qed.

Lemma in_set_nth : forall i (x y : A) l, In y (set_nth i x l) -> y = x \/ In y l.
Proof.
  induction i; destruct l; simpl; intros; auto.
  - destruct H; auto.
  - destruct H; auto. apply IHi in H. tauto.
Qed.

Lemma Forall_set_nth : forall (P : A -> Prop) i x l,
  Forall P l -> P x -> Forall P (set_nth i x l).
Proof.
  intros. apply Forall_forall. intros y Hy. apply in_set_nth in Hy as [->|Hy]; auto.
  rewrite Forall_forall in H. auto.
Qed.

Lemma map_res_ok : forall {B} (f : A -> res B) l l',
  map_res f l = Ok l' <-> Forall2 (fun x y => f x = Ok y) l l'.
Proof.
  induction l; simpl; intros; split; intros.
  - inv H. constructor.
  - inv H. reflexivity.
  - mon H. mon H. inv H. constructor; auto. apply IHl; auto.
  - inv H. rewrite H2. simpl. apply IHl in H4. rewrite H4. reflexivity.
Qed.

Lemma map_res_total : forall {B} (f : A -> res B) (g : A -> B) l,
  (forall x, In x l -> f x = Ok (g x)) -> map_res f l = Ok (map g l).
Proof.
  induction l; simpl; intros; auto. rewrite H by auto. simpl.
  rewrite IHl; auto.
Qed.

Lemma StronglySorted_app : forall (P : A -> A -> Prop) l m,
  StronglySorted P l -> StronglySorted P m ->
  (forall x y, In x l -> In y m -> P x y) -> StronglySorted P (l ++ m).
Proof.
  induction l; simpl; intros; auto. inv H. constructor.
  - apply IHl; auto.
  - apply Forall_app. split; auto. apply Forall_forall. intros. apply H1; auto.
Qed.

Lemma StronglySorted_app_inv : forall (P : A -> A -> Prop) l m,
  StronglySorted P (l ++ m) ->
  StronglySorted P l /\ StronglySorted P m /\ (forall x y, In x l -> In y m -> P x y).
Proof.
  induction l; simpl; intros.
  - repeat split; auto. constructor. intros ? ? [].
  - inv H. apply IHl in H2 as (H & H' & H''). apply Forall_app in H3 as [F1 F2].
    repeat split; auto. constructor; auto.
    intros x y [<-|Hx] Hy; auto. rewrite Forall_forall in F2. auto.
Qed.

Lemma StronglySorted_mono : forall (P Q : A -> A -> Prop) l, (forall a b, P a b -> Q a b) ->
  StronglySorted P l -> StronglySorted Q l.
Proof. induction 2; constructor; auto. eapply Forall_impl; [|exact H1]. auto. Qed.

Lemma StronglySorted_filter : forall (P : A -> A -> Prop) p l,
  StronglySorted P l -> StronglySorted P (filter p l).
Proof.
  induction l; simpl; intros; auto. inv H. destruct (p a); auto.
  constructor; auto. apply Forall_forall. intros x Hx. apply filter_In in Hx as [Hx _].
  rewrite Forall_forall in H3. auto.
Qed.

Lemma Forall_concat : forall (P : A -> Prop) l, Forall (Forall P) l <-> Forall P (concat l).
Proof.
  induction l; simpl; split; intros; auto.
  - inv H. apply Forall_app. split; auto. apply IHl; auto.
  - apply Forall_app in H as [H1 H2]. constructor; auto. apply IHl; auto.
Qed.

Lemma filter_all : forall (p : A -> bool) l, (forall x, In x l -> p x = true) -> filter p l = l.
Proof. induction l; simpl; intros; auto. rewrite H by auto. f_equal; auto. Qed.

Lemma filter_none : forall (p : A -> bool) l, (forall x, In x l -> p x = false) -> filter p l = [].
Proof. induction l; simpl; intros; auto. rewrite H by auto. auto. Qed.

Lemma Permutation_filter : forall (p : A -> bool) l m,
  Permutation l m -> Permutation (filter p l) (filter p m).
Proof.
  induction 1; simpl; auto.
  - destruct (p x); auto.
  - destruct (p x), (p y); auto. apply perm_swap.
  - eapply perm_trans; eauto.
Qed.
End L2.

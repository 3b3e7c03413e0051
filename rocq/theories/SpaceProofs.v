(** The free space of a buffer. *)
From Coq Require Import List Arith ZArith NArith Lia Bool.
From Verif Require Import Base ListLemmas RecordModel BufferModel BufMoreModel BufSpec SpaceSpec BufferProofs BufSeqProofs.
Import ListNotations.

Section SP.
Context {R : Type} {RO : RecOps R}.
Notation hd b := (hidx (b_head b)).
Notation od b := (hidx (b_old b)).
Notation cnt vs x := (count_occ Nat.eq_dec vs x).
Implicit Types (b : buffer R) (vs : list nat).

Record sinv b (h : nat) vs : Prop := {
  s_hd : hd b = h;
  s_old : href (b_old b) = cnt vs (od b);
  s_cur : href (b_head b) = cnt vs (hd b);
  s_ne : od b <> hd b;
  s_in : forall x, In x vs -> x = od b \/ x = hd b;
  s_ord : od b < hd b \/ href (b_old b) = 0;
  s_tail : hd b <= b_tail b /\ b_tail b <= hd b + b_hwm b;
  s_near : od b < hd b -> hd b <= od b + b_hwm b;
  s_len : length (b_data b) = b_cap b
}.

Lemma drop_cnt : forall x y vs, In x vs -> cnt (drop_one x vs) y = cnt vs y - (if x =? y then 1 else 0).
Proof.
  intros x y vs. induction vs as [|z vs IH]; intros I; [contradiction|]. cbn [drop_one].
  destruct (Nat.eqb_spec z x) as [->|N].
  - cbn [count_occ]. destruct (Nat.eq_dec x y) as [->|N']; [rewrite Nat.eqb_refl; lia|].
    destruct (Nat.eqb_spec x y); [congruence|lia].
  - destruct I as [->|I]; [congruence|]. cbn [count_occ]. rewrite IH by auto. destruct (Nat.eq_dec z y) as [->|N']; [|auto].
    destruct (Nat.eqb_spec x y); [congruence|lia].
Qed.

Lemma drop_in : forall x y vs, In y (drop_one x vs) -> In y vs.
Proof.
  intros x y vs. induction vs as [|z vs IH]; cbn; auto. destruct (z =? x); auto. intros [->|I]; auto.
Qed.

Lemma cnt_in : forall x vs, In x vs -> 0 < cnt vs x.
Proof. intros. apply count_occ_In. auto. Qed.

Lemma cnt_out : forall x vs, ~ In x vs -> cnt vs x = 0.
Proof. intros. apply count_occ_not_In. auto. Qed.

Definition hwm_cap b b' : Prop := b_hwm b' = b_hwm b /\ b_cap b' = b_cap b.

Lemma step_sinv : forall b h vs o b' x, sinv b h vs -> bexec b o = Ok (b', x) ->
  polite h vs [o] [x] -> hwm_cap b b' /\
  sinv b' (match o with BAdv n => if x =? 1 then n else h | _ => h end) (views vs [o]).
Proof.
  intros b h vs o b' x I E P. destruct I as [I1 I2 I3 I4 I5 I6 I7 I8 I9]. unfold hwm_cap. subst h.
  destruct o as [r ts|n|y|y]; cbn [bexec views] in *; cbn [polite] in P.
  - unfold buf_append in E. destruct (Nat.leb_spec (b_hwm b) (b_tail b - hd b)); inversion E; subst.
    + split; auto. constructor; auto.
    + split; auto. constructor; cbn in *; auto; try lia. rewrite set_nth_length. auto.
  - unfold buf_advance_head in E.
    destruct (negb (hd b <? n)) eqn:E1; [discriminate|]. apply negb_false_iff, Nat.ltb_lt in E1.
    destruct (negb (n <=? b_tail b)) eqn:E2; [discriminate|]. apply negb_false_iff, Nat.leb_le in E2.
    destruct (0 <? href (b_old b)) eqn:Z; cbn in E; inversion E; subst; cbn [Nat.eqb].
    + split; auto. constructor; auto.
    + apply Nat.ltb_ge in Z. split; auto.
      assert (O : forall y, In y vs -> y = hd b).
      { intros y IY. destruct (I5 y IY) as [-> | ->]; auto. pose proof (cnt_in _ _ IY). lia. }
      constructor; cbn; auto; try lia. rewrite cnt_out; auto. intro Q. specialize (O _ Q). lia.
  - unfold buf_get_view, buf_get_head in E. destruct P as [P _].
    destruct (Nat.eqb_spec (od b) y) as [<-|N1]; [|destruct (Nat.eqb_spec (hd b) y) as [<-|N2]; [|discriminate]]; cbn in E; inversion E; subst; (split; [auto|]).
    + constructor; cbn; auto; try lia.
      * destruct (Nat.eq_dec (od b) (od b)); lia.
      * destruct (Nat.eq_dec (od b) (hd b)); [congruence|auto].
      * intros z [<-|Z]; auto.
    + constructor; cbn; auto; try lia.
      * destruct (Nat.eq_dec (hd b) (od b)); [congruence|auto].
      * destruct (Nat.eq_dec (hd b) (hd b)); lia.
      * intros z [<-|Z]; auto.
  - unfold buf_release in E. destruct P as [P _].
    destruct (Nat.eqb_spec (od b) y) as [<-|N1].
    + destruct (href (b_old b)) as [|k] eqn:K; [discriminate|]. cbn in E. inversion E; subst. split; [auto|].
      constructor; cbn; auto; try lia.
      * rewrite drop_cnt by auto. rewrite Nat.eqb_refl. lia.
      * rewrite drop_cnt by auto. destruct (Nat.eqb_spec (od b) (hd b)); [congruence|lia].
      * intros z Z. apply drop_in in Z. auto.
    + destruct (I5 y P) as [Q|Q]; [congruence|]. subst y.
      destruct (href (b_head b)) as [|k] eqn:K; [discriminate|]. cbn in E. inversion E; subst. split; [auto|].
      constructor; cbn; auto; try lia.
      * rewrite drop_cnt by auto. destruct (Nat.eqb_spec (hd b) (od b)); [congruence|lia].
      * rewrite drop_cnt by auto. rewrite Nat.eqb_refl. lia.
      * intros z Z. apply drop_in in Z. auto.
Qed.

Lemma run_sinv : forall ops b h vs b' rs, sinv b h vs -> brun b ops = Ok (b', rs) -> polite h vs ops rs ->
  hwm_cap b b' /\ sinv b' (head_after h ops rs) (views vs ops).
Proof.
  induction ops as [|o ops IH]; intros b h vs b' rs I E P; cbn [brun] in E.
  - inversion E; subst. split; [split; auto|auto].
  - destruct (bexec b o) as [[b1 x]|] eqn:X; cbn [bind] in E; [|discriminate].
    destruct (brun b1 ops) as [[b2 xs]|] eqn:Y; cbn [bind] in E; [|discriminate]. inversion E; subst.
    assert (X1 : x <= 1).
    { destruct o; cbn [bexec] in X.
      - unfold buf_append in X. destruct (_ <=? _); inversion X; auto.
      - destruct (buf_advance_head b n) as [[? []]|]; cbn in X; inversion X; auto.
      - destruct (buf_get_view b h0) as [[? ?]|]; cbn in X; inversion X; auto.
      - destruct (buf_release b h0); cbn in X; inversion X; auto. }
    assert (P1 : polite h vs [o] [x]).
    { destruct o; cbn in *; auto; try (destruct x as [|[|x]]; auto); try (destruct P; split; auto). }
    destruct (step_sinv _ _ _ _ _ _ I X P1) as [[H1 H2] I'].
    assert (P2 : polite (match o with BAdv n => if x =? 1 then n else h | _ => h end) (views vs [o]) ops xs).
    { destruct o; cbn in *; auto; try tauto; destruct x as [|[|x]]; cbn; auto; lia. }
    destruct (IH _ _ _ _ _ I' Y P2) as [[H3 H4] I2]. split; [split; congruence|].
    destruct o; cbn in *; auto; destruct x as [|[|x]]; cbn in *; auto; lia.
Qed.

Lemma create_sinv : forall lwm hwm cap b, 0 < hwm -> buf_create lwm hwm cap = Ok b ->
  sinv b 0 [] /\ b_hwm b = hwm /\ b_cap b = (if cap =? 0 then 2 * hwm else cap).
Proof.
  intros lwm hwm cap b H E. unfold buf_create in E. set (c := if cap =? 0 then 2 * hwm else cap) in *.
  destruct (_ && _); inversion E; subst. split; [|auto]. constructor; cbn; auto; try lia.
  rewrite repeat_length. auto.
Qed.

(** C75 *)
Theorem space : forall lwm hwm cap b0 ops b rs, 0 < hwm -> buf_create lwm hwm cap = Ok b0 -> brun b0 ops = Ok (b, rs) ->
  2 * hwm <= b_cap b0 -> polite 0 [] ops rs ->
  let held := views [] ops in let h := head_after 0 ops rs in let n := length (appended ops rs) in
  exists o, (o = h \/ In o held) /\ o <= h /\ (forall x, In x held -> o <= x) /\
  n - o <= b_cap b0 /\ buf_available b = b_cap b0 - (n - o).
Proof.
  intros lwm hwm cap b0 ops b rs HW C E B P held h n.
  destruct (create_sinv _ _ _ _ HW C) as (I0 & EH & EC).
  destruct (run_sinv _ _ _ _ _ _ I0 E P) as [[H1 H2] [I1 I2 I3 I4 I5 I6 I7 I8 I9]].
  pose proof (run_inv _ _ _ _ _ _ (create_inv _ _ _ _ C) E) as BI. pose proof (v_tail_eq _ _ _ BI) as TE. cbn [app] in TE.
  fold n in TE. fold h in I1. fold held in I2, I3, I5. unfold buf_available. rewrite H2, TE in *. rewrite H1, EH in *. rewrite I1 in *.
  destruct (Nat.eqb_spec (href (b_old b)) 0) as [Z|Z].
  - exists h. split; [auto|]. split; [auto|]. split; [|split; [lia|auto]].
    intros x X. destruct (I5 x X) as [-> | ->]; [|auto]. pose proof (cnt_in _ _ X). lia.
  - assert (O : In (od b) held) by (apply (count_occ_In Nat.eq_dec); lia).
    assert (OH : od b < h) by (destruct I6; [lia|congruence]). specialize (I8 OH).
    exists (od b). split; [auto|]. split; [lia|]. split; [|split; [lia|auto]].
    intros x X. destruct (I5 x X) as [-> | ->]; lia.
Qed.

Theorem space64 : forall lwm hwm cap b0 ops b rs, 0 < hwm -> buf_create lwm hwm cap = Ok b0 -> brun b0 ops = Ok (b, rs) ->
  2 * hwm <= b_cap b0 -> polite 0 [] ops rs -> (N.of_nat (b_cap b0) < 2 ^ 64)%N ->
  buf_available64 b = N.of_nat (buf_available b).
Proof.
  intros lwm hwm cap b0 ops b rs HW C E B P LT.
  destruct (create_sinv _ _ _ _ HW C) as (I0 & EH & EC).
  destruct (run_sinv _ _ _ _ _ _ I0 E P) as [[H1 H2] [I1 I2 I3 I4 I5 I6 I7 I8 I9]].
  unfold buf_available64, buf_available. cbv zeta. rewrite <- H2 in *.
  assert (G : forall o, o <= b_tail b -> b_tail b - o <= b_cap b ->
    ((N.of_nat (b_cap b) + 2 ^ 64 - sub64 (b_tail b) o) mod 2 ^ 64)%N = N.of_nat (b_cap b - (b_tail b - o))).
  { intros o O1 O2. unfold sub64. destruct (Nat.leb_spec o (b_tail b)); [|lia].
    set (W := (2 ^ 64)%N) in *. assert (WP : (W <> 0)%N) by discriminate. clearbody W.
    replace (N.of_nat (b_cap b) + W - N.of_nat (b_tail b - o))%N with (N.of_nat (b_cap b - (b_tail b - o)) + 1 * W)%N by lia.
    rewrite N.mod_add by auto. apply N.mod_small. lia. }
  destruct (Nat.eqb_spec (href (b_old b)) 0) as [Z|Z]; apply G; try lia.
Qed.

(** Appends do not write the positions from [lo] on while they fit. *)
Lemma appends_keep : forall l b b' rs lo y, brun b (appends l) = Ok (b', rs) -> length (b_data b) = b_cap b -> 0 < b_cap b ->
  lo <= y < b_tail b -> b_tail b + length l <= lo + b_cap b ->
  nth_error (b_data b') (y mod b_cap b) = nth_error (b_data b) (y mod b_cap b).
Proof.
  induction l as [|[r ts] l IH]; intros b b' rs lo y E L CP Y B; cbn [appends map brun] in E.
  - inversion E; auto.
  - cbn [bexec bind fst snd] in E. destruct (buf_append b r ts) as [b1 x] eqn:A.
    change (map _ l) with (appends l) in E.
    destruct (brun b1 (appends l)) as [[b2 xs]|] eqn:Q; cbn [bind] in E; [|discriminate]. inversion E; subst.
    unfold buf_append in A. cbn [length] in B. destruct (_ <=? _); inversion A; subst.
    + eapply IH; eauto. lia.
    + eapply (IH _ _ _ lo y) in Q; cbn [b_data b_tail b_cap] in *; auto; try lia; [|rewrite set_nth_length; auto].
      rewrite Q. rewrite nth_error_set_nth_neq; auto. intro Z.
      pose proof (Nat.div_mod y (b_cap b) ltac:(lia)). pose proof (Nat.div_mod (b_tail b) (b_cap b) ltac:(lia)).
      assert (y / b_cap b = b_tail b / b_cap b \/ y / b_cap b < b_tail b / b_cap b) by (pose proof (Nat.div_le_mono y (b_tail b) (b_cap b) ltac:(lia) ltac:(lia)); lia).
      nia.
Qed.

Theorem space_safe : forall lwm hwm cap b0 ops b rs l b' rs' h y, 0 < hwm -> buf_create lwm hwm cap = Ok b0 -> brun b0 ops = Ok (b, rs) ->
  2 * hwm <= b_cap b0 -> polite 0 [] ops rs -> length l <= buf_available b -> brun b (appends l) = Ok (b', rs') ->
  h = head_after 0 ops rs \/ In h (views [] ops) -> h <= y < b_tail b ->
  nth_error (b_data b') (y mod b_cap b) = nth_error (b_data b) (y mod b_cap b).
Proof.
  intros lwm hwm cap b0 ops b rs l b' rs' h y HW C E B P LE E' H Y.
  destruct (space _ _ _ _ _ _ _ HW C E B P) as (o & O1 & O2 & O3 & O4 & O5).
  destruct (create_sinv _ _ _ _ HW C) as (I0 & EH & EC).
  destruct (run_sinv _ _ _ _ _ _ I0 E P) as [[H1 H2] I].
  pose proof (run_inv _ _ _ _ _ _ (create_inv _ _ _ _ C) E) as BI. pose proof (v_tail_eq _ _ _ BI) as TE. cbn [app] in TE.
  assert (OH : o <= h) by (destruct H as [-> |H]; auto).
  eapply (appends_keep l b b' rs' o); eauto; [apply (s_len _ _ _ I)|lia|lia|].
  rewrite TE in *. rewrite H2. pose proof (s_tail _ _ _ I). lia.
Qed.

End SP.

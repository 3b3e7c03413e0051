(** Proofs about range sampling and weighted sampling. *)
From Coq Require Import List Arith ZArith NArith Bool Lia Sorted.
From Verif Require Import Base RecordModel RecordProofs ListLemmas Spec ISAMModel ISAMProofs SampleModel SampleSpec.
Import ListNotations.

(** ** Distribution *)
Section Spread.
Variable alias : list nat -> nat -> nat.
Hypothesis AO : alias_contract alias.

Lemma sum_set_nth : forall l i n, nth_error l i = Some n -> sum_list (set_nth i (S n) l) = S (sum_list l).
Proof.
  induction l as [|x l IH]; intros [|i] n H; try discriminate; simpl in *.
  - injection H as ->. auto.
  - unfold sum_list in *. simpl. rewrite (IH i n H). lia.
Qed.

Lemma spread_ok weights : sum_list weights <> 0 -> forall s c sizes, length sizes = length weights ->
  exists sizes', spread alias s c weights sizes = Ok sizes' /\ length sizes' = length weights /\
    sum_list sizes' = sum_list sizes + s /\
    (forall j, nth_error weights j = Some 0 -> nth_error sizes' j = nth_error sizes j).
Proof.
  intros T. induction s as [|s IH]; intros c sizes L; simpl.
  - exists sizes. repeat split; auto.
  - destruct (AO weights c T) as (n & N & P). set (i := alias weights c) in *.
    assert (Hi : i < length sizes) by (rewrite L; apply nth_error_Some; congruence).
    unfold nth_res. destruct (nth_error sizes i) as [m|] eqn:M; [|apply nth_error_None in M; lia]. cbn [bind].
    destruct (IH (S c) (set_nth i (S m) sizes)) as (sizes' & E & L' & S' & Z).
    { now rewrite set_nth_length. }
    exists sizes'. split; auto. split; auto. rewrite (sum_set_nth _ _ _ M) in S'. split; [lia|].
    intros j J. rewrite (Z j J). apply nth_error_set_nth_neq. intros ->. rewrite N in J. injection J as ->. lia.
Qed.

(** The sample sizes of a round: nothing where the weight is zero. *)
Definition sizes_for (weights sizes : list nat) : Prop :=
  length sizes = length weights /\ forall j, nth_error weights j = Some 0 -> nth_error sizes j = Some 0.

Lemma nth_repeat0 n j : j < n -> nth_error (repeat 0 n) j = Some 0.
Proof. revert j. induction n; intros [|j] H; simpl; auto; try lia. apply IHn. lia. Qed.
Lemma sum_repeat0 n : sum_list (repeat 0 n) = 0.
Proof. induction n; auto. Qed.

Lemma distribute_ok s c weights : exists sizes, irs_distribute alias s c weights = Ok sizes /\
  sizes_for weights sizes /\ sum_list sizes = (if sum_list weights =? 0 then 0 else s).
Proof.
  unfold irs_distribute. destruct (Nat.eqb_spec (sum_list weights) 0) as [Z|Z].
  - eexists. split; [reflexivity|]. split; [|apply sum_repeat0]. split; [apply repeat_length|].
    intros j J. apply nth_repeat0. apply nth_error_Some. congruence.
  - destruct (spread_ok weights Z s c (repeat 0 (length weights))) as (sizes & E & L & S & J).
    { apply repeat_length. }
    exists sizes. split; auto. rewrite sum_repeat0 in S. split; auto. split; auto.
    intros j Hj. rewrite (J j Hj). apply nth_repeat0. apply nth_error_Some. congruence.
Qed.
End Spread.

(** ** Range sampling *)
Lemma sum_zero_in : forall (ns : list nat) n, sum_list ns = 0 -> In n ns -> n = 0.
Proof.
  induction ns as [|m ns IH]; intros n H I; [destruct I|]. unfold sum_list in H. simpl in H.
  destruct I as [->|I]; [lia|]. apply IH; auto. unfold sum_list. lia.
Qed.

Section IRS.
Context {R : Type} {RO : RecOps R} {RL : RecLaws R} {KO : KeyOps R} {KL : KeyLaws R}.
Variable rng : nat -> nat.
Variable alias : list nat -> nat -> nat.
Hypothesis AO : alias_contract alias.
Variables lbf ubf : list (wrapped R) -> Z -> res nat.
Hypothesis BE : bounds_exact lbf ubf.
Variables l u : Z.
Hypothesis LU : (l <= u)%Z.

Definition shard_ok (d : list (wrapped R)) : Prop := d <> [] /\ sorted d.
Notation cl d := (countb (fun w => (rkey (wrec w) <? l)%Z) d).
Notation cu d := (countb (fun w => (rkey (wrec w) <=? u)%Z) d).
Definition pre (d : list (wrapped R)) : irs_local := IL (cl d) (cu d) (if cl d =? length d then 0 else cu d - cl d).

Lemma preproc_ok d : shard_ok d -> irs_preproc lbf ubf l u d = Ok (pre d).
Proof.
  intros (NE & S). destruct (BE d l NE S) as (E & _), (BE d u NE S) as (_ & E').
  unfold irs_preproc, pre. rewrite E, E'. cbn [bind]. destruct (_ =? length d); auto.
  assert (Q : cl d <= cu d).
  { clear - LU. induction d as [|w d IH]; auto. unfold countb in *. cbn [filter].
    destruct (Z.ltb_spec (rkey (wrec w)) l), (Z.leb_spec (rkey (wrec w)) u); simpl; lia. }
  destruct (Nat.ltb_spec (cu d) (cl d)); [lia|reflexivity].
Qed.
Lemma preprocs_ok ds : Forall shard_ok ds -> map_res (irs_preproc lbf ubf l u) ds = Ok (map pre ds).
Proof. induction 1 as [|d ds H F IH]; simpl; auto. rewrite (preproc_ok d H), IH. reflexivity. Qed.

Lemma between d i w : sorted d -> cl d <= i < cu d -> nth_error d i = Some w -> in_range l u w = true.
Proof.
  intros S H E. pose proof (prefixed_count _ _ (sorted_lt_key l d S) i w E) as A.
  pose proof (prefixed_count _ _ (sorted_le_key u d S) i w E) as B. cbn beta in A, B.
  unfold in_range. apply andb_true_iff. split; [|apply B; lia].
  apply Z.leb_le. destruct (Z.ltb_spec (rkey (wrec w)) l) as [Q|Q]; auto.
  assert (i < cl d) by (apply A; reflexivity). lia.
Qed.

Definition good (ws : list (wrapped R)) (r : list (wrapped R)) : Prop :=
  forall w, In w r -> In w ws /\ in_range l u w = true.

Lemma draws_ok d : shard_ok d -> cl d < cu d -> forall n c,
  exists r, irs_draws rng n c d (pre d) = Ok r /\ good d r /\ length r = n.
Proof.
  intros (NE & S) H. induction n as [|n IH]; intros c; simpl.
  - exists []. repeat split; auto; destruct H0.
  - destruct (Nat.ltb_spec 0 (cu d - cl d)) as [_|]; [|lia].
    unfold draw. destruct (Nat.eqb_spec (cu d - cl d) 0); [lia|]. cbn [bind].
    set (x := rng c mod (cu d - cl d)). assert (x < cu d - cl d) by (apply Nat.mod_upper_bound; lia).
    pose proof (countb_le (fun w => (rkey (wrec w) <=? u)%Z) d) as CU.
    destruct (nth_error d (cl d + x)) as [w|] eqn:E; [|apply nth_error_None in E; lia].
    destruct (IH (Datatypes.S c)) as (r & -> & G & L). cbn [bind]. exists (w :: r). split; auto.
    split; [|simpl; lia]. intros y [<-|Y]; [|now apply G]. split; [eapply nth_error_In; eauto|].
    apply (between d (cl d + x)); auto. lia.
Qed.

Lemma local_ok d n c : shard_ok d -> (il_weight (pre d) = 0 -> n = 0) ->
  exists r, irs_local_query rng n c d (pre d) = Ok r /\ good d r /\ length r = n.
Proof.
  intros H Z. unfold irs_local_query. destruct (Nat.eqb_spec n 0) as [->|N].
  { exists []. simpl. repeat split; auto; destruct H0. }
  simpl in *. destruct (Nat.eqb_spec (cl d) (length d)) as [Q|Q]; [tauto|]. simpl.
  apply draws_ok; auto. lia.
Qed.

Lemma shards_ok : forall ds sizes c, Forall shard_ok ds -> sizes_for (map il_weight (map pre ds)) sizes ->
  exists r, irs_shards rng sizes c ds (map pre ds) = Ok r /\ good (concat ds) r /\ length r = sum_list sizes.
Proof.
  induction ds as [|d ds IH]; intros [|n sizes] c F (L & Z); try discriminate.
  - exists []. simpl. repeat split; auto; destruct H.
  - inversion F; subst. cbn [map irs_shards].
    destruct (local_ok d n c H1) as (a & -> & Ga & La).
    { intros Q. specialize (Z 0). simpl in Z. specialize (Z (f_equal Some Q)). congruence. }
    cbn [bind]. destruct (IH sizes (c + n) H2) as (b & -> & Gb & Lb).
    { simpl in L. injection L as L. split; auto. intros j J. apply (Z (S j)). auto. }
    cbn [bind]. exists (a ++ b). split; auto. split.
    + intros w W. apply in_app_or in W. simpl. rewrite in_app_iff. destruct W as [W|W].
      * destruct (Ga w W). auto.
      * destruct (Gb w W). auto.
    + rewrite app_length, La, Lb. reflexivity.
Qed.

Lemma buffer_ok pool : forall n c, (length pool = 0 -> n = 0) ->
  exists r, irs_buffer_query rng n c l u pool = Ok r /\ good pool r /\ length r <= n /\
    ((forall w, In w pool -> in_range l u w = true) -> length r = n).
Proof.
  induction n as [|n IH]; intros c H; simpl.
  - exists []. split; auto. split; [intros ? []|]. auto.
  - assert (length pool <> 0) by (intros Q; specialize (H Q); discriminate).
    unfold draw. destruct (Nat.eqb_spec (length pool) 0); [lia|]. cbn [bind].
    set (x := rng c mod length pool). assert (x < length pool) by (apply Nat.mod_upper_bound; lia).
    unfold nth_res. destruct (nth_error pool x) as [w|] eqn:E; [|apply nth_error_None in E; lia]. cbn [bind].
    destruct (IH (S c)) as (r & -> & G & L & X); [lia|]. cbn [bind].
    pose proof (nth_error_In _ _ E) as I. destruct (in_range l u w) eqn:Q.
    + exists (w :: r). split; auto. split; [|split; [simpl; lia|intros Y; simpl; rewrite X; auto]].
      intros y [<-|Y]; auto.
    + exists r. split; auto. split; auto. split; [lia|]. intros Y. rewrite (Y w I) in Q. discriminate.
Qed.

Variable ws : list (wrapped R).
Variable ds : list (list (wrapped R)).
Hypothesis DO : Forall shard_ok ds.
Variable rej : bool.
Notation pool := (irs_pool rej l u ws).
Notation weights := (length pool :: map il_weight (map pre ds)).

Lemma pool_in w : In w pool -> In w ws.
Proof. unfold irs_pool. destruct rej; auto. intros H. apply filter_In in H. tauto. Qed.

Definition all_fit : Prop := rej = false \/ ws = [].

Lemma round_ok sizes c : sizes_for weights sizes ->
  exists r, irs_round rng sizes c l u pool ds (map pre ds) = Ok r /\ good (ws ++ concat ds) r /\
    length r <= sum_list sizes /\ (all_fit -> length r = sum_list sizes).
Proof.
  intros (L & Z). destruct sizes as [|n sizes]; [discriminate|]. unfold irs_round.
  destruct (buffer_ok pool n c) as (a & -> & Ga & La & Xa).
  { intros Q. specialize (Z 0). simpl in Z. rewrite Q in Z. specialize (Z eq_refl). congruence. }
  cbn [bind]. destruct (shards_ok ds sizes (c + n) DO) as (b & -> & Gb & Lb).
  { simpl in L. injection L as L. split; auto. intros j J. apply (Z (S j)). auto. }
  cbn [bind]. exists (a ++ b). split; auto. split; [|split].
  - intros w W. rewrite in_app_iff. apply in_app_or in W. destruct W as [W|W].
    + destruct (Ga w W) as (P & Q). apply pool_in in P. auto.
    + destruct (Gb w W). auto.
  - rewrite app_length, Lb. unfold sum_list. simpl. lia.
  - intros AF. rewrite app_length, Lb, Xa; [reflexivity|]. intros w W. apply pool_in in W as W'. destruct AF as [AF|AF].
    + unfold irs_pool in W. rewrite AF in W. apply filter_In in W. tauto.
    + rewrite AF in W'. destruct W'.
Qed.

Lemma loop_ok S0 : forall fuel s c sizes out, sizes_for weights sizes -> good (ws ++ concat ds) out ->
  s <= S0 -> sum_list sizes <= s -> length out + sum_list sizes <= S0 ->
  match irs_loop rng alias fuel s c sizes weights l u pool ds (map pre ds) out with
  | Ok r => good (ws ++ concat ds) r /\ length r <= S0
  | Fail f => f = FFuel
  end.
Proof.
  induction fuel as [|fuel IH]; intros s c sizes out Z G Ls Lz Lo; simpl; auto.
  destruct (round_ok sizes c Z) as (r & -> & Gr & Lr & _). cbn [bind].
  assert (G' : good (ws ++ concat ds) (out ++ r)).
  { intros w W. apply in_app_or in W. destruct W; [apply G|apply Gr]; auto. }
  assert (L' : length (out ++ r) <= S0) by (rewrite app_length; lia).
  destruct (Nat.ltb_spec (length (out ++ r)) s) as [Q|Q]; auto.
  destruct (distribute_ok alias AO (s - length (out ++ r)) (c + sum_list sizes) weights) as (sz & -> & Z' & S').
  cbn [bind]. apply IH; auto; try lia.
  - rewrite S'. destruct (_ =? 0); lia.
  - rewrite S'. destruct (_ =? 0); lia.
Qed.

(** Every outcome is sound, and the only failure is running out of rounds. *)
Lemma irs_sound fuel s :
  match irs_query rng alias lbf ubf fuel rej s l u ws ds with
  | Ok out => length out <= s /\ forall r, In r out -> stored_in_range l u ws ds r
  | Fail f => f = FFuel
  end.
Proof.
  unfold irs_query. rewrite (preprocs_ok ds DO). cbn [bind].
  destruct (distribute_ok alias AO s 0 weights) as (sizes & -> & Z & S'). cbn [bind].
  assert (sum_list sizes <= s) by (rewrite S'; destruct (_ =? 0); lia).
  pose proof (loop_ok s fuel s s sizes [] Z) as H'.
  destruct (irs_loop rng alias fuel s s sizes weights l u pool ds (map pre ds) []) as [out|f]; cbn [bind].
  - destruct H' as (G & L); auto; simpl; try lia. { intros ? []. }
    split; [now rewrite map_length|]. intros r Hr. apply in_map_iff in Hr. destruct Hr as (w & <- & W).
    destruct (G w W) as (I & Q). split; [|now exists w]. unfold in_range in Q. apply andb_true_iff in Q.
    destruct Q as (Q1 & Q2). apply Z.leb_le in Q1, Q2. auto.
  - apply H'; auto; simpl; try lia. intros ? [].
Qed.


(** A record in range makes its own source's weight positive. *)
Lemma weight_pos : (exists r, stored_in_range l u ws ds r) -> sum_list weights <> 0.
Proof.
  intros (r & Hr & w & W & <-) Q. apply in_app_or in W. destruct W as [W|W].
  - assert (length pool = 0) by (eapply sum_zero_in; [exact Q|now left]).
    assert (In w pool); [|destruct pool; [auto|discriminate]].
    unfold irs_pool. destruct rej; auto. apply filter_In. split; auto.
    unfold in_range. apply andb_true_iff. split; apply Z.leb_le; lia.
  - apply in_concat in W. destruct W as (d & D & W).
    assert (Z0 : il_weight (pre d) = 0).
    { eapply sum_zero_in; [exact Q|]. right. apply in_map, in_map, D. }
    rewrite Forall_forall in DO. destruct (DO d D) as (NE & S).
    apply In_nth_error in W. destruct W as (i & W).
    pose proof (prefixed_count _ _ (sorted_lt_key l d S) i w W) as A.
    pose proof (prefixed_count _ _ (sorted_le_key u d S) i w W) as B. cbn beta in A, B.
    assert (i < cu d) by (apply B, Z.leb_le; lia).
    assert (~ i < cl d) by (intros X; apply A, Z.ltb_lt in X; lia).
    assert (i < length d) by (apply nth_error_Some; congruence).
    simpl in Z0. destruct (Nat.eqb_spec (cl d) (length d)); lia.
Qed.

(** Without rejection, one round delivers the requested number. *)
Lemma irs_exact_le fuel s : 0 < fuel -> all_fit -> (exists r, stored_in_range l u ws ds r) ->
  exists out, irs_query rng alias lbf ubf fuel rej s l u ws ds = Ok out /\ length out = s.
Proof.
  intros HF AF EX. unfold irs_query. rewrite (preprocs_ok ds DO). cbn [bind].
  destruct (distribute_ok alias AO s 0 weights) as (sizes & -> & Z & S'). cbn [bind].
  destruct (Nat.eqb_spec (sum_list weights) 0) as [Q|Q]; [now apply weight_pos in Q|].
  destruct fuel as [|fuel]; [lia|]. cbn [irs_loop].
  destruct (round_ok sizes s Z) as (r & -> & _ & _ & E). cbn [bind]. rewrite app_nil_l, (E AF), S'.
  rewrite Nat.ltb_irrefl. cbn [bind]. eexists. split; [reflexivity|]. rewrite map_length, (E AF). auto.
Qed.

(** Without a record in range the query never ends. *)
Lemma loop_empty s : 0 < s -> (forall r, ~ stored_in_range l u ws ds r) -> forall fuel c sizes,
  sizes_for weights sizes ->
  irs_loop rng alias fuel s c sizes weights l u pool ds (map pre ds) [] = Fail FFuel.
Proof.
  intros S0 NR. induction fuel as [|fuel IH]; intros c sizes Z; simpl; auto.
  destruct (round_ok sizes c Z) as (r & -> & G & _ & _). cbn [bind].
  destruct r as [|w r].
  - simpl. destruct (Nat.ltb_spec 0 s); [|lia]. rewrite Nat.sub_0_r.
    destruct (distribute_ok alias AO s (c + sum_list sizes) weights) as (sz & -> & Z' & _). cbn [bind]. auto.
  - exfalso. destruct (G w (or_introl eq_refl)) as (I & Q). apply (NR (wrec w)).
    unfold in_range in Q. apply andb_true_iff in Q. destruct Q as (Q1 & Q2). apply Z.leb_le in Q1, Q2.
    split; [lia|]. now exists w.
Qed.
Lemma irs_empty fuel s : 0 < s -> (forall r, ~ stored_in_range l u ws ds r) ->
  irs_query rng alias lbf ubf fuel rej s l u ws ds = Fail FFuel.
Proof.
  intros S0 NR. unfold irs_query. rewrite (preprocs_ok ds DO). cbn [bind].
  destruct (distribute_ok alias AO s 0 weights) as (sizes & -> & Z & _). cbn [bind].
  rewrite loop_empty; auto.
Qed.
End IRS.

Lemma irs_exact {R : Type} {RO : RecOps R} {RL : RecLaws R} {KO : KeyOps R} {KL : KeyLaws R} rng alias :
  alias_contract alias -> forall lbf ubf, bounds_exact (R := R) lbf ubf ->
  forall l u ws ds, Forall shard_ok ds -> forall rej fuel s, 0 < fuel -> all_fit ws rej ->
  (exists r, stored_in_range l u ws ds r) ->
  exists out, irs_query rng alias lbf ubf fuel rej s l u ws ds = Ok out /\ length out = s.
Proof.
  intros AO lbf ubf BE l u ws ds DO rej fuel s F A (r & S). apply irs_exact_le; auto; [|now exists r].
  destruct S as ((L & U) & _). lia.
Qed.

(** ** The ISAM tree provides the bounds *)
Section Isam.
Context {R : Type} {RO : RecOps R} {RL : RecLaws R} {KO : KeyOps R} {KL : KeyLaws R}.
Lemma isam_bounds_exact F L : 2 <= F -> 1 <= L ->
  bounds_exact (R := R) (isam_find F L) (isam_find_upper F L).
Proof.
  intros HF HL d k NE S. destruct (built F L HF HL d S NE) as (t & B & LB & UB).
  unfold isam_find, isam_find_upper. rewrite B. cbn [bind]. split; auto.
Qed.
End Isam.

(** ** Weighted sampling *)
Section WSS.
Context {R : Type} {RO : RecOps R}.
Variable rng : nat -> nat.
Variables alias wsample : list nat -> nat -> nat.
Variable rweight : R -> nat.
Variable grain : nat.

Lemma wss_local_in d : forall n c r, wss_local_query rweight wsample n c d = Ok r ->
  forall w, In w r -> In w d /\ is_del w = false.
Proof.
  induction n as [|n IH]; intros c r H w W; cbn [wss_local_query] in H.
  - injection H as <-. destruct W.
  - destruct (nth_error d _) as [x|] eqn:E; [|discriminate].
    destruct (wss_local_query rweight wsample n (S c) d) as [r'|] eqn:Q; [|discriminate]. cbn [bind] in H.
    injection H as <-. destruct (is_del x) eqn:X; [eapply IH; eauto|].
    destruct W as [<-|W]; [|eapply IH; eauto]. split; auto. eapply nth_error_In; eauto.
Qed.

Lemma removelast_nth {A} (l : list A) i x : nth_error l i = Some x -> i < length l - 1 -> In x (removelast l).
Proof.
  revert i. induction l as [|y l IH]; intros i E H; [simpl in H; lia|].
  destruct l as [|z l]; [simpl in H; lia|]. cbn [removelast].
  destruct i as [|i]; simpl in E; [injection E as ->; now left|].
  right. apply (IH i); auto. simpl in *. lia.
Qed.

Lemma wss_buffer_in ws : forall n c r, wss_buffer_query rng rweight grain n c ws = Ok r ->
  forall w, In w r -> In w (removelast ws) /\ is_del w = false.
Proof.
  induction n as [|n IH]; intros c r H w W; cbn [wss_buffer_query] in H.
  - injection H as <-. destruct W.
  - destruct ws as [|w0 ws']; [discriminate|]. set (ws := w0 :: ws') in *. unfold draw in H.
    destruct (Nat.eqb_spec (length ws - 1) 0) as [Z|Z]; [discriminate|]. cbn [bind] in H.
    unfold nth_res in H. destruct (nth_error ws _) as [x|] eqn:E; [|discriminate]. cbn [bind] in H.
    destruct (wss_buffer_query rng rweight grain n (S (S c)) ws) as [r'|] eqn:Q; [|discriminate]. cbn [bind] in H.
    injection H as <-.
    destruct ((rng (S c) mod grain * max_weight rweight ws <=? rweight (wrec x) * grain) && negb (is_del x)) eqn:X.
    + destruct W as [<-|W]; [|eapply IH; eauto]. apply andb_true_iff in X. destruct X as (_ & X).
      apply negb_true_iff in X. split; auto. eapply removelast_nth; [exact E|].
      apply Nat.mod_upper_bound. auto.
    + eapply IH; eauto.
Qed.

Lemma wss_shards_in : forall ds sizes c r, wss_shards rweight wsample sizes c ds = Ok r ->
  forall w, In w r -> In w (concat ds) /\ is_del w = false.
Proof.
  induction ds as [|d ds IH]; intros [|n sizes] c r H w W; cbn [wss_shards] in H;
    try (injection H as <-; destruct W).
  destruct (wss_local_query rweight wsample n c d) as [a|] eqn:A; [|discriminate]. cbn [bind] in H.
  destruct (wss_shards rweight wsample sizes (c + n) ds) as [b|] eqn:B; [|discriminate]. cbn [bind] in H.
  injection H as <-. simpl. rewrite in_app_iff. apply in_app_or in W. destruct W as [W|W].
  - destruct (wss_local_in _ _ _ _ A w W). auto.
  - destruct (IH _ _ _ B w W). auto.
Qed.

Lemma wss_round_in sizes c ws ds r : wss_round rng rweight grain wsample sizes c ws ds = Ok r ->
  forall w, In w r -> In w (removelast ws ++ concat ds) /\ is_del w = false.
Proof.
  unfold wss_round. destruct sizes as [|n sizes]; [discriminate|]. intros H w W.
  destruct (wss_buffer_query rng rweight grain n c ws) as [a|] eqn:A; [|discriminate]. cbn [bind] in H.
  destruct (wss_shards rweight wsample sizes (c + 2 * n) ds) as [b|] eqn:B; [|discriminate]. cbn [bind] in H.
  injection H as <-. rewrite in_app_iff. apply in_app_or in W. destruct W as [W|W].
  - destruct (wss_buffer_in _ _ _ _ A w W). auto.
  - destruct (wss_shards_in _ _ _ _ B w W). auto.
Qed.

Lemma wss_loop_in ws ds weights : forall fuel s c sizes out r,
  (forall w, In w out -> In w (removelast ws ++ concat ds) /\ is_del w = false) ->
  wss_loop rng alias rweight grain wsample fuel s c sizes weights ws ds out = Ok r ->
  forall w, In w r -> In w (removelast ws ++ concat ds) /\ is_del w = false.
Proof.
  induction fuel as [|fuel IH]; intros s c sizes out r G H; cbn [wss_loop] in H; [discriminate|].
  destruct (wss_round rng rweight grain wsample sizes c ws ds) as [a|] eqn:A; [|discriminate]. cbn [bind] in H.
  assert (G' : forall w, In w (out ++ a) -> In w (removelast ws ++ concat ds) /\ is_del w = false).
  { intros w W. apply in_app_or in W. destruct W as [W|W]; auto. eapply wss_round_in; eauto. }
  destruct (length (out ++ a) <? s); [|injection H as <-; auto].
  destruct (wss_distribute alias _ _ weights sizes) as [sz|]; [|discriminate]. cbn [bind] in H.
  eapply IH; eauto.
Qed.

(** Every sample is an untagged record of the shards or of the view without its last
    record. *)
Lemma wss_in fuel s ws ds out : wss_query rng alias rweight grain wsample fuel s ws ds = Ok out ->
  forall r, In r out -> exists w, In w (removelast ws ++ concat ds) /\ is_del w = false /\ wrec w = r.
Proof.
  unfold wss_query. intros H r Hr. destruct (wss_distribute alias s 0 _ _) as [sz|]; [|discriminate].
  cbn [bind] in H.
  destruct (wss_loop rng alias rweight grain wsample fuel s s sz _ ws ds []) as [o|] eqn:E; [|discriminate].
  cbn [bind] in H. injection H as <-. apply in_map_iff in Hr. destruct Hr as (w & <- & W).
  exists w. apply and_assoc. split; auto. eapply wss_loop_in; [|exact E|exact W]. intros ? [].
Qed.

Hypothesis AO : alias_contract alias.

(** One buffered record of positive weight: the library aborts. *)
Lemma wss_single fuel s w : 0 < fuel -> 0 < s -> 0 < rweight (wrec w) ->
  wss_query rng alias rweight grain wsample fuel s [w] [] = Fail FAssert.
Proof.
  intros HF HS HW. unfold wss_query, wss_distribute. simpl length.
  set (weights := sum_list (weights_of rweight [w]) :: map _ []).
  assert (T : sum_list weights <> 0) by (unfold weights, sum_list, weights_of; simpl; lia).
  destruct (spread_ok alias AO weights T s 0 (repeat 0 1) eq_refl) as (sz & -> & L & Sm & _). cbn [bind].
  destruct sz as [|n [|]]; try discriminate. unfold sum_list in Sm. simpl in Sm.
  destruct fuel as [|fuel]; [lia|]. cbn [wss_loop wss_round]. destruct n as [|n]; [lia|]. reflexivity.
Qed.

(** Shards only, without tags: the requested number. *)
Hypothesis WO : alias_contract wsample.

Lemma wss_local_exact d : (forall w, In w d -> is_del w = false) -> sum_list (weights_of rweight d) <> 0 ->
  forall n c, exists r, wss_local_query rweight wsample n c d = Ok r /\ length r = n.
Proof.
  intros U T. induction n as [|n IH]; intros c; cbn [wss_local_query].
  - now exists [].
  - destruct (WO (weights_of rweight d) c T) as (m & M & _).
    destruct (nth_error d (wsample (weights_of rweight d) c)) as [w|] eqn:E.
    + destruct (IH (S c)) as (r & -> & L). cbn [bind]. rewrite (U w) by (eapply nth_error_In; eauto).
      exists (w :: r). simpl. auto.
    + unfold weights_of in M at 1. rewrite nth_error_map, E in M. discriminate.
Qed.

Lemma wss_shards_exact : forall ds sizes c, (forall w, In w (concat ds) -> is_del w = false) ->
  sizes_for (map (fun d => sum_list (weights_of rweight d)) ds) sizes ->
  exists r, wss_shards rweight wsample sizes c ds = Ok r /\ length r = sum_list sizes.
Proof.
  induction ds as [|d ds IH]; intros [|n sizes] c U (L & Z); try discriminate.
  - now exists [].
  - cbn [wss_shards]. assert (exists a, wss_local_query rweight wsample n c d = Ok a /\ length a = n) as (a & -> & La).
    { destruct (Nat.eq_dec (sum_list (weights_of rweight d)) 0) as [Q|Q].
      - specialize (Z 0). simpl in Z. rewrite Q in Z. injection (Z eq_refl) as ->. now exists [].
      - apply wss_local_exact; auto. intros w W. apply U. simpl. rewrite in_app_iff. auto. }
    cbn [bind]. destruct (IH sizes (c + n)) as (b & -> & Lb).
    { intros w W. apply U. simpl. rewrite in_app_iff. auto. }
    { simpl in L. injection L as L. split; auto. intros j J. apply (Z (S j)). auto. }
    cbn [bind]. exists (a ++ b). split; auto. rewrite app_length, La, Lb. reflexivity.
Qed.

Lemma wss_exact fuel s ds : 0 < fuel -> (forall w, In w (concat ds) -> is_del w = false) ->
  (exists w, In w (concat ds) /\ 0 < rweight (wrec w)) ->
  exists out, wss_query rng alias rweight grain wsample fuel s [] ds = Ok out /\ length out = s.
Proof.
  intros HF U (w & W & HW). unfold wss_query, wss_distribute.
  set (weights := sum_list (weights_of rweight []) :: map (fun d => sum_list (weights_of rweight d)) ds).
  assert (T : sum_list weights <> 0).
  { intros Q. apply in_concat in W. destruct W as (d & D & W).
    assert (sum_list (weights_of rweight d) = 0).
    { eapply sum_zero_in; [exact Q|]. right. apply in_map_iff. now exists d. }
    assert (rweight (wrec w) = 0); [|lia]. eapply sum_zero_in; [exact H|]. apply in_map_iff. now exists w. }
  destruct (spread_ok alias AO weights T s 0 (repeat 0 (length weights)) (repeat_length _ _)) as (sz & -> & L & Sm & J).
  cbn [bind]. destruct fuel as [|fuel]; [lia|]. cbn [wss_loop]. rewrite sum_repeat0 in Sm.
  destruct sz as [|n sz]; [discriminate|].
  assert (n = 0). { specialize (J 0 eq_refl). simpl in J. congruence. } subst n.
  cbn [wss_round wss_buffer_query bind].
  destruct (wss_shards_exact ds sz (s + 2 * 0) U) as (b & -> & Lb).
  { simpl in L. injection L as L. split; auto. intros j Hj. specialize (J (S j) Hj). simpl in J. rewrite J.
    apply nth_repeat0. rewrite <- L. apply Nat.lt_le_trans with (length (map (fun d => sum_list (weights_of rweight d)) ds)).
    - apply nth_error_Some. congruence.
    - lia. }
  cbn [bind]. simpl app. rewrite Lb. unfold sum_list in Sm. simpl in Sm. fold (sum_list sz) in Sm.
  rewrite Sm, Nat.ltb_irrefl. cbn [bind]. eexists. split; [reflexivity|]. rewrite map_length. lia.
Qed.
End WSS.

(** An alias structure that takes the first positive weight. *)
Fixpoint first_pos (ws : list nat) (c : nat) : nat :=
  match ws with
  | [] => 0
  | 0 :: ws' => S (first_pos ws' c)
  | S _ :: _ => 0
  end.
Lemma first_pos_ok : alias_contract first_pos.
Proof.
  intros ws c. induction ws as [|[|n] ws IH]; intros H; simpl.
  - now elim H.
  - apply IH. exact H.
  - exists (S n). split; auto. lia.
Qed.

(** Every buffered record except the last can be sampled. *)
Lemma wss_covers {R} {RO : RecOps R} (rweight : R -> nat) grain ws ds i w :
  nth_error ws i = Some w -> i + 1 < length ws -> 0 < rweight (wrec w) -> is_del w = false ->
  exists rng alias, alias_contract alias /\
    forall wsample, wss_query rng alias rweight grain wsample 1 1 ws ds = Ok [wrec w].
Proof.
  intros E L HW U. exists (fun c => if c =? 1 then i else 0), first_pos. split; [apply first_pos_ok|]. intros wsample.
  unfold wss_query, wss_distribute.
  set (weights := map (fun d => sum_list (weights_of rweight d)) ds).
  assert (P : sum_list (weights_of rweight ws) <> 0).
  { intros Q. assert (rweight (wrec w) = 0); [|lia]. eapply sum_zero_in; [exact Q|]. apply in_map_iff.
    exists w. split; auto. eapply nth_error_In; eauto. }
  destruct (sum_list (weights_of rweight ws)) as [|n] eqn:Q; [lia|]. cbn [length repeat spread first_pos].
  cbn [nth_res nth_error bind set_nth wss_loop wss_round].
  unfold wss_buffer_query. destruct ws as [|w0 ws']; [destruct i; discriminate|]. set (ws := w0 :: ws') in *.
  unfold draw. destruct (Nat.eqb_spec (length ws - 1) 0) as [Z|_]; [lia|]. rewrite Nat.eqb_refl. cbn [bind].
  rewrite Nat.mod_small by lia. unfold nth_res. rewrite E. cbn [bind].
  cbn [Nat.eqb]. replace (0 mod grain) with 0 by (destruct grain; auto; symmetry; apply Nat.mod_0_l; lia).
  rewrite Nat.mul_0_l. cbn [Nat.leb]. rewrite U. cbn [negb andb].
  assert (SH : wss_shards rweight wsample (repeat 0 (length weights)) (1 + 2 * 1) ds = Ok []).
  { unfold weights. rewrite map_length. generalize (1 + 2 * 1) as c. clear. induction ds as [|d ds IH]; intros c; auto.
    cbn [length repeat wss_shards wss_local_query bind]. rewrite IH. reflexivity. }
  rewrite SH. reflexivity.
Qed.

(** Weighted sampling of a shard whose records are all tagged never ends. *)
Lemma wss_forever {R} {RO : RecOps R} (rweight : R -> nat) grain rng (w : wrapped R) :
  is_del w = true -> 0 < rweight (wrec w) -> forall fuel,
  wss_query rng first_pos rweight grain first_pos fuel 1 [] [[w]] = Fail FFuel.
Proof.
  intros U HW fuel. destruct (rweight (wrec w)) as [|m] eqn:M; [lia|].
  assert (Lq : forall n c, wss_local_query rweight first_pos n c [w] = Ok []).
  { induction n as [|n IH]; intros c; auto. cbn [wss_local_query weights_of map]. rewrite M. cbn [first_pos nth_error].
    rewrite IH. cbn [bind]. now rewrite U. }
  assert (Lp : forall fuel n c, wss_loop rng first_pos rweight grain first_pos fuel 1 c [0; n]
                 [0; sum_list [S m]] [] [[w]] [] = Fail FFuel).
  { clear fuel. induction fuel as [|fuel IH]; intros n c; auto.
    cbn [wss_loop wss_round wss_buffer_query wss_shards bind]. rewrite Lq. cbn [bind].
    simpl app. unfold wss_distribute. simpl spread. apply IH. }
  unfold wss_query, wss_distribute. cbn [map weights_of]. rewrite M. simpl spread. cbn [bind]. change (sum_list []) with 0. rewrite Lp. reflexivity.
Qed.

(** ** Witnesses *)
Lemma irs_empty_witness : exists (ws : list (wrapped kv)) ds s l u, (l <= u)%Z /\ ws <> [] /\ 0 < s /\
  Forall (fun d => d <> [] /\ sorted d) ds /\
  forall rng alias fuel, alias_contract alias ->
    irs_query rng alias (isam_find 2 1) (isam_find_upper 2 1) fuel true s l u ws ds = Fail FFuel.
Proof.
  exists [W 0%N (KV 1 0)%Z], [[W 0%N (KV 9 0)%Z]], 1, 3%Z, 4%Z.
  assert (F : Forall (fun d : list (wrapped kv) => d <> [] /\ sorted d) [[W 0%N (KV 9 0)%Z]]).
  { constructor; [|constructor]. split; [discriminate|]. constructor; constructor. }
  split; [lia|]. split; [discriminate|]. split; [lia|]. split; auto.
  intros rng alias fuel AO.
  apply (irs_empty rng alias AO _ _ (isam_bounds_exact 2 1 (le_n 2) (le_n 1)) 3 4 ltac:(lia) _ _ F true fuel 1 (le_n 1)).
  intros r (Hr & w & [<-|[<-|[]]] & <-); simpl in Hr; lia.
Qed.

Lemma wss_last_witness : exists (rweight : kv -> nat) ws r, In (W 0%N r) ws /\ 0 < rweight r /\
  forall grain rng alias wsample fuel s out,
    wss_query rng alias rweight grain wsample fuel s ws [] = Ok out -> ~ In r out.
Proof.
  exists (fun _ => 1), [W 0%N (KV 1 0); W 0%N (KV 2 0); W 0%N (KV 3 0)]%Z, (KV 3 0)%Z.
  split; [simpl; tauto|]. split; [lia|]. intros grain rng alias wsample fuel s out H I.
  destruct (wss_in rng alias wsample _ grain fuel s _ _ out H _ I) as (w & W & _ & Q).
  simpl in W. destruct W as [<-|[<-|[]]]; discriminate.
Qed.
